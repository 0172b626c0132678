(* The start and the result of the Jacobi loops. *)
From mathcomp Require Import all_ssreflect all_algebra.
From mathcomp Require Import ring.
From Verif Require Import Spec M_Vec P_Vec M_Mat P_Mat P_Mat2 M_LU P_Tri P_LU P_LU2 M_QR P_QR M_SVD P_SVD2 P_SVD.
Set Implicit Arguments. Unset Strict Implicit. Unset Printing Implicit Defensive.
Import Order.Theory GRing.Theory Num.Theory.
Local Open Scope ring_scope.

Section Res.
Variable R : rcfType.
Implicit Types (A U V X : mat R).

Lemma std_max_ge (x y : R) : x <= std_max x y /\ y <= std_max x y.
Proof. by rewrite /std_max; case: ltP => h; split=> //; apply: ltW. Qed.

Lemma mat_scale_elementsP r c A : wf r c A ->
  [/\ 0 <= mat_scale_elements r c A,
      forall i j, (i < r)%N -> (j < c)%N -> `|get A i j| <= mat_scale_elements r c A &
      (mat_scale_elements r c A == 0) = (mxof r c A == 0)].
Proof.
move=> w; rewrite /mat_scale_elements.
set cnt := stripe_count _ _ _; set body := fun s scale => _.
have [h0 h1 h2] : [/\ 0 <= for_loop 0 cnt body 0,
    forall s, (s < cnt)%N -> scale_elements (nth [::] (stripes A) s) <= for_loop 0 cnt body 0 &
    (forall s, (s < cnt)%N -> scale_elements (nth [::] (stripes A) s) = 0) -> for_loop 0 cnt body 0 = 0].
  pose P k (x : R) := [/\ 0 <= x, forall s, (s < k)%N -> scale_elements (nth [::] (stripes A) s) <= x &
    (forall s, (s < cnt)%N -> scale_elements (nth [::] (stripes A) s) = 0) -> x = 0].
  suff : P cnt (for_loop 0 cnt body 0) by [].
  apply: (@for_loop_ind _ P) => // k x /andP [_ kc] [x0 xs xz]; rewrite /body.
  have [m1 m2] := std_max_ge x (scale_elements (nth [::] (stripes A) k)).
  split; first exact: le_trans m1.
    move=> s; rewrite ltnS leq_eqVlt => /orP [/eqP ->|sk] //; apply: le_trans m1; exact: xs.
  by move=> z; rewrite z // (xz z) /std_max ltxx.
have g i j : (i < r)%N -> (j < c)%N -> `|get A i j| <= for_loop 0 cnt body 0.
  move=> hi hj; set k := if rowmaj A then i else j.
  have hk : (k < cnt)%N by rewrite /k /cnt /stripe_count; case: (rowmaj A).
  apply: le_trans (h1 k hk); apply: scale_elements_ge; have := wf_dim w hk.
  rewrite /get /k /stripe_dim; case: (rowmaj A) => sz; apply: mem_nth; by rewrite sz.
split=> //; apply/eqP/eqP => [z|z].
  by apply/matrixP => i j; rewrite !mxE; apply/eqP; rewrite -normr_le0 -z g.
apply: h2 => s hs; apply/eqP; rewrite scale_elements_eq0; apply/(all_nthP 0) => k.
rewrite (wf_dim w hs) => hk; have wj := @nth_get_row.
have get0 i j : (i < r)%N -> (j < c)%N -> get A i j = 0.
  by move=> hi hj; have := congr1 (fun M : 'M_(r, c) => M (Ordinal hi) (Ordinal hj)) z; rewrite !mxE.
move: hs hk (wf_dim w hs) get0; rewrite /cnt /stripe_count /stripe_dim /get; case: (rowmaj A) => hs hk sz get0.
  by rewrite (set_nth_default (junk A)) ?sz // get0.
by rewrite (set_nth_default (junk A)) ?sz // get0.
Qed.

Lemma mat_divP r c A s : wf r c A -> s != 0 ->
  exists2 B, mat_div r c A s = Some B & [/\ wf r c B, rowmaj B = rowmaj A &
    forall i j, (i < r)%N -> (j < c)%N -> get B i j = get A i j / s].
Proof.
move=> w s0; rewrite /mat_div (negPf s0); eexists; first by reflexivity.
exact: (@scalar_opP _ _ (fun x => x / s)).
Qed.

Definition padded r c A (s : R) : 'M[R]_r := \matrix_(i, j) if (j < c)%N then get A i j / s else 0.

Lemma two_sided_initP rows cols A As s : (cols <= rows)%N ->
  wf rows cols As -> (forall i j, (i < rows)%N -> (j < cols)%N -> get As i j = get A i j / s) ->
  inv2 cols (padded rows cols A s) (two_sided_init rows cols A As) /\
  forall i j, (i < rows)%N -> (j < rows)%N ->
    get (two_sided_init rows cols A As).1.2 i j = if (j < cols)%N then get A i j / s else 0.
Proof.
move=> cr wAs hAs; rewrite /two_sided_init.
have [w1 _ _ i1] := identityP false (junk A) rows rows; have [w2 _ _ i2] := identityP true (junk A) rows rows.
have [||[w3 _ _] g3] := @insertP _ rows rows rows cols 0 0 As (uninit (rowmaj A) (junk A) rows rows) (wf_uninit _ _ _ _); rewrite ?addn0 //.
set X0 := insert _ _ _ _ _ _ in w3 g3 *; set X := for_loop _ _ _ _.
have [wX gX] : wf rows rows X /\ forall i j, (i < rows)%N -> (j < rows)%N -> get X i j = if (j < cols)%N then get A i j / s else 0.
  pose P k (Y : mat R) := wf rows rows Y /\ forall i j, (i < rows)%N -> (j < rows)%N ->
    get Y i j = if (j < cols)%N then get A i j / s else if (j < k)%N then 0 else get X0 i j.
  have : P rows X.
    apply: (@for_loop_ind _ P) => //.
      split=> // i j hi hj; rewrite g3 !addn0 hi /= !subn0; case: ifP => // jc; rewrite hAs //.
    move=> k Y /andP [ck kr] [wY gY].
    pose P' m (Z : mat R) := wf rows rows Z /\ forall i j, (i < rows)%N -> (j < rows)%N ->
      get Z i j = if (j == k) && (i < m)%N then 0 else get Y i j.
    have : P' rows (for_loop 0 rows (fun row X => set X row k 0) Y).
      apply: (@for_loop_ind _ P') => //; first by split=> // i j _ _; rewrite ltn0 andbF.
      move=> m Z /andP [_ mr] [wZ gZ]; split; first exact: wf_set.
      move=> i j hi hj; rewrite get_set gZ // ltnS [(i <= m)%N]leq_eqVlt andbC.
      by case: (j =P k); case: (i =P m).
    case=> wZ gZ; split=> // i j hi hj; rewrite gZ // gY // hi andbT.
    case: (j =P k) => [->|jk]; first by rewrite ltnNge ck /= ltnSn.
    by rewrite ltnS [(j <= k)%N]leq_eqVlt (introF eqP jk).
  by case=> wX gX; split=> // i j hi hj; rewrite gX // hj.
split=> //; split=> //; rewrite ?mxof_identity ?trmx1 ?mulmx1 ?mul1mx //.
  by apply/matrixP => i j; rewrite !mxE gX.
split=> i j hi; last by move=> hj _; rewrite i2.
by case/andP => h1 h2; rewrite gX // ltnNge h1.
Qed.

Lemma diag_mul r m c (U : 'M[R]_(r, m)) (s : 'rV[R]_m) (V : 'M[R]_(m, c)) i j :
  (U *m diag_mx s *m V) i j = \sum_k U i k * s 0 k * V k j.
Proof.
rewrite mxE; apply: eq_bigr => k _; congr (_ * _); rewrite mxE (bigD1 k) //= mxE eqxx mulr1n big1 ?addr0 // => l lk.
by rewrite mxE (negPf lk) mulr0n mulr0.
Qed.

Lemma two_sided_resultP rows cols A s rm st : (cols <= rows)%N -> s != 0 ->
  inv2 cols (padded rows cols A s) st ->
  let d := two_sided_result rows cols rm s st in
  let U := mxof rows cols (svdU d) in let V := mxof cols cols (svdV d) in
  [/\ [/\ wf rows cols (svdU d), size (svdS d) = cols & wf cols cols (svdV d)],
      U^T *m U = 1%:M, V *m V^T = 1%:M &
      fro2 (mxof rows cols A - U *m diag_mx (rv cols (svdS d)) *m V) = s ^+ 2 * offX rows st].
Proof.
move=> cr s0; case: st => [[U X] V] [[wU wX wV] oU oV eM [zX dV]] d U' V'.
have [wE _ gE] := extractP rows cols 0 0 U; have [w1 _ _ g1] := convertP rm wE.
have [wE' _ gE'] := extractP cols cols 0 0 V; have [w2 _ _ g2] := convertP rm wE'.
have gU i j : (i < rows)%N -> (j < cols)%N -> get (svdU d) i j = get U i j.
  by move=> hi hj; rewrite g1 // gE // !addn0.
have gV i j : (i < cols)%N -> (j < cols)%N -> get (svdV d) i j = get V i j.
  by move=> hi hj; rewrite g2 // gE' // !addn0.
have gS i : (i < cols)%N -> nth 0 (svdS d) i = get X i i * s.
  by move=> hi; rewrite /d /= (nth_map 0) ?size_mkseq // nth_mkseq.
have wd i : (i < cols)%N -> (i < rows)%N by move=> h; apply: leq_trans cr.
split.
- by split=> //; rewrite size_map size_mkseq.
- apply/matrixP => i j; have /matrixP /(_ (widen_ord cr i) (widen_ord cr j)) := mulmx1C oU.
  rewrite !mxE -!val_eqE /= => <-; apply: eq_bigr => k _; rewrite !mxE !gU //.
- apply/matrixP => i j; have /matrixP /(_ (widen_ord cr i) (widen_ord cr j)) := mulmx1C oV.
  rewrite !mxE -!val_eqE /= => <-.
  under eq_bigr do rewrite !mxE !gV //.
  under [RHS]eq_bigr do rewrite !mxE.
  symmetry; apply: (sum_trunc (f := fun k => get V i k * get V j k)) => // k /andP [k1 k2].
  have -> : get V i k = 0; last by rewrite mul0r.
  rewrite dV ?k1 ?orbT ?(leq_trans (ltn_ord i) cr) //.
  by have /negPf -> : (i : nat) != k by apply: contraTneq k1 => <-; rewrite -ltnNge.
have subE m n (P Q : 'M[R]_(m, n)) i j : (P - Q) i j = P i j - Q i j by rewrite !mxE.
pose Xd : 'M[R]_rows := \matrix_(i, j) if i == j then get X i i else 0.
have UXd : forall i j, (mxof rows rows U *m Xd *m mxof rows rows V) i j = \sum_(k < rows) get U i k * get X k k * get V k j.
  move=> i j; rewrite mxE; apply: eq_bigr => k _; rewrite mxE (bigD1 k) //= !mxE eqxx big1 ?addr0 // => l lk.
  by rewrite !mxE (negPf lk) mulr0.
have -> : offX rows (U, X, V) = fro2 (mxof rows rows U *m (mxof rows rows X - Xd) *m mxof rows rows V).
  rewrite fro2_orth ?(mulmx1C oU) ?(mulmx1C oV) //; apply: eq_bigr => i _; apply: eq_bigr => j _.
  rewrite !mxE val_eqE; case: eqP => [->|_]; first by rewrite subrr expr0n.
  by rewrite subr0.
rewrite mulmxBr mulmxBl eM /fro2 mulr_sumr; apply: eq_bigr => i _.
rewrite mulr_sumr; under [RHS]eq_bigr => j _.
  rewrite subE UXd [padded _ _ _ _ i j]mxE; over.
rewrite (@sum_trunc _ cols rows (fun j => s ^+ 2 * ((if (j < cols)%N then get A i j / s else 0) - \sum_(k < rows) get U i k * get X k k * get V k j) ^+ 2)) //.
  apply: eq_bigr => j _; rewrite subE diag_mul [mxof _ _ A i j]mxE ltn_ord.
  rewrite (@sum_trunc _ cols rows (fun k => get U i k * get X k k * get V k j)) //; last first.
    by move=> k /andP [k1 k2]; rewrite zX ?k1 // mulr0 mul0r.
  rewrite -exprMn; congr (_ ^+ 2); rewrite mulrBr mulrC divfK //; congr (_ - _); rewrite mulr_sumr.
  apply: eq_bigr => k _; rewrite !mxE gU // gV // gS //; ring.
move=> j /andP [j1 j2]; rewrite ltnNge j1 /= big1 ?subrr ?expr0n ?mulr0 // => k _.
case: (ltnP k cols) => kc; last by rewrite zX ?kc ?ltn_ord // mulr0 mul0r.
rewrite dV ?j1 ?orbT //; have /negPf -> : (k : nat) != j by apply: contraTneq kc => ->; rewrite -leqNgt.
by rewrite mulr0.
Qed.

Lemma off2_bound n m c (M : 'M[R]_(n, m)) : (c <= m)%N -> (forall i j, `|M i j| <= 1) ->
  (forall i (j : 'I_m), (c <= j)%N -> M i j = 0) -> off2 M <= (n * c)%:R.
Proof.
move=> cm h1 h0; rewrite /off2.
have -> : (n * c)%:R = \sum_(i < n) \sum_(j < m) (if (j < c)%N then 1 else 0) :> R.
  rewrite sumr_const card_ord mulnC natrM mulr_natr; congr (_ *+ _).
  rewrite (@sum_trunc _ c m (fun j => if (j < c)%N then 1 else 0)) //; last by move=> j /andP [j1 _]; rewrite ltnNge j1.
  by under eq_bigr => j _ do rewrite ltn_ord; rewrite sumr_const card_ord.
apply: ler_sum => i _; apply: ler_sum => j _; case: ifP => [_|_]; first by case: ifP => _; rewrite ?ler01.
case: ltnP => jc; last by rewrite h0 // expr0n.
by rewrite -real_normK ?num_real // expr_le1 ?normr_ge0.
Qed.
End Res.
