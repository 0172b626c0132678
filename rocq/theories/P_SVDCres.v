(* The start and the result of the two-sided Jacobi loop on complex matrices. *)
From mathcomp Require Import all_ssreflect all_algebra.
From mathcomp Require Import ring complex.
From Verif Require Import Spec M_Vec P_Vec M_Mat P_Mat P_Mat2 M_LU P_Tri P_LU P_LU2 M_Complex P_Complex M_QRC P_QRC M_SVD P_SVD2 P_SVD M_SVDC P_SVDC2 P_SVDC.
Set Implicit Arguments. Unset Strict Implicit. Unset Printing Implicit Defensive.
Import Order.Theory GRing.Theory Num.Theory.
Local Open Scope complex_scope.
Local Open Scope ring_scope.

Section Res.
Variable R : rcfType.
Local Notation C := R[i].
Implicit Types (A U V X : mat C).

(* the singular values as a row of complex numbers *)
Definition rvc p (S : seq R) : 'rV[C]_p := \row_i (nth 0 S i)%:C.

Lemma mat_div_cP r c A (s : R) : wf r c A -> s != 0 ->
  exists2 B, mat_div r c A s%:C = Some B & [/\ wf r c B, rowmaj B = rowmaj A &
    forall i j, (i < r)%N -> (j < c)%N -> get B i j = get A i j / s%:C].
Proof.
move=> w s0; rewrite /mat_div rc_eq0 (negPf s0); eexists; first by reflexivity.
exact: (@scalar_opP _ _ (fun x => x / s%:C)).
Qed.

Definition padded_c r c A (s : R) : 'M[C]_r := \matrix_(i, j) if (j < c)%N then get A i j / s%:C else 0.
Definition diag0 c A (s : R) (i : nat) : C := if (i < c)%N then get A i i / s%:C else 0.

Lemma two_sided_init_cP rows cols A As (s : R) : (cols <= rows)%N ->
  wf rows cols As -> (forall i j, (i < rows)%N -> (j < cols)%N -> get As i j = get A i j / s%:C) ->
  inv2c cols (padded_c rows cols A s) (diag0 cols A s) (two_sided_init_c rows cols A As) /\
  forall i j, (i < rows)%N -> (j < rows)%N ->
    get (two_sided_init_c rows cols A As).1.2 i j = if (j < cols)%N then get A i j / s%:C else 0.
Proof.
move=> cr wAs hAs; rewrite /two_sided_init_c.
have [w1 _ _ i1] := identityP false (junk A) rows rows; have [w2 _ _ i2] := identityP true (junk A) rows rows.
have [||[w3 _ _] g3] := @insertP _ rows rows rows cols 0 0 As (uninit (rowmaj A) (junk A) rows rows) (wf_uninit _ _ _ _); rewrite ?addn0 //.
set X0 := insert _ _ _ _ _ _ in w3 g3 *; set X := for_loop _ _ _ _.
have [wX gX] : wf rows rows X /\ forall i j, (i < rows)%N -> (j < rows)%N -> get X i j = if (j < cols)%N then get A i j / s%:C else 0.
  pose P k (Y : mat C) := wf rows rows Y /\ forall i j, (i < rows)%N -> (j < rows)%N ->
    get Y i j = if (j < cols)%N then get A i j / s%:C else if (j < k)%N then 0 else get X0 i j.
  have : P rows X.
    apply: (@for_loop_ind _ P) => //.
      split=> // i j hi hj; rewrite g3 !addn0 hi /= !subn0; case: ifP => // jc; rewrite hAs //.
    move=> k Y /andP [ck kr] [wY gY].
    pose P' m (Z : mat C) := wf rows rows Z /\ forall i j, (i < rows)%N -> (j < rows)%N ->
      get Z i j = if (j == k) && (i < m)%N then 0 else get Y i j.
    have : P' rows (for_loop 0 rows (fun row X => set X row k 0) Y).
      apply: (@for_loop_ind _ P') => //; first by split=> // i j _ _; rewrite ltn0 andbF.
      move=> m Z /andP [_ mr] [wZ gZ]; split; first exact: wf_set.
      move=> i j hi hj; rewrite get_set gZ // ltnS [(i <= m)%N]leq_eqVlt andbC.
      by case: (j =P k); case: (i =P m).
    case=> wZ gZ; split=> // i j hi hj; rewrite gZ // gY // hi andbT.
    case: (j =P k) => [->|jk]; first by rewrite ltnNge ck /= ltnSn.
    by rewrite ltnS [(j <= k)%N]leq_eqVlt (introF eqP jk).
  by case=> wX gX; split=> // i j hi hj; rewrite gX // hj.
split=> //; split=> //; rewrite ?mxof_identity ?hermx1 ?mulmx1 ?mul1mx //.
  by apply/matrixP => i j; rewrite !mxE gX.
split=> [i j hi|i j hi hj _|i hi]; last by left; rewrite gX.
  by case/andP => h1 h2; rewrite gX // ltnNge h1.
by rewrite i2.
Qed.

Lemma diag_mul_c r m c (U : 'M[C]_(r, m)) (s : 'rV[C]_m) (V : 'M[C]_(m, c)) i j :
  (U *m diag_mx s *m V) i j = \sum_k U i k * s 0 k * V k j.
Proof.
rewrite mxE; apply: eq_bigr => k _; congr (_ * _); rewrite mxE (bigD1 k) //= mxE eqxx mulr1n big1 ?addr0 // => l lk.
by rewrite mxE (negPf lk) mulr0n mulr0.
Qed.

Lemma cnorm1M (x y : C) : cnorm1 (x * y) = cnorm1 x * cnorm1 y.
Proof. by apply: complexI; rewrite rcM !cnorm1E conjM mulrACA. Qed.
Lemma cnorm1_rc (x : R) : cnorm1 (x%:C : C) = x ^+ 2.
Proof. by rewrite /cnorm1 /= [0 ^+ 2]expr0n addr0. Qed.
Lemma sub_re (z : C) : cnorm1 (z - (Rep z)%:C) = Imp z ^+ 2.
Proof. by case: z => a b; rewrite /cnorm1 /= subrr subr0 expr0n add0r. Qed.

Lemma sum_truncR (Z : zmodType) m n (f : nat -> Z) : (m <= n)%N -> (forall l, (m <= l < n)%N -> f l = 0) ->
  \sum_(l < n) f l = \sum_(l < m) f l.
Proof.
move=> mn h; rewrite -!(big_mkord xpredT) (big_cat_nat _ (n := m)) //=.
rewrite [X in _ + X](_ : _ = 0) ?addr0 // big_nat_cond big1 // => l /andP [hl _]; exact: h.
Qed.

Lemma two_sided_result_cP rows cols A (s : R) rm D0 U X V : (cols <= rows)%N -> s != 0 ->
  inv2c cols (padded_c rows cols A s) D0 (U, X, V) ->
  let d := two_sided_result_c rows cols rm s (U, X, V) in
  let Um := mxof rows cols (cU d) in let Vm := mxof cols cols (cV d) in
  [/\ [/\ wf rows cols (cU d), size (cS d) = cols & wf cols cols (cV d)],
      hermx Um *m Um = 1%:M, Vm *m hermx Vm = 1%:M,
      forall i, (i < cols)%N -> nth 0 (cS d) i = Rep (get X i i) * s &
      fro2c (mxof rows cols A - Um *m diag_mx (rvc cols (cS d)) *m Vm) =
        s ^+ 2 * (offXc rows (U, X, V) + \sum_(i < cols) Imp (get X i i) ^+ 2)].
Proof.
move=> cr s0 [[wU wX wV] oU oV eM [zX dV _]] d U' V'.
have [wE _ gE] := extractP rows cols 0 0 U; have [w1 _ _ g1] := convertP rm wE.
have [wE' _ gE'] := extractP cols cols 0 0 V; have [w2 _ _ g2] := convertP rm wE'.
have gU i j : (i < rows)%N -> (j < cols)%N -> get (cU d) i j = get U i j.
  by move=> hi hj; rewrite g1 // gE // !addn0.
have gV i j : (i < cols)%N -> (j < cols)%N -> get (cV d) i j = get V i j.
  by move=> hi hj; rewrite g2 // gE' // !addn0.
have gS i : (i < cols)%N -> nth 0 (cS d) i = Rep (get X i i) * s.
  by move=> hi; rewrite /d /= (nth_map 0) ?size_mkseq // nth_mkseq.
have wd i : (i < cols)%N -> (i < rows)%N by move=> h; apply: leq_trans cr.
have sc : s%:C != 0 :> C by rewrite rc_eq0.
split=> //.
- by split=> //; rewrite size_map size_mkseq.
- apply/matrixP => i j; have /matrixP /(_ (widen_ord cr i) (widen_ord cr j)) := mulmx1C oU.
  rewrite !mxE -!val_eqE /= => <-; apply: eq_bigr => k _; rewrite !mxE !gU //.
- apply/matrixP => i j; have /matrixP /(_ (widen_ord cr i) (widen_ord cr j)) := mulmx1C oV.
  rewrite !mxE -!val_eqE /= => <-.
  under eq_bigr do rewrite !mxE !gV //.
  under [RHS]eq_bigr do rewrite !mxE.
  symmetry; apply: (sum_truncR (f := fun k => get V i k * conjc (get V j k))) => // k /andP [k1 k2].
  have -> : get V i k = 0; last by rewrite mul0r.
  rewrite dV ?k1 ?orbT ?(leq_trans (ltn_ord i) cr) //.
  by have /negPf -> : (i : nat) != k by apply: contraTneq k1 => <-; rewrite -ltnNge.
have subE m n (P Q : 'M[C]_(m, n)) i j : (P - Q) i j = P i j - Q i j by rewrite !mxE.
pose Xd : 'M[C]_rows := \matrix_(i, j) if i == j then (Rep (get X i i))%:C else 0.
have UXd : forall i j, (mxof rows rows U *m Xd *m mxof rows rows V) i j = \sum_(k < rows) get U i k * (Rep (get X k k))%:C * get V k j.
  move=> i j; rewrite mxE; apply: eq_bigr => k _; rewrite mxE (bigD1 k) //= !mxE eqxx big1 ?addr0 // => l lk.
  by rewrite !mxE (negPf lk) mulr0.
have -> : offXc rows (U, X, V) + \sum_(i < cols) Imp (get X i i) ^+ 2 =
    fro2c (mxof rows rows U *m (mxof rows rows X - Xd) *m mxof rows rows V).
  rewrite fro2c_orth ?(mulmx1C oU) ?(mulmx1C oV) // fro2c_off; congr (_ + _).
    apply: eq_bigr => i _; apply: eq_bigr => j _; rewrite subE !mxE val_eqE; case: eqP => // _.
    by rewrite subr0.
  under [RHS]eq_bigr do rewrite subE !mxE eqxx sub_re.
  symmetry; apply: (sum_truncR (f := fun i => Imp (get X i i) ^+ 2)) => // i /andP [i1 i2].
  by rewrite zX ?i1 // [Imp _]/= expr0n.
rewrite mulmxBr mulmxBl eM /fro2c mulr_sumr; apply: eq_bigr => i _.
rewrite mulr_sumr; under [RHS]eq_bigr => j _.
  rewrite subE UXd [padded_c _ _ _ _ i j]mxE; over.
rewrite (@sum_truncR _ cols rows (fun j => s ^+ 2 * cnorm1 ((if (j < cols)%N then get A i j / s%:C else 0) - \sum_(k < rows) get U i k * (Rep (get X k k))%:C * get V k j))) //.
  apply: eq_bigr => j _; rewrite subE diag_mul_c [mxof _ _ A i j]mxE ltn_ord.
  rewrite (@sum_truncR _ cols rows (fun k => get U i k * (Rep (get X k k))%:C * get V k j)) //; last first.
    by move=> k /andP [k1 k2]; rewrite zX ?k1 // [Rep _]/= (_ : (0 : R)%:C = 0) // mulr0 mul0r.
  rewrite -(cnorm1_rc s) -cnorm1M; congr cnorm1; rewrite mulrBr mulrC divfK //; congr (_ - _); rewrite mulr_sumr.
  apply: eq_bigr => k _; rewrite !mxE gU // gV // gS // [in LHS]rcM.
  by move: (get U i k) (get V k j) (s%:C) ((Rep (get X k k))%:C) => *; ring.
move=> j /andP [j1 j2]; rewrite ltnNge j1 /= big1 => [|k _].
  by rewrite subrr -(_ : (0 : R)%:C = 0) // cnorm1_rc expr0n mulr0.
case: (ltnP k cols) => kc; last by rewrite zX ?kc ?ltn_ord // [Rep _]/= (_ : (0 : R)%:C = 0) // mulr0 mul0r.
rewrite dV ?j1 ?orbT //; have /negPf -> : (k : nat) != j by apply: contraTneq kc => ->; rewrite -leqNgt.
by rewrite mulr0.
Qed.

Lemma off2c_bound n m c (M : 'M[C]_(n, m)) : (c <= m)%N -> (forall i j, `|Rep (M i j)| <= 1 /\ `|Imp (M i j)| <= 1) ->
  (forall i (j : 'I_m), (c <= j)%N -> M i j = 0) -> off2c M <= (2 * (n * c))%:R.
Proof.
move=> cm h1 h0; rewrite /off2c.
have -> : (2 * (n * c))%:R = \sum_(i < n) \sum_(j < m) (if (j < c)%N then 2%:R else 0) :> R.
  rewrite sumr_const card_ord mulnCA mulnC natrM mulr_natr; congr (_ *+ _).
  rewrite (@sum_truncR _ c m (fun j => if (j < c)%N then 2%:R else 0)) //; last by move=> j /andP [j1 _]; rewrite ltnNge j1.
  by under eq_bigr => j _ do rewrite ltn_ord; rewrite sumr_const card_ord natrM mulr_natr.
apply: ler_sum => i _; apply: ler_sum => j _; case: ifP => [_|_]; first by case: ifP => _; rewrite ?ler0n.
case: ltnP => jc; last by rewrite h0 // -(_ : (0 : R)%:C = 0) // cnorm1_rc expr0n.
have [a b] := h1 i j; rewrite /cnorm1 [2%:R](_ : _ = 1 + 1) ?natrD //.
by apply: ler_add; rewrite -real_normK ?num_real // expr_le1 ?normr_ge0.
Qed.
End Res.
