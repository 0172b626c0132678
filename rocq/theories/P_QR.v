(* Householder reflections and the QR / LQ decompositions. *)
From mathcomp Require Import all_ssreflect all_algebra.
From mathcomp Require Import ring.
From Verif Require Import Spec M_Vec P_Vec M_Mat P_Mat P_Mat2 M_LU P_Tri P_LU P_LU2 M_QR.
Set Implicit Arguments. Unset Strict Implicit. Unset Printing Implicit Defensive.
Import Order.Theory GRing.Theory Num.Theory.
Local Open Scope ring_scope.

Section QR.
Variable R : rcfType.
Variables tmin tmax : R.
Hypotheses (tmin0 : 0 < tmin) (tmm : tmin <= tmax).
Implicit Types (A b : mat R).

Lemma length_sum n (v : seq R) : size v = n -> vlength v ^+ 2 = \sum_(i < n) nth 0 v i ^+ 2.
Proof. by move=> sv; rewrite length_sq (vdot_idE sv sv); apply: eq_bigr => i _; rewrite expr2. Qed.

Lemma fill0P n k (x : seq R) : size x = n -> (k <= n)%N ->
  let y := for_loop 0 k (fun i x => set_nth 0 x i 0) x in
  size y = n /\ forall i, nth 0 y i = if (i < k)%N then 0 else nth 0 x i.
Proof.
move=> sx hk /=; pose P m (y : seq R) := size y = n /\ forall i, nth 0 y i = if (i < m)%N then 0 else nth 0 x i.
suff : P k (for_loop 0 k (fun i x => set_nth 0 x i 0) x) by [].
apply: (@for_loop_ind _ P) => // i y /andP [_ ik] [sy hy]; split.
  by rewrite size_set_nth sy; apply/maxn_idPr; apply: leq_trans ik hk.
by move=> l; rewrite nth_set_nth /= hy ltnS [(l <= i)%N]leq_eqVlt; case: eqP.
Qed.

Lemma householderP rows cols A k : wf rows cols A -> (k < cols)%N -> (k < rows)%N ->
  exists2 v, householder tmin tmax rows A k = Some v &
  [/\ size v = rows, \sum_(i < rows) nth 0 v i ^+ 2 = 1, forall i, (i < k)%N -> nth 0 v i = 0 &
      forall i, (k < i < rows)%N -> get A i k - 2%:R * nth 0 v i * (\sum_(l < rows) nth 0 v l * get A l k) = 0].
Proof.
move=> w kc kr; rewrite /householder; set x := for_loop _ _ _ _.
have [sx hx] := @fill0P rows k (get_col rows A k) (size_get_col w kc) (ltnW kr).
rewrite -/x in sx hx; rewrite length_preciseE //; set pivot := nth 0 x k.
set sgn := (X in X * _); set N := vlength x; set alpha := sgn * N.
have s2 : sgn ^+ 2 = 1.
  rewrite /sgn; case: eqP => [|/eqP hp]; rewrite /= ?expr1n // sqrrN exprMn exprVn -normrX.
  by rewrite ger0_norm ?sqr_ge0 // divff // expf_eq0 /= -normr_eq0.
have a2 : alpha ^+ 2 = \sum_(i < rows) nth 0 x i ^+ 2 by rewrite exprMn s2 mul1r (length_sum sx).
set u := set_nth 0 x k _.
have su : size u = rows by rewrite size_set_nth sx; apply/maxn_idPr.
have hu i : nth 0 u i = nth 0 x i - alpha *+ (i == k).
  by rewrite nth_set_nth /=; case: eqP => [->|_]; rewrite ?mulr1n // subr0.
rewrite length_preciseE //; set nu := vlength u.
have sumk (f : nat -> R) : \sum_(i < rows) f i * (alpha *+ (i == k :> nat)) = f k * alpha.
  rewrite (bigD1 (Ordinal kr)) //= eqxx mulr1n big1 ?addr0 // => i.
  by rewrite -val_eqE /= => /negPf ->; rewrite mulr0n mulr0.
have nu2 : nu ^+ 2 = 2%:R * (alpha ^+ 2 - pivot * alpha).
  rewrite (length_sum su); transitivity (\sum_(i < rows) (nth 0 x i ^+ 2
     - 2%:R * (nth 0 x i * (alpha *+ (i == k :> nat))) + alpha * (alpha *+ (i == k :> nat)))).
    apply: eq_bigr => i _; rewrite hu; case: (_ == _); rewrite ?mulr1n ?mulr0n; last by ring.
    by move: (nth 0 x i) => y; ring.
  rewrite big_split /= sumrB -mulr_sumr (sumk (nth 0 x)) (sumk (fun=> alpha)) -a2 -/pivot; ring.
case: eqP => [z|/eqP nz] /=.
  exists (set_nth 0 u k 1) => //.
  have u0 i : nth 0 u i = 0.
    have /allP h : all (fun y => y == 0) u by rewrite -length_eq0 -/nu z.
    case: (ltnP i (size u)) => hi; last by rewrite nth_default.
    by apply/eqP/h/mem_nth.
  have hv i : nth 0 (set_nth 0 u k 1) i = (i == k)%:R by rewrite nth_set_nth /= u0; case: eqP.
  split; first by rewrite size_set_nth su; apply/maxn_idPr.
  - rewrite (bigD1 (Ordinal kr)) //= big1 ?addr0 ?hv ?eqxx ?expr1n // => i.
    by rewrite -val_eqE /= => /negPf e; rewrite hv e expr0n.
  - by move=> i ik; rewrite hv ltn_eqF.
  - move=> i /andP [ki ir]; rewrite hv gtn_eqF // mulr0 mul0r subr0.
    have := hu i; rewrite u0 gtn_eqF // mulr0n subr0 hx ltnNge (ltnW ki) /=.
    by rewrite (nth_get_col _ w).
exists [seq y / nu | y <- u] => //.
have hv i : (i < rows)%N -> nth 0 [seq y / nu | y <- u] i = nth 0 u i / nu.
  by move=> hi; rewrite (nth_map 0) ?su.
split; first by rewrite size_map.
- transitivity ((\sum_(i < rows) nth 0 u i ^+ 2) / nu ^+ 2).
    by rewrite mulr_suml; apply: eq_bigr => i _; rewrite hv // exprMn exprVn.
  by rewrite -(length_sum su) -/nu divff // expf_eq0.
- move=> i ik; rewrite hv ?(ltn_trans ik kr) // hu hx ik ltn_eqF // mulr0n subr0 mul0r //.
- move=> i /andP [ki ir].
  have -> : \sum_(l < rows) nth 0 [seq y / nu | y <- u] l * get A l k = nu / 2%:R.
    transitivity (\sum_(l < rows) (nth 0 x l ^+ 2 - nth 0 x l * (alpha *+ (l == k :> nat))) / nu).
      apply: eq_bigr => l _; rewrite hv // hu hx; case: (ltnP l k) => lk.
        by rewrite (ltn_eqF lk) mulr0n subr0 expr2 !mul0r subr0 mul0r.
      rewrite (nth_get_col _ w) //; case: (_ == _); rewrite ?mulr1n ?mulr0n; move: (get A l k) => y; ring.
    rewrite -mulr_suml sumrB (sumk (nth 0 x)) -a2 -/pivot.
    have -> : alpha ^+ 2 - pivot * alpha = nu ^+ 2 / 2%:R by rewrite nu2 [RHS]mulrC mulKf // pnatr_eq0.
    by field; rewrite nz ?pnatr_eq0.
  rewrite hv // hu hx ltnNge (ltnW ki) /= gtn_eqF // mulr0n subr0 (nth_get_col _ w) //.
  by move: (get A i k) => y; field; rewrite nz ?pnatr_eq0.
Qed.

Definition cv n (v : seq R) : 'cV[R]_n := \col_i nth 0 v i.
Definition hmx n (v : seq R) : 'M[R]_n := 1%:M - 2%:R *: (cv n v *m (cv n v)^T).

Lemma hmx_orth n v : \sum_(i < n) nth 0 v i ^+ 2 = 1 -> hmx n v *m (hmx n v)^T = 1%:M.
Proof.
move=> h; have vv : (cv n v)^T *m cv n v = 1%:M.
  by apply/matrixP => i j; rewrite !ord1 !mxE /= -h; apply: eq_bigr => l _; rewrite !mxE expr2.
rewrite /hmx; set w := cv n v in vv *.
have e : (w *m w^T) *m (w *m w^T) = w *m w^T by rewrite mulmxA -(mulmxA w) vv mulmx1.
have s : (w *m w^T)^T = w *m w^T by rewrite trmx_mul trmxK.
have t : (1%:M - 2%:R *: (w *m w^T))^T = 1%:M - 2%:R *: (w *m w^T).
  by apply/matrixP => i j; rewrite -[in RHS]s !mxE eq_sym.
rewrite t mulmxBl mul1mx mulmxBr mulmx1 -scalemxAl -scalemxAr e scalerA -addrA -scalerBl -scaleNr -scalerBl.
rewrite [X in X *: _](_ : _ = 0); last by ring.
by rewrite scale0r addr0.
Qed.

Lemma reflectP rows cols rm jk v A : wf rows cols A -> size v = rows -> (0 < rows)%N ->
  let B := reflect rows cols (ctor_vector rm jk rows 1 v) (ctor_vector rm jk 1 rows v) A in
  [/\ wf rows cols B, rowmaj B = rowmaj A, 
      forall i j, (i < rows)%N -> (j < cols)%N ->
        get B i j = get A i j - 2%:R * nth 0 v i * \sum_(l < rows) nth 0 v l * get A l j &
      mxof rows cols B = hmx rows v *m mxof rows cols A].
Proof.
move=> w sv r0 B.
have [||wv _ gv] := @ctor_vectorP _ rm jk rows 1 v; rewrite ?(minn_idPr r0) ?(maxn_idPl r0) //.
have [||wt _ gt] := @ctor_vectorP _ rm jk 1 rows v; rewrite ?(minn_idPl r0) ?(maxn_idPr r0) //.
have [w2 _ g2] := @scalar_opP _ (fun v => vscalel 2%:R v) (fun x => 2%:R * x) _ _ _ wv (fun _ => erefl).
have [w1 _ g1] := mat_mulP wt w r0.
have [w3 _ g3] := mat_mulP w2 w1 (ltn0Sn 0).
have [w4 e4 g4] := elementwiseP (g := fun x y => x - y) w w3 (@vmap2_pw R _).
have g i j : (i < rows)%N -> (j < cols)%N ->
  get B i j = get A i j - 2%:R * nth 0 v i * \sum_(l < rows) nth 0 v l * get A l j.
  move=> hi hj; rewrite /B /reflect /mat_sub g4 // g3 // big_ord1 g2 // g1 // gv // addn0.
  rewrite (set_nth_default 0) ?sv //; congr (_ - _ * _); apply: eq_bigr => l _.
  by rewrite gt // add0n (set_nth_default 0) ?sv.
split=> //; apply/matrixP => i j; rewrite mulmxBl mul1mx -scalemxAl -mulmxA !mxE g // big_ord1 !mxE.
by rewrite mulrA; congr (_ - _ * _); apply: eq_bigr => l _; rewrite !mxE.
Qed.

Lemma sum_trunc m n (f : nat -> R) : (m <= n)%N -> (forall l, (m <= l < n)%N -> f l = 0) ->
  \sum_(l < n) f l = \sum_(l < m) f l.
Proof.
move=> mn h; rewrite -!(big_mkord xpredT) (big_cat_nat _ (n := m)) //=.
rewrite [X in _ + X](_ : _ = 0) ?addr0 // big_nat_cond big1 // => l /andP [hl _]; exact: h.
Qed.

Lemma zero_lowerP rows cols A : wf rows cols A -> (cols <= rows)%N ->
  wf rows cols (zero_lower cols A) /\ rowmaj (zero_lower cols A) = rowmaj A /\
  forall i j, (i < rows)%N -> (j < cols)%N ->
    get (zero_lower cols A) i j = if (j < i < cols)%N then 0 else get A i j.
Proof.
move=> w cr; pose P k (B : mat R) := [/\ wf rows cols B, rowmaj B = rowmaj A &
  forall i j, get B i j = if (j < i < cols)%N && (j < k)%N then 0 else get A i j].
suff : P cols (zero_lower cols A).
  by case=> w1 e1 h; split=> //; split=> // i j _ hj; rewrite h hj andbT.
apply: (@for_loop_ind _ P) => //; first by split=> // i j; rewrite ltn0 andbF.
move=> k B /andP [_ kc] [wB eB hB].
pose P' m (B' : mat R) := [/\ wf rows cols B', rowmaj B' = rowmaj A &
  forall i j, get B' i j = if (j == k) && (k < i < m)%N then 0 else get B i j].
have : P' cols (for_loop k.+1 cols (fun i Rm => set Rm i k 0) B).
  apply: (@for_loop_ind _ P') => //.
    by split=> // i j; rewrite ltnS andbC; case: ltnP => //; case: ltnP.
  move=> m C /andP [km mc] [wC eC hC]; split; rewrite ?rowmaj_set //.
    by apply: wf_set => //; apply: leq_trans mc cr.
  move=> i j; rewrite get_set hC [(i < m.+1)%N]ltnS [(i <= m)%N]leq_eqVlt andbC.
  by case: (i =P m) => [->|_] /=; rewrite ?km ?andbT //; case: (j =P k).
case=> w1 e1 h1; split=> // i j; rewrite h1 hB [(j < k.+1)%N]ltnS [(j <= k)%N]leq_eqVlt.
by case: (j =P k) => [->|_] //=; rewrite ltnn andbF andbT.
Qed.

Lemma qrP rows cols A : wf rows cols A -> (0 < cols <= rows)%N ->
  exists Q Rm, decompose_qr tmin tmax rows cols A = Some (Q, Rm) /\
  [/\ [/\ wf rows cols Q, wf cols cols Rm, rowmaj Q = rowmaj A & rowmaj Rm = rowmaj A], upper cols Rm,
      (mxof rows cols Q)^T *m mxof rows cols Q = 1%:M &
      mxof rows cols Q *m mxof cols cols Rm = mxof rows cols A].
Proof.
move=> w /andP [c0 cr]; have r0 := leq_trans c0 cr; rewrite /decompose_qr.
set s := std_max _ _.
have s0 : s != 0.
  by apply: lt0r_neq0; rewrite /s /std_max; case: ifP => // h; apply: lt_trans h.
rewrite /mat_div (negbTE s0).
have [wR eR gR] := @scalar_opP _ (fun v => [seq x / s | x <- v]) (fun x => x / s) _ _ _ w (fun _ => erefl).
set R0 := scalar_op _ _ _ _ in wR eR gR *.
have [wI eI _ gI] := identityP (rowmaj A) (junk A) rows rows.
set I0 := identity _ _ _ _ in wI eI gI *.
pose P k (st : mat R * mat R) := [/\ [/\ wf rows cols st.1, wf rows rows st.2, rowmaj st.1 = rowmaj A & rowmaj st.2 = rowmaj A],
  forall i j, (j < i < rows)%N -> (j < k)%N -> get st.1 i j = 0,
  mxof rows rows st.2 *m mxof rows cols R0 = mxof rows cols st.1 &
  mxof rows rows st.2 *m (mxof rows rows st.2)^T = 1%:M].
have [] := @for_opt_ind0 _ P False cols (qr_step tmin tmax rows cols) (R0, I0).
- by split=> //=; rewrite mxof_identity ?mul1mx ?mulmx1 ?trmx1.
- move=> k [Rk QT] kc [[/= w1 w2 e1 e2] hz hm ho].
  have [v -> [sv v1 v0 vk]] := householderP w1 kc (leq_trans kc cr).
  have [w1' e1' g1 m1] := reflectP (rowmaj Rk) (junk Rk) w1 sv r0.
  have [w2' e2' _ m2] := reflectP (rowmaj Rk) (junk Rk) w2 sv r0.
  split=> /=; first by rewrite e1' e2'.
  + move=> i j /andP [ji ir]; rewrite ltnS leq_eqVlt; case/orP => [/eqP jk|jk].
      by rewrite g1 // jk // vk // -jk ji.
    rewrite g1 ?(ltn_trans jk) // hz ?ji // big1 ?mulr0 ?subr0 // => l _.
    case: (ltnP l k) => lk; first by rewrite v0 ?mul0r.
    by rewrite hz ?mulr0 // (leq_trans jk lk) /=.
  + by rewrite m1 m2 -mulmxA hm.
  + by rewrite m2 trmx_mul mulmxA -(mulmxA (hmx rows v)) ho mulmx1 hmx_orth.
case: for_opt => [[R1 QT]|] H1 H2; last by case: H2.
have {H1 H2} [[/= w1 w2 e1 e2] hz hm ho] := H1 _ erefl.
have [w3 [e3 g3]] := zero_lowerP w1 cr.
have [w4 e4 g4] := extractP cols cols 0 0 (zero_lower cols R1).
have [w5 e5 g5] := extractP cols rows 0 0 QT.
have [w6 e6 _ g6] := transposeP cols rows (extract cols rows 0 0 QT).
have [w7 e7 g7] := @scalar_opP _ (fun v => vscalel s v) (fun x => s * x) _ _ _ w4 (fun _ => erefl).
do 2!eexists; split; first by reflexivity.
have gq i j : (i < rows)%N -> (j < cols)%N -> get (transpose cols rows (extract cols rows 0 0 QT)) i j = get QT j i.
  by move=> hi hj; rewrite g6 // g5 // !addn0.
have gr i j : (i < cols)%N -> (j < cols)%N ->
  get (mat_scalel cols cols s (extract cols cols 0 0 (zero_lower cols R1))) i j = s * get R1 i j.
  move=> hi hj; have hi' := leq_trans hi cr; rewrite g7 // g4 // !addn0 g3 //; case: ifP => // /andP [ji _].
  by rewrite hz // ji hi'.
split.
- by split=> //; rewrite ?e6 ?e5 ?e7 ?e4 ?e3.
- by move=> i l hi li; rewrite gr ?(ltn_trans li hi) // hz ?mulr0 // ?(ltn_trans li hi) // li (leq_trans hi cr).
- apply/matrixP => i j; rewrite !mxE.
  have /matrixP /(_ (widen_ord cr i) (widen_ord cr j)) := ho; rewrite !mxE -val_eqE /= val_eqE => <-.
  by apply: eq_bigr => l _; rewrite !mxE !gq.
- apply/matrixP => i j; rewrite !mxE.
  have hm' : mxof rows cols R0 = (mxof rows rows QT)^T *m mxof rows cols R1.
    by rewrite -hm mulmxA (mulmx1C ho) mul1mx.
  have /matrixP /(_ i j) := hm'; rewrite !mxE gR // => h.
  have -> : get A i j = s * (get A i j / s) by rewrite mulrC divfK.
  rewrite h mulr_sumr; transitivity (\sum_(l < rows) s * (get QT l i * get R1 l j)); last first.
    by apply: eq_bigr => l _; rewrite !mxE.
  rewrite (@sum_trunc cols rows (fun l => s * (get QT l i * get R1 l j))) //.
    by apply: eq_bigr => l _; rewrite !mxE gq // gr // mulrCA.
  by move=> l /andP [cl lr]; rewrite hz ?mulr0 ?mulr0 // (leq_trans (ltn_ord j) cl).
Qed.

(* from here on only the product A = Q R matters *)
Definition qr_of rows cols A (Q Rm : mat R) :=
  [/\ [/\ wf rows cols Q, wf cols cols Rm, rowmaj Q = rowmaj A & rowmaj Rm = rowmaj A], upper cols Rm,
      (mxof rows cols Q)^T *m mxof rows cols Q = 1%:M &
      mxof rows cols Q *m mxof cols cols Rm = mxof rows cols A].

Lemma qr_rank rows cols A Q Rm : qr_of rows cols A Q Rm ->
  (mxof cols cols Rm \in unitmx) = (\rank (mxof rows cols A) == cols).
Proof.
case=> _ _ hq <-; rewrite -row_free_unit /row_free; apply/eqP/eqP => h.
  rewrite mxrankMfree /row_free ?h //; apply/eqP; rewrite eqn_leq rank_leq_col /=.
  have := mxrankM_maxr (mxof rows cols Q)^T (mxof rows cols Q).
  by rewrite hq mxrank1.
by apply/eqP; rewrite eqn_leq rank_leq_row /= -[X in (X <= _)%N]h mxrankM_maxr.
Qed.

Lemma mxof_transpose rows cols A : mxof cols rows (transpose rows cols A) = (mxof rows cols A)^T.
Proof. by have [_ _ _ h] := transposeP rows cols A; apply/matrixP => i j; rewrite !mxE h. Qed.

Lemma qr_solveP rows cols c A Q Rm b : qr_of rows cols A Q Rm -> (0 < rows)%N -> wf rows c b ->
  if \rank (mxof rows cols A) == cols then
    exists2 x, qr_solve rows cols c (Q, Rm) b = Some x &
      [/\ wf cols c x, rowmaj x = rowmaj A &
          mxof cols cols Rm *m mxof cols c x = (mxof rows cols Q)^T *m mxof rows c b]
  else qr_solve rows cols c (Q, Rm) b = None.
Proof.
move=> h r0 wb; rewrite -(qr_rank h); case: h => -[wQ wR eQ eR] hu hq hA.
have [wt et _ _] := transposeP rows cols Q.
have [wm em _] := mat_mulP wt wb r0.
have := solve_upper_mx wR wm hu; rewrite /qr_solve /=.
case: ifP => // _ [x -> [wx ex _ hx]]; exists x => //; split=> //; first by rewrite ex em et.
by rewrite hx mxof_mul // mxof_transpose.
Qed.

Lemma qr_inverseP rows cols A Q Rm : qr_of rows cols A Q Rm -> (0 < cols)%N ->
  if \rank (mxof rows cols A) == cols then
    exists2 x, qr_inverse rows cols (Q, Rm) = Some x &
      [/\ wf cols rows x, rowmaj x = rowmaj A & 
          mxof cols cols Rm *m mxof cols rows x = (mxof rows cols Q)^T]
  else qr_inverse rows cols (Q, Rm) = None.
Proof.
move=> h c0; rewrite -(qr_rank h); case: h => -[wQ wR eQ eR] hu hq hA.
have [wt et _ _] := transposeP rows cols Q.
rewrite /qr_inverse /flip_order /=.
have [wI eI _ _] := identityP (rowmaj Rm) (junk Rm) cols cols.
have hI : mxof cols cols (identity (rowmaj Rm) (junk Rm) cols cols) = 1%:M by apply: mxof_identity.
case: (identity _ _ _ _) wI eI hI => rm jk st /= wI eI hI.
case: Rm wR eR hu hA eI {et} => rm' jk' st' /= wR eR hu hA eI.
have := solve_upper_mx wR wI hu.
case: ifP => [uR|_ -> //] [[rm'' jk'' st''] -> [wx ex _ hx]].
have [wm em _] := mat_mulP wx wt c0; eexists; first by reflexivity.
split; [exact: wm|by rewrite em ex /= eI eR|].
by rewrite mxof_mul // mulmxA hx hI mul1mx mxof_transpose.
Qed.

(* least squares *)
Definition nrm2 n c (x : 'M[R]_(n, c)) (j : 'I_c) := \sum_i x i j ^+ 2.
Lemma least_squares n m c (A : 'M[R]_(n, m)) (b : 'M_(n, c)) (x y : 'M_(m, c)) j :
  A^T *m (A *m x - b) = 0 ->
  nrm2 (A *m y - b) j = nrm2 (A *m x - b) j + nrm2 (A *m (y - x)) j.
Proof.
move=> h; set d := A *m (y - x); set e := A *m x - b.
have -> : A *m y - b = e + d by rewrite /d /e mulmxBr [RHS]addrC addrA subrK.
have z : \sum_i d i j * e i j = 0.
  have : (d^T *m e) j j = 0 by rewrite /d trmx_mul -mulmxA h mulmx0 mxE.
  by rewrite mxE => hz; rewrite -[RHS]hz; apply: eq_bigr => i _; rewrite [(d^T) _ _]mxE.
rewrite /nrm2 -big_split /=; apply/eqP; rewrite -subr_eq0 -sumrB; apply/eqP.
rewrite -[RHS](mulr0 2%:R) -[in RHS]z mulr_sumr; apply: eq_bigr => i _; rewrite [(e + d) i j]mxE.
by move: (e i j) (d i j) => p q; ring.
Qed.
Lemma nrm2_ge0 n c (x : 'M[R]_(n, c)) j : 0 <= nrm2 x j.
Proof. by apply: sumr_ge0 => i _; apply: sqr_ge0. Qed.

Lemma nrm2_eq0 n c (x : 'M[R]_(n, c)) j : nrm2 x j = 0 -> forall i, x i j = 0.
Proof.
move=> /eqP; rewrite psumr_eq0 => [/allP h i|i _]; last exact: sqr_ge0.
by have := h i (mem_index_enum i); rewrite sqrf_eq0 => /eqP.
Qed.
End QR.
