(* Householder reflections and the QR / LQ decompositions of complex matrices. *)
From mathcomp Require Import all_ssreflect all_algebra.
From mathcomp Require Import ring complex.
From Verif Require Import Spec M_Vec P_Vec M_Mat P_Mat P_Mat2 M_LU P_Tri P_LU P_LU2 M_Complex P_Complex M_QRC.
Set Implicit Arguments. Unset Strict Implicit. Unset Printing Implicit Defensive.
Import Order.Theory GRing.Theory Num.Theory.
Local Open Scope complex_scope.
Local Open Scope ring_scope.

(* the conjugate transpose *)
Definition hermx (R : rcfType) m n (A : 'M[R[i]]_(m, n)) : 'M[R[i]]_(n, m) := \matrix_(i, j) conjc (A j i).

Section Herm.
Variable R : rcfType.
Lemma hermxK m n (A : 'M[R[i]]_(m, n)) : hermx (hermx A) = A.
Proof. by apply/matrixP => i j; rewrite !mxE conjcK. Qed.
Lemma hermx_mul m n p (A : 'M[R[i]]_(m, n)) (B : 'M[R[i]]_(n, p)) : hermx (A *m B) = hermx B *m hermx A.
Proof.
apply/matrixP => i j; rewrite !mxE conjsum; apply: eq_bigr => l _; by rewrite !mxE conjM mulrC.
Qed.
Lemma hermx1 n : hermx (1%:M : 'M[R[i]]_n) = 1%:M.
Proof. by apply/matrixP => i j; rewrite !mxE eq_sym conjc_nat. Qed.
Lemma hermxB m n (A B : 'M[R[i]]_(m, n)) : hermx (A - B) = hermx A - hermx B.
Proof. by apply/matrixP => i j; rewrite !mxE conjB. Qed.
Lemma hermx_inj m n : injective (@hermx R m n).
Proof. exact: can_inj (@hermxK m n). Qed.
Lemma hermx_tr m n (A : 'M[R[i]]_(m, n)) : hermx A^T = (hermx A)^T.
Proof. by apply/matrixP => i j; rewrite !mxE. Qed.
Lemma rank_hermx m n (A : 'M[R[i]]_(m, n)) : \rank (hermx A) = \rank A.
Proof.
have -> : hermx A = (map_mx (conjc_rmorphism R) A)^T by apply/matrixP => i j; rewrite !mxE.
by rewrite mxrank_tr (mxrank_map (conjc_rmorphism R)).
Qed.
End Herm.

Section QR.
Variable R : rcfType.
Variables tmin tmax : R.
Hypotheses (tmin0 : 0 < tmin) (tmm : tmin <= tmax).
Local Notation C := R[i].
Implicit Types (A b : mat C).

Lemma clength_sum n (v : seq C) : size v = n ->
  (clength v ^+ 2)%:C = \sum_(i < n) nth 0 v i * conjc (nth 0 v i).
Proof. by move=> sv; rewrite clength_sq cls_rc (cdotE sv sv). Qed.

Lemma fill0_c n k (x : seq C) : size x = n -> (k <= n)%N ->
  let y := for_loop 0 k (fun i x => set_nth 0 x i 0) x in
  size y = n /\ forall i, nth 0 y i = if (i < k)%N then 0 else nth 0 x i.
Proof.
move=> sx hk /=; pose P m (y : seq C) := size y = n /\ forall i, nth 0 y i = if (i < m)%N then 0 else nth 0 x i.
suff : P k (for_loop 0 k (fun i x => set_nth 0 x i 0) x) by [].
apply: (@for_loop_ind _ P) => // i y /andP [_ ik] [sy hy]; split.
  by rewrite size_set_nth sy; apply/maxn_idPr; apply: leq_trans ik hk.
by move=> l; rewrite nth_set_nth /= hy ltnS [(l <= i)%N]leq_eqVlt; case: eqP.
Qed.

Lemma householder_cP rows cols A k : wf rows cols A -> (k < cols)%N -> (k < rows)%N ->
  exists2 v, householder_c tmin tmax rows A k = Some v &
  [/\ size v = rows, \sum_(i < rows) nth 0 v i * conjc (nth 0 v i) = 1, forall i, (i < k)%N -> nth 0 v i = 0 &
      forall i, (k < i < rows)%N ->
        get A i k - 2%:R * nth 0 v i * (\sum_(l < rows) conjc (nth 0 v l) * get A l k) = 0].
Proof.
move=> w kc kr; rewrite /householder_c; set x := for_loop _ _ _ _.
have [sx hx] := @fill0_c rows k (get_col rows A k) (size_get_col w kc) (ltnW kr).
rewrite -/x in sx hx; rewrite clength_preciseE //; set pivot := nth 0 x k.
set sgn := (X in X * _); set N := clength x; set alpha := sgn * N%:C.
have cz : cabs pivot != 0 -> (cabs pivot)%:C != 0 by rewrite rc_eq0.
have s2 : sgn * conjc sgn = 1.
  rewrite /sgn; case: ifP => [hp|_]; last by rewrite conjc1 mulr1.
  rewrite conjN mulrNN conjM conjc_inv conj_rc.
  have -> : pivot / (cabs pivot)%:C * (conjc pivot / (cabs pivot)%:C) = pivot * conjc pivot / (cabs pivot ^+ 2)%:C.
    by rewrite [in RHS]rcX; move: (cz hp); move: (conjc pivot) (_%:C) => q c hc; field.
  by rewrite -cabs2 divff // rc_eq0 expf_eq0.
(* the product of the pivot and alpha is real *)
have pa : pivot * conjc alpha = alpha * conjc pivot.
  rewrite /alpha conjM conj_rc /sgn; case: ifP => [hp|/negbFE]; last first.
    by rewrite cabs_eq0 => /eqP ->; rewrite conjc0 mulr0 mul0r.
  rewrite conjN conjM conjc_inv conj_rc; move: (conjc pivot) (cz hp) (N%:C); move: (_%:C) => c q hc n; by field.
have a2 : alpha * conjc alpha = \sum_(i < rows) nth 0 x i * conjc (nth 0 x i).
  rewrite -(clength_sum sx) /alpha conjM conj_rc [in RHS]rcX mulrACA s2 mul1r expr2 //.
set u := set_nth 0 x k _.
have su : size u = rows by rewrite size_set_nth sx; apply/maxn_idPr.
have hu i : nth 0 u i = nth 0 x i - alpha *+ (i == k).
  by rewrite nth_set_nth /=; case: eqP => [->|_]; rewrite ?mulr1n // subr0.
rewrite clength_preciseE //; set nu := clength u.
have sumk (f : nat -> C) a : \sum_(i < rows) f i * (a *+ (i == k :> nat)) = f k * a.
  rewrite (bigD1 (Ordinal kr)) //= eqxx mulr1n big1 ?addr0 // => i.
  by rewrite -val_eqE /= => /negPf ->; rewrite mulr0n mulr0.
have nu2 : (nu ^+ 2)%:C = 2%:R * (alpha * conjc alpha - pivot * conjc alpha).
  rewrite (clength_sum su); transitivity (\sum_(i < rows) (nth 0 x i * conjc (nth 0 x i)
     - nth 0 x i * (conjc alpha *+ (i == k :> nat)) - conjc (nth 0 x i) * (alpha *+ (i == k :> nat))
     + alpha * (conjc alpha *+ (i == k :> nat)))).
    apply: eq_bigr => i _; rewrite hu conjB; case: (_ == _); rewrite ?mulr1n ?mulr0n ?conjc0; last by rewrite !mulr0 !subr0 addr0.
    by move: (nth 0 x i) (conjc (nth 0 x i)) (conjc alpha) => y z a; ring.
  rewrite big_split /= !sumrB (sumk (nth 0 x)) (sumk (fun i => conjc (nth 0 x i))) (sumk (fun=> alpha)) -a2 -/pivot.
  by rewrite [conjc pivot * _]mulrC -pa; ring.
case: eqP => [z|/eqP nz] /=.
  exists (set_nth 0 u k 1) => //.
  have u0 i : nth 0 u i = 0.
    have /allP h : all (fun y : C => y == 0) u by rewrite -clength_eq0 -/nu z.
    case: (ltnP i (size u)) => hi; last by rewrite nth_default.
    by apply/eqP/h/mem_nth.
  have hv i : nth 0 (set_nth 0 u k 1) i = (i == k)%:R by rewrite nth_set_nth /= u0; case: eqP.
  split; first by rewrite size_set_nth su; apply/maxn_idPr.
  - rewrite (bigD1 (Ordinal kr)) //= big1 ?addr0 ?hv ?eqxx ?conjc1 ?mulr1 // => i.
    by rewrite -val_eqE /= => /negPf e; rewrite hv e mul0r.
  - by move=> i ik; rewrite hv ltn_eqF.
  - move=> i /andP [ki ir]; rewrite hv gtn_eqF // mulr0 mul0r subr0.
    have := hu i; rewrite u0 gtn_eqF // mulr0n subr0 hx ltnNge (ltnW ki) /=.
    by rewrite (nth_get_col _ w).
exists [seq y / nu%:C | y <- u] => //.
have nc : nu%:C != 0 by rewrite rc_eq0.
have hv i : (i < rows)%N -> nth 0 [seq y / nu%:C | y <- u] i = nth 0 u i / nu%:C.
  by move=> hi; rewrite (nth_map 0) ?su.
split; first by rewrite size_map.
- transitivity ((\sum_(i < rows) nth 0 u i * conjc (nth 0 u i)) / (nu ^+ 2)%:C).
    rewrite mulr_suml; apply: eq_bigr => i _; rewrite hv // conjM conjc_inv conj_rc rcX.
    by move: (nth 0 u i) (conjc (nth 0 u i)) => y z; move: nc; move: (nu%:C) => c hc; field.
  by rewrite -(clength_sum su) -/nu divff // rc_eq0 expf_eq0.
- by move=> i ik; rewrite hv ?(ltn_trans ik kr) // hu hx ik ltn_eqF // mulr0n subr0 mul0r.
- move=> i /andP [ki ir].
  have -> : \sum_(l < rows) conjc (nth 0 [seq y / nu%:C | y <- u] l) * get A l k = nu%:C / 2%:R.
    transitivity (\sum_(l < rows) (nth 0 x l * conjc (nth 0 x l) - nth 0 x l * (conjc alpha *+ (l == k :> nat))) / nu%:C).
      apply: eq_bigr => l _; rewrite hv // conjM conjc_inv conj_rc hu hx; case: (ltnP l k) => lk.
        by rewrite (ltn_eqF lk) mulr0n subr0 conjc0 !mul0r subr0 mul0r.
      rewrite (nth_get_col _ w) // conjB; case: (_ == _); rewrite ?mulr1n ?mulr0n ?conjc0;
        move: (get A l k) (conjc (get A l k)) (conjc alpha) => y z a; move: (_^-1) => c; ring.
    rewrite -mulr_suml sumrB (sumk (nth 0 x)) -a2 -/pivot.
    have -> : alpha * conjc alpha - pivot * conjc alpha = nu%:C ^+ 2 / 2%:R.
      by rewrite -[nu%:C ^+ 2]rcX nu2 [RHS]mulrC mulKf // pnatr_eq0.
    by move: nc; move: (nu%:C) => c hc; field; rewrite hc ?pnatr_eq0.
  rewrite hv // hu hx ltnNge (ltnW ki) /= gtn_eqF // mulr0n subr0 (nth_get_col _ w) //.
  by move: (get A i k) => y; move: nc; move: (nu%:C) => c hc; field; rewrite hc ?pnatr_eq0.
Qed.

Definition cvc n (v : seq C) : 'cV[C]_n := \col_i nth 0 v i.
Definition hmxc n (v : seq C) : 'M[C]_n := 1%:M - 2%:R *: (cvc n v *m hermx (cvc n v)).

Lemma hmxc_orth n v : \sum_(i < n) nth 0 v i * conjc (nth 0 v i) = 1 -> hmxc n v *m hermx (hmxc n v) = 1%:M.
Proof.
move=> h; have vv : hermx (cvc n v) *m cvc n v = 1%:M.
  by apply/matrixP => i j; rewrite !ord1 !mxE /= -h; apply: eq_bigr => l _; rewrite !mxE mulrC.
rewrite /hmxc; set w := cvc n v in vv *.
have e : (w *m hermx w) *m (w *m hermx w) = w *m hermx w by rewrite mulmxA -(mulmxA w) vv mulmx1.
have s : hermx (w *m hermx w) = w *m hermx w by rewrite hermx_mul hermxK.
have t : hermx (1%:M - 2%:R *: (w *m hermx w)) = 1%:M - 2%:R *: (w *m hermx w).
  rewrite hermxB hermx1 -[in RHS]s; congr (_ - _); apply/matrixP => i j; by rewrite !mxE conjM conjc_nat.
rewrite t mulmxBl mul1mx mulmxBr mulmx1 -scalemxAl -scalemxAr e scalerA -addrA -scalerBl -scaleNr -scalerBl.
rewrite [X in X *: _](_ : _ = 0); last by ring.
by rewrite scale0r addr0.
Qed.

Lemma reflect_cP rows cols rm jk v A : wf rows cols A -> size v = rows -> (0 < rows)%N ->
  let B := reflect_c rows cols (ctor_vector rm jk rows 1 v) (ctor_vector rm jk 1 rows (vconj v)) A in
  [/\ wf rows cols B, rowmaj B = rowmaj A, 
      forall i j, (i < rows)%N -> (j < cols)%N ->
        get B i j = get A i j - 2%:R * nth 0 v i * \sum_(l < rows) conjc (nth 0 v l) * get A l j &
      mxof rows cols B = hmxc rows v *m mxof rows cols A].
Proof.
move=> w sv r0 B.
have sc : size (vconj v) = rows by rewrite size_map.
have [||wv _ gv] := @ctor_vectorP _ rm jk rows 1 v; rewrite ?(minn_idPr r0) ?(maxn_idPl r0) //.
have [||wt _ gt] := @ctor_vectorP _ rm jk 1 rows (vconj v); rewrite ?(minn_idPl r0) ?(maxn_idPr r0) //.
have [w2 _ g2] := @scalar_opP _ (fun v => vscalel (2%:R)%:C v) (fun x => (2%:R)%:C * x) _ _ _ wv (fun _ => erefl).
have [w1 _ g1] := mat_mulP wt w r0.
have [w3 _ g3] := mat_mulP w2 w1 (ltn0Sn 0).
have [w4 e4 g4] := elementwiseP (g := fun x y => x - y) w w3 (@vmap2_pw _ _).
have g i j : (i < rows)%N -> (j < cols)%N ->
  get B i j = get A i j - 2%:R * nth 0 v i * \sum_(l < rows) conjc (nth 0 v l) * get A l j.
  move=> hi hj; rewrite /B /reflect_c /mat_sub g4 // g3 // big_ord1 g2 // g1 // gv // addn0.
  have -> : (2%:R)%:C = 2%:R :> C by rewrite (rmorph_nat (ComplexField.real_complex_rmorphism R)).
  rewrite (set_nth_default 0) ?sv //; congr (_ - _ * _); apply: eq_bigr => l _.
  by rewrite gt // add0n (set_nth_default 0) ?sc // (nth_map 0) ?sv.
split=> //; apply/matrixP => i j; rewrite mulmxBl mul1mx -scalemxAl -mulmxA !mxE g // big_ord1 !mxE.
by rewrite mulrA; congr (_ - _ * _); apply: eq_bigr => l _; rewrite !mxE.
Qed.

Lemma sum_trunc_c m n (f : nat -> C) : (m <= n)%N -> (forall l, (m <= l < n)%N -> f l = 0) ->
  \sum_(l < n) f l = \sum_(l < m) f l.
Proof.
move=> mn h; rewrite -!(big_mkord xpredT) (big_cat_nat _ (n := m)) //=.
rewrite [X in _ + X](_ : _ = 0) ?addr0 // big_nat_cond big1 // => l /andP [hl _]; exact: h.
Qed.

Lemma zero_lower_cP rows cols A : wf rows cols A -> (cols <= rows)%N ->
  wf rows cols (zero_lower_c cols A) /\ rowmaj (zero_lower_c cols A) = rowmaj A /\
  forall i j, (i < rows)%N -> (j < cols)%N ->
    get (zero_lower_c cols A) i j = if (j < i < cols)%N then 0 else get A i j.
Proof.
move=> w cr; pose P k (B : mat C) := [/\ wf rows cols B, rowmaj B = rowmaj A &
  forall i j, get B i j = if (j < i < cols)%N && (j < k)%N then 0 else get A i j].
suff : P cols (zero_lower_c cols A).
  by case=> w1 e1 h; split=> //; split=> // i j _ hj; rewrite h hj andbT.
apply: (@for_loop_ind _ P) => //; first by split=> // i j; rewrite ltn0 andbF.
move=> k B /andP [_ kc] [wB eB hB].
pose P' m (B' : mat C) := [/\ wf rows cols B', rowmaj B' = rowmaj A &
  forall i j, get B' i j = if (j == k) && (k < i < m)%N then 0 else get B i j].
have : P' cols (for_loop k.+1 cols (fun i Rm => set Rm i k 0) B).
  apply: (@for_loop_ind _ P') => //.
    by split=> // i j; rewrite ltnS andbC; case: ltnP => //; case: ltnP.
  move=> m D /andP [km mc] [wC eC hC]; split; rewrite ?rowmaj_set //.
    by apply: wf_set => //; apply: leq_trans mc cr.
  move=> i j; rewrite get_set hC [(i < m.+1)%N]ltnS [(i <= m)%N]leq_eqVlt andbC.
  by case: (i =P m) => [->|_] /=; rewrite ?km ?andbT //; case: (j =P k).
case=> w1 e1 h1; split=> // i j; rewrite h1 hB [(j < k.+1)%N]ltnS [(j <= k)%N]leq_eqVlt.
by case: (j =P k) => [->|_] //=; rewrite ltnn andbF andbT.
Qed.

Definition qr_of_c rows cols A (Q Rm : mat C) :=
  [/\ [/\ wf rows cols Q, wf cols cols Rm, rowmaj Q = rowmaj A & rowmaj Rm = rowmaj A], upper cols Rm,
      hermx (mxof rows cols Q) *m mxof rows cols Q = 1%:M &
      mxof rows cols Q *m mxof cols cols Rm = mxof rows cols A].

Lemma qr_cP rows cols A : wf rows cols A -> (0 < cols <= rows)%N ->
  exists Q Rm, decompose_qr_c tmin tmax rows cols A = Some (Q, Rm) /\ qr_of_c rows cols A Q Rm.
Proof.
move=> w /andP [c0 cr]; have r0 := leq_trans c0 cr; rewrite /decompose_qr_c.
set s := std_max _ _.
have s0 : s%:C != 0 :> C.
  by rewrite rc_eq0; apply: lt0r_neq0; rewrite /s /std_max; case: ifP => // h; apply: lt_trans h.
rewrite /mat_div (negbTE s0).
have [wR eR gR] := @scalar_opP _ (fun v => [seq x / s%:C | x <- v]) (fun x => x / s%:C) _ _ _ w (fun _ => erefl).
set R0 := scalar_op _ _ _ _ in wR eR gR *.
have [wI eI _ gI] := identityP (rowmaj A) (junk A) rows rows.
set I0 := identity _ _ _ _ in wI eI gI *.
pose P k (st : mat C * mat C) := [/\ [/\ wf rows cols st.1, wf rows rows st.2, rowmaj st.1 = rowmaj A & rowmaj st.2 = rowmaj A],
  forall i j, (j < i < rows)%N -> (j < k)%N -> get st.1 i j = 0,
  mxof rows rows st.2 *m mxof rows cols R0 = mxof rows cols st.1 &
  mxof rows rows st.2 *m hermx (mxof rows rows st.2) = 1%:M].
have [] := @for_opt_ind0 _ P False cols (qr_step_c tmin tmax rows cols) (R0, I0).
- by split=> //=; rewrite mxof_identity ?mul1mx ?mulmx1 ?hermx1.
- move=> k [Rk QT] kc [[/= w1 w2 e1 e2] hz hm ho].
  have [v -> [sv v1 v0 vk]] := householder_cP w1 kc (leq_trans kc cr).
  have [w1' e1' g1 m1] := reflect_cP (rowmaj Rk) (junk Rk) w1 sv r0.
  have [w2' e2' _ m2] := reflect_cP (rowmaj Rk) (junk Rk) w2 sv r0.
  split=> /=; first by rewrite e1' e2'.
  + move=> i j /andP [ji ir]; rewrite ltnS leq_eqVlt; case/orP => [/eqP jk|jk].
      by rewrite g1 // jk // vk // -jk ji.
    rewrite g1 ?(ltn_trans jk) // hz ?ji // big1 ?mulr0 ?subr0 // => l _.
    case: (ltnP l k) => lk; first by rewrite v0 ?conjc0 ?mul0r.
    by rewrite hz ?mulr0 // (leq_trans jk lk) /=.
  + by rewrite m1 m2 -mulmxA hm.
  + by rewrite m2 hermx_mul mulmxA -(mulmxA (hmxc rows v)) ho mulmx1 hmxc_orth.
case: for_opt => [[R1 QT]|] H1 H2; last by case: H2.
have {H1 H2} [[/= w1 w2 e1 e2] hz hm ho] := H1 _ erefl.
have [w3 [e3 g3]] := zero_lower_cP w1 cr.
have [w4 e4 g4] := extractP cols cols 0 0 (zero_lower_c cols R1).
have [w5 e5 g5] := extractP cols rows 0 0 QT.
have [w6 e6 g6] := conj_transposeP cols rows (extract cols rows 0 0 QT).
have [w7 e7 g7] := @scalar_opP _ (fun v => vscalel s%:C v) (fun x => s%:C * x) _ _ _ w4 (fun _ => erefl).
do 2!eexists; split; first by reflexivity.
have gq i j : (i < rows)%N -> (j < cols)%N ->
    get (conj_transpose cols rows (extract cols rows 0 0 QT)) i j = conjc (get QT j i).
  by move=> hi hj; rewrite g6 // g5 // !addn0.
have gr i j : (i < cols)%N -> (j < cols)%N ->
  get (mat_scalel cols cols s%:C (extract cols cols 0 0 (zero_lower_c cols R1))) i j = s%:C * get R1 i j.
  move=> hi hj; have hi' := leq_trans hi cr; rewrite g7 // g4 // !addn0 g3 //; case: ifP => // /andP [ji _].
  by rewrite hz // ji hi'.
split.
- by split=> //; rewrite ?e6 ?e5 ?e7 ?e4 ?e3.
- by move=> i l hi li; rewrite gr ?(ltn_trans li hi) // hz ?mulr0 // ?(ltn_trans li hi) // li (leq_trans hi cr).
- apply/matrixP => i j; rewrite !mxE.
  have /matrixP /(_ (widen_ord cr i) (widen_ord cr j)) := ho; rewrite !mxE -val_eqE /= val_eqE => <-.
  by apply: eq_bigr => l _; rewrite !mxE !gq // conjcK.
- apply/matrixP => i j; rewrite !mxE.
  have hm' : mxof rows cols R0 = hermx (mxof rows rows QT) *m mxof rows cols R1.
    by rewrite -hm mulmxA (mulmx1C ho) mul1mx.
  have /matrixP /(_ i j) := hm'; rewrite !mxE gR // => h.
  have -> : get A i j = s%:C * (get A i j / s%:C) by rewrite mulrC divfK.
  rewrite h mulr_sumr; transitivity (\sum_(l < rows) s%:C * (conjc (get QT l i) * get R1 l j)); last first.
    by apply: eq_bigr => l _; rewrite !mxE.
  rewrite (@sum_trunc_c cols rows (fun l => s%:C * (conjc (get QT l i) * get R1 l j))) //.
    by apply: eq_bigr => l _; rewrite !mxE gq // gr // mulrCA.
  by move=> l /andP [cl lr]; rewrite hz ?mulr0 ?mulr0 // (leq_trans (ltn_ord j) cl).
Qed.

Lemma qr_rank_c rows cols A Q Rm : qr_of_c rows cols A Q Rm ->
  (mxof cols cols Rm \in unitmx) = (\rank (mxof rows cols A) == cols).
Proof.
case=> _ _ hq <-; rewrite -row_free_unit /row_free; apply/eqP/eqP => h.
  rewrite mxrankMfree /row_free ?h //; apply/eqP; rewrite eqn_leq rank_leq_col /=.
  have := mxrankM_maxr (hermx (mxof rows cols Q)) (mxof rows cols Q).
  by rewrite hq mxrank1.
by apply/eqP; rewrite eqn_leq rank_leq_row /= -[X in (X <= _)%N]h mxrankM_maxr.
Qed.

Lemma mxof_conj_transpose rows cols A : mxof cols rows (conj_transpose rows cols A) = hermx (mxof rows cols A).
Proof. by have [_ _ h] := conj_transposeP rows cols A; apply/matrixP => i j; rewrite !mxE h. Qed.

Lemma qr_solve_cP rows cols c A Q Rm b : qr_of_c rows cols A Q Rm -> (0 < rows)%N -> wf rows c b ->
  if \rank (mxof rows cols A) == cols then
    exists2 x, qr_solve_c rows cols c (Q, Rm) b = Some x &
      [/\ wf cols c x, rowmaj x = rowmaj A &
          mxof cols cols Rm *m mxof cols c x = hermx (mxof rows cols Q) *m mxof rows c b]
  else qr_solve_c rows cols c (Q, Rm) b = None.
Proof.
move=> h r0 wb; rewrite -(qr_rank_c h); case: h => -[wQ wR eQ eR] hu hq hA.
have [wt et _] := conj_transposeP rows cols Q.
have [wm em _] := mat_mulP wt wb r0.
have := solve_upper_mx wR wm hu; rewrite /qr_solve_c /=.
case: ifP => // _ [x -> [wx ex _ hx]]; exists x => //; split=> //; first by rewrite ex em et.
by rewrite hx mxof_mul // mxof_conj_transpose.
Qed.

Lemma qr_inverse_cP rows cols A Q Rm : qr_of_c rows cols A Q Rm -> (0 < cols)%N ->
  if \rank (mxof rows cols A) == cols then
    exists2 x, qr_inverse_c rows cols (Q, Rm) = Some x &
      [/\ wf cols rows x, rowmaj x = rowmaj A & 
          mxof cols cols Rm *m mxof cols rows x = hermx (mxof rows cols Q)]
  else qr_inverse_c rows cols (Q, Rm) = None.
Proof.
move=> h c0; rewrite -(qr_rank_c h); case: h => -[wQ wR eQ eR] hu hq hA.
have [wt et _] := conj_transposeP rows cols Q.
rewrite /qr_inverse_c /flip_order /=.
have [wI eI _ _] := identityP (rowmaj Rm) (junk Rm) cols cols.
have hI : mxof cols cols (identity (rowmaj Rm) (junk Rm) cols cols) = 1%:M by apply: mxof_identity.
case: (identity _ _ _ _) wI eI hI => rm jk st /= wI eI hI.
case: Rm wR eR hu hA eI {et} => rm' jk' st' /= wR eR hu hA eI.
have := solve_upper_mx wR wI hu.
case: ifP => [uR|_ -> //] [[rm'' jk'' st''] -> [wx ex _ hx]].
have [wm em _] := mat_mulP wx wt c0; eexists; first by reflexivity.
split; [exact: wm|by rewrite em ex /= eI eR|].
by rewrite mxof_mul // mulmxA hx hI mul1mx mxof_conj_transpose.
Qed.

(* least squares: the sum of the squared magnitudes of column j *)
Definition nrm2c n c (x : 'M[C]_(n, c)) (j : 'I_c) : R := \sum_i (Rep (x i j) ^+ 2 + Imp (x i j) ^+ 2).
Lemma nrm2cE n c (x : 'M[C]_(n, c)) j : (nrm2c x j)%:C = \sum_i x i j * conjc (x i j).
Proof. by rewrite rc_sum; apply: eq_bigr => i _; rewrite mulJ. Qed.
Lemma least_squares_c n m c (A : 'M[C]_(n, m)) (b : 'M_(n, c)) (x y : 'M_(m, c)) j :
  hermx A *m (A *m x - b) = 0 ->
  nrm2c (A *m y - b) j = nrm2c (A *m x - b) j + nrm2c (A *m (y - x)) j.
Proof.
move=> h; set d := A *m (y - x); set e := A *m x - b.
have -> : A *m y - b = e + d by rewrite /d /e mulmxBr [RHS]addrC addrA subrK.
have z : \sum_i conjc (d i j) * e i j = 0.
  have : (hermx d *m e) j j = 0 by rewrite /d hermx_mul -mulmxA h mulmx0 mxE.
  by rewrite mxE => hz; rewrite -[RHS]hz; apply: eq_bigr => i _; rewrite [(hermx d) _ _]mxE.
have z' : \sum_i d i j * conjc (e i j) = 0.
  have : conjc (\sum_i conjc (d i j) * e i j) = 0 by rewrite z conjc0.
  by rewrite conjsum => hz; rewrite -[RHS]hz; apply: eq_bigr => i _; rewrite conjM conjcK.
apply: complexI; rewrite rcD !nrm2cE.
transitivity (\sum_i e i j * conjc (e i j) + \sum_i d i j * conjc (d i j)
  + \sum_i conjc (d i j) * e i j + \sum_i d i j * conjc (e i j)); last by rewrite z z' !addr0.
rewrite -!big_split /=.
apply: eq_bigr => i _; rewrite [(e + d) i j]mxE conjD.
by move: (e i j) (d i j) (conjc (e i j)) (conjc (d i j)) => p q p' q'; ring.
Qed.
Lemma nrm2c_ge0 n c (x : 'M[C]_(n, c)) j : 0 <= nrm2c x j.
Proof. by apply: sumr_ge0 => i _; rewrite addr_ge0 ?sqr_ge0. Qed.
Lemma nrm2c_eq0 n c (x : 'M[C]_(n, c)) j : nrm2c x j = 0 -> forall i, x i j = 0.
Proof.
move=> /eqP; rewrite psumr_eq0 => [/allP h i|i _]; last by rewrite addr_ge0 ?sqr_ge0.
have := h i (mem_index_enum i); rewrite /= paddr_eq0 ?sqr_ge0 // !sqrf_eq0.
by case: (x i j) => a c' /= /andP [/eqP -> /eqP ->].
Qed.
End QR.
