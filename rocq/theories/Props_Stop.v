(* Theorems about the end of the Jacobi iterations: C88. *)
From mathcomp Require Import all_ssreflect all_algebra.
From mathcomp Require Import ring.
From Verif Require Import Spec M_Vec P_Vec M_Mat P_Mat P_Mat2 M_LU P_Tri P_LU P_LU2 M_QR P_QR Props_QR.
From Verif Require Import M_SVD P_SVD2 P_SVD P_SVDres P_SVDone Props_SVD P_SVDstop P_SVDthree.
Set Implicit Arguments. Unset Strict Implicit. Unset Printing Implicit Defensive.
Import Order.Theory GRing.Theory Num.Theory.
Local Open Scope ring_scope.

(* the square of the distance of U diag(S) V from A *)
Definition residual2 (R : rcfType) (rows cols : nat) (A : mat R) (d : svd R) : R :=
  let p := minn rows cols in
  let E := mxof rows cols A - mxof rows p (svdU d) *m diag_mx (rv p (svdS d)) *m mxof p cols (svdV d) in
  \sum_i \sum_j E i j ^+ 2.

Lemma residual2_two (R : rcfType) rows cols (A : mat R) s rm st : (cols <= rows)%N -> s != 0 ->
  inv2 cols (padded rows cols A s) st ->
  residual2 rows cols A (two_sided_result rows cols rm s st) = s ^+ 2 * offX rows st.
Proof.
move=> cr s0 hi; have [_ _ _] := two_sided_resultP rm cr s0 hi.
by rewrite /residual2; have /minn_idPr -> := cr.
Qed.

Lemma residual_small (R : rcfType) rows cols (A : mat R) s rm st tol : (cols <= rows)%N -> s != 0 ->
  inv2 cols (padded rows cols A s) st -> 0 <= tol ->
  (forall p q, (p < rows)%N -> (q < rows)%N -> p != q -> `|get st.1.2 p q| <= tol) ->
  residual2 rows cols A (two_sided_result rows cols rm s st) <= (s * rows%:R * tol) ^+ 2.
Proof.
move=> cr s0 hi t0 sm; rewrite residual2_two //.
have -> : (s * rows%:R * tol) ^+ 2 = s ^+ 2 * (rows%:R * (rows%:R * tol ^+ 2)) by ring.
apply: ler_wpmul2l; first exact: sqr_ge0.
rewrite /offX /off2; apply: (@le_trans _ _ (\sum_(i < rows) \sum_(j < rows) tol ^+ 2)); last first.
  by rewrite !mulr_natl; under eq_bigr do rewrite sumr_const card_ord; rewrite sumr_const card_ord.
apply: ler_sum => i _; apply: ler_sum => j _; case: eqP => [_|/eqP ij]; first exact: sqr_ge0.
rewrite mxE -[X in X <= _]real_normK ?num_real // ler_expn2r ?nnegrE ?normr_ge0 //.
by apply: sm.
Qed.

(* the matrix of the counterexample *)
Definition bad (R : rcfType) : mat R :=
  Mat true 0 [:: [:: 0; 4%:R; 3%:R]; [:: 0; 0; 0]; [:: - 5%:R; 10%:R; 0]].

(** * C88: the two-sided iteration may stop before it has converged *)
Theorem C88_two_sided_refuted (R : rcfType) sg (emax enext tol : R) (fuel : nat) :
  0 <= tol -> tol <= 5%:R^-1 -> 1 < enext -> enext < emax -> (2 <= fuel)%N ->
  exists2 d, svd_two_sided sg emax enext tol fuel 3 3 (bad R) = Done d & 9%:R / 50%:R <= residual2 3 3 (bad R) d.
Proof.
move=> t0 t5 en em hf; have w : wf 3 3 (bad R) by [].
have sE : mat_scale_elements 3 3 (bad R) = 10%:R.
  rewrite /mat_scale_elements /for_loop /= /scale_elements /vmaxelem /= !normrN !normr0 !normr_nat !ltr0n /= !ltr_nat /= !ltxx.
  by rewrite /std_max ltr0n /= ![_%:R < 0]ltNge !ler0n /= ltr_nat.
have nz : 10%:R != 0 :> R by rewrite pnatr_eq0.
have [As eAs [wAs _ hAs]] := mat_divP w nz.
have [hi hX] := two_sided_initP (isT : (3 <= 3)%N) wAs hAs.
rewrite /svd_two_sided sE eAs; case eI: (two_sided_init 3 3 (bad R) As) => [[U X] V].
rewrite eI in hi hX; have [[wU wX wV] _ _ _ _] := hi.
pose b : R := 10%:R^-1; have b0 : 0 < b by rewrite invr_gt0 ltr0n.
have tb : tol <= 2%:R * b.
  by apply: le_trans t5 _; rewrite le_eqVlt; apply/orP; left; apply/eqP; rewrite /b; field.
have hr : rows3 X 0 (4%:R * b) (3%:R * b)  0 0 0  (- (5%:R * b)) (10%:R * b) 0.
  by split; [|split]; split; rewrite [LHS]hX //= /get /= ?mul0r ?mulNr.
have [U1 [X1 [V1 [E1 [[wU1 wX1 wV1] r1]]]]] := first_sweep sg b0 tb 0 wU wX wV hr.
have [U2 [X2 [V2 [e [E2 [_ [l2 ob]]]]]]] := second_sweep sg b0 tb 1 wU1 wX1 wV1 r1.
have [s1 [e1 [E1' [hi1 _]]]] := two_sided_sweepP sg t0 0 hi.
have {s1 e1 E1'} hi1 : inv2 3 (padded 3 3 (bad R) 10%:R) (U1, X1, V1).
  by move: E1' hi1; rewrite E1 => -[<- _].
have [s2 [e2 [E2' [hi2 _]]]] := two_sided_sweepP sg t0 1 hi1.
have {s2 e2 E2'} hi2 : inv2 3 (padded 3 3 (bad R) 10%:R) (U2, X2, V2).
  by move: E2' hi2; rewrite E2 => -[<- _].
case: fuel hf => [|[|f]] // _.
have -> : jacobi (two_sided_sweep sg 3 tol) f.+2 0 emax enext (U, X, V) = Done (U2, X2, V2).
  cbn [jacobi]; rewrite em E1.
  have -> : 5%:R * b < enext.
    apply: le_lt_trans en; rewrite /b ler_pdivr_mulr ?ltr0n // mul1r ler_nat //.
  rewrite E2; have lf : (e < 5%:R * b) = false.
    by apply/negbTE; rewrite -leNgt; apply: le_trans l2; rewrite ler_pmul2r // ler_nat.
  by case: (f) => [|f'] /=; rewrite lf.
eexists; first by reflexivity.
rewrite (residual2_two true (isT : (3 <= 3)%N) nz hi2) /offX /off2 /=.
rewrite !big_ord_recr !big_ord0 /= !mxE /=.
rewrite ler_pdivr_mulr ?ltr0n // !add0r.
apply: (@le_trans _ _ (10%:R ^+ 2 * (50%:R * (get X2 1 0 ^+ 2 + get X2 2 0 ^+ 2)))).
  have -> : 9%:R = 10%:R ^+ 2 * (9%:R * b ^+ 2) by rewrite /b; field.
  by rewrite ler_pmul2l // exprn_gt0 // ltr0n.
rewrite [X in _ <= X]mulrC mulrCA; apply: ler_wpmul2l; first exact: ler0n.
apply: ler_wpmul2l; first exact: sqr_ge0.
move: (sqr_ge0 (get X2 0 1)) (sqr_ge0 (get X2 0 2)) (sqr_ge0 (get X2 1 2)) (sqr_ge0 (get X2 2 1)).
move: (get X2 0 1 ^+ 2) (get X2 0 2 ^+ 2) (get X2 1 0 ^+ 2) (get X2 1 2 ^+ 2) (get X2 2 0 ^+ 2) (get X2 2 1 ^+ 2) => x1 x2 x3 x4 x5 x6 p1 p2 p4 p6.
rewrite -subr_ge0; match goal with |- is_true (_ <= ?a) => have -> : a = x1 + x2 + x4 + x6 by ring end.
by rewrite !addr_ge0.
Qed.
Print Assumptions C88_two_sided_refuted.
(* such thresholds exist *)
Example C88_ex (R : rcfType) : exists emax enext tol : R, [/\ 0 <= tol, tol <= 5%:R^-1, 1 < enext & enext < emax].
Proof.
exists 3%:R, 2%:R, 100%:R^-1; split; rewrite ?ltr_nat ?ltr1n //; first by rewrite invr_ge0 ler0n.
by rewrite lef_pinv ?posrE ?ltr0n // ler_nat.
Qed.

(* What is true. If the last sweep of the two-sided iteration found nothing to rotate, the result is as close to A
   as the tolerance promises. *)
Theorem C88_two_sided_partial (R : rcfType) sg (emax enext tol : R) (fuel rows cols : nat) (A : mat R) d :
  0 <= tol -> wf rows cols A -> (cols <= rows)%N -> mxof rows cols A != 0 -> enext < emax ->
  svd_two_sided sg emax enext tol fuel rows cols A = Done d ->
  let s := mat_scale_elements rows cols A in
  exists k st st' e, [/\ two_sided_sweep sg rows tol k st = Some (st', e),
    d = two_sided_result rows cols (rowmaj A) s st' &
    e = 0 -> residual2 rows cols A d <= (s * rows%:R * tol) ^+ 2].
Proof.
move=> t0 w cr A0 em; have [s0 hs sz] := mat_scale_elementsP w; rewrite /svd_two_sided; set s := mat_scale_elements _ _ _ in s0 hs sz *.
have nz : s != 0 by rewrite sz.
have [As eAs [wAs _ hAs]] := mat_divP w nz; rewrite eAs.
have [hi _] := two_sided_initP cr wAs hAs.
case ej: jacobi => [st'|||] // [<-].
have [|k [st [e [hs1 E hs2]]]] := @jacobi_last R _ (inv2 cols (padded rows cols A s)) (two_sided_sweep sg rows tol) fuel 0%N emax enext _ st' hi _ em ej.
  by move=> k' s1 s2 e1 h E; have [s3 [e3 [E' [h' _]]]] := two_sided_sweepP sg t0 k' h; move: E'; rewrite E => -[-> _].
exists k, st, st', e; split=> // e0.
have [s3 [e3 [E' [_ hc]]]] := two_sided_sweepP sg t0 k hs1; move: E'; rewrite E => -[es ee].
case: hc => [[_ [e4 sm]]|[p _]]; last by rewrite -ee e0 ltxx in p.
by apply: residual_small => //; rewrite es e4.
Qed.
Print Assumptions C88_two_sided_partial.

Lemma one_sided_start (R : rcfType) rows cols (A As : mat R) s : wf rows cols As ->
  (forall i j, (i < rows)%N -> (j < cols)%N -> get As i j = get A i j / s) ->
  inv1 (s^-1 *: mxof rows cols A) (convert false rows cols As, identity true (junk A) cols cols).
Proof.
move=> wAs hAs; have [wC _ _ gC] := convertP false wAs; have [wI _ _ _] := identityP true (junk A) cols cols.
split=> //=; rewrite mxof_identity ?mulmx1 ?trmx1 //.
by apply/matrixP => i j; rewrite !mxE gC // hAs // mulrC.
Qed.

(* If the last sweep of the one-sided iteration found nothing to rotate, the result is a singular value decomposition. *)
Theorem C88_one_sided_partial (R : rcfType) sg std_sort (tmin tmax emax enext sqrteps : R) sg0 (fuel rows cols : nat) (A : mat R) d :
  (forall l : seq (R * nat), perm_eq (std_sort l) l /\ sorted (fun a b => b.1 <= a.1) (std_sort l)) ->
  0 < tmin -> tmin <= tmax -> 0 < sqrteps ->
  wf rows cols A -> (0 < cols <= rows)%N -> mxof rows cols A != 0 -> enext < emax ->
  svd_one_sided sg std_sort tmin tmax emax enext sqrteps sg0 fuel rows cols A = Done d ->
  exists k st st' e, [/\ one_sided_sweep sg rows cols k st = Some (st', e),
    one_sided_result std_sort tmin tmax rows cols (rowmaj A) sg0 sqrteps (mat_scale_elements rows cols A) st' = Some d &
    e = 0 -> is_svd (mxof rows cols A) d].
Proof.
move=> hsort tm0 tm ep w cr A0 em; have [s0 hs sz] := mat_scale_elementsP w; rewrite /svd_one_sided; set s := mat_scale_elements _ _ _ in s0 hs sz *.
have nz : s != 0 by rewrite sz.
have [As eAs [wAs _ hAs]] := mat_divP w nz; rewrite eAs.
have [wC _ _ gC] := convertP false wAs; have [wI _ _ _] := identityP true (junk A) cols cols.
have hi : inv1 (s^-1 *: mxof rows cols A) (convert false rows cols As, identity true (junk A) cols cols).
  split=> //=; rewrite mxof_identity ?mulmx1 ?trmx1 //.
  by apply/matrixP => i j; rewrite !mxE gC // hAs // mulrC.
case ej: jacobi => [st'|||] //; last by case: one_sided_result.
case er: one_sided_result => [d'|] // [<-].
have [|k [st [e [hs1 E hs2]]]] := @jacobi_last R _ (inv1 (s^-1 *: mxof rows cols A)) (one_sided_sweep sg rows cols) fuel 0%N emax enext _ st' hi _ em ej.
  by move=> k' s1 s2 e1 h E; have [s3 [e3 [E' [h' _]]]] := one_sided_quiet sg k' h; move: E'; rewrite E => -[-> _].
exists k, st, st', e; split=> // e0.
have [s3 [e3 [E' [_ hc]]]] := one_sided_quiet sg k hs1; move: E'; rewrite E => -[es ee].
case: hc => [[_ [e4 og]]|p]; last by rewrite -ee e0 ltxx in p.
have og' : forall p q, (p < cols)%N -> (q < cols)%N -> p != q -> gram rows st'.1 p q = 0 by rewrite es e4.
have [d2 ed2 [[wU sS wV'] oU' oV' eA]] := one_sided_resultP hsort tm0 tm ep (rowmaj A) sg0 cr nz A0 hs2 og'.
have dd : d2 = d' by move: ed2; rewrite er => -[].
by rewrite -dd /is_svd; have /minn_idPr -> : (cols <= rows)%N by case/andP: cr.
Qed.
Print Assumptions C88_one_sided_partial.

(** The two-sided iteration converges for at most two rows: it stops after at most three sweeps, and the result is
    within the tolerance. *)
Theorem C88_two_rows (R : rcfType) sg (emax enext tol : R) (fuel rows cols : nat) (A : mat R) :
  0 <= tol -> wf rows cols A -> (cols <= rows <= 2)%N -> mxof rows cols A != 0 -> enext < emax -> (3 <= fuel)%N ->
  exists2 d, svd_two_sided sg emax enext tol fuel rows cols A = Done d &
    residual2 rows cols A d <= (mat_scale_elements rows cols A * rows%:R * tol) ^+ 2.
Proof.
move=> t0 w /andP [cr r2] A0 em hf; have [s0 hs sz] := mat_scale_elementsP w; rewrite /svd_two_sided; set s := mat_scale_elements _ _ _ in s0 hs sz *.
have nz : s != 0 by rewrite sz.
have [As eAs [wAs _ hAs]] := mat_divP w nz; rewrite eAs.
have [hi _] := two_sided_initP cr wAs hAs.
have [st [-> hst q]] := @jacobi_once R _ _ _ enext _ fuel 0%N emax _ em hi hf (fun k st hi => two_sided_few sg k r2 t0 hi).
by eexists; first by []; apply: residual_small.
Qed.
Print Assumptions C88_two_rows.

(** The one-sided iteration converges for at most two columns: it stops after at most three sweeps with a singular
    value decomposition. *)
Theorem C88_two_columns (R : rcfType) sg std_sort (tmin tmax emax enext sqrteps : R) sg0 (fuel rows cols : nat) (A : mat R) :
  (forall l : seq (R * nat), perm_eq (std_sort l) l /\ sorted (fun a b => b.1 <= a.1) (std_sort l)) ->
  0 < tmin -> tmin <= tmax -> 0 < sqrteps ->
  wf rows cols A -> (0 < cols <= rows)%N -> (cols <= 2)%N -> mxof rows cols A != 0 -> enext < emax -> (3 <= fuel)%N ->
  exists2 d, svd_one_sided sg std_sort tmin tmax emax enext sqrteps sg0 fuel rows cols A = Done d & is_svd (mxof rows cols A) d.
Proof.
move=> hsort tm0 tm ep w cr c2 A0 em hf; have [s0 hs sz] := mat_scale_elementsP w; rewrite /svd_one_sided; set s := mat_scale_elements _ _ _ in s0 hs sz *.
have nz : s != 0 by rewrite sz.
have [As eAs [wAs _ hAs]] := mat_divP w nz; rewrite eAs.
have hi := one_sided_start wAs hAs.
have [st [-> hst q]] := @jacobi_once R _ _ _ enext _ fuel 0%N emax _ em hi hf (fun k st hi => one_sided_few sg k c2 hi).
have [d -> [[wU sS wV'] oU' oV' eA]] := one_sided_resultP hsort tm0 tm ep (rowmaj A) sg0 cr nz A0 hst q.
by exists d => //; rewrite /is_svd; have /minn_idPr -> : (cols <= rows)%N by case/andP: cr.
Qed.
Print Assumptions C88_two_columns.

(** With three columns every sweep but the first finds a smaller error than the sweep before, or none: the one-sided
    iteration stops only when there is nothing left to rotate. *)
Theorem C88_three_columns (R : rcfType) sg std_sort (tmin tmax emax enext sqrteps : R) sg0 (fuel rows cols : nat) (A : mat R) d :
  (forall l : seq (R * nat), perm_eq (std_sort l) l /\ sorted (fun a b => b.1 <= a.1) (std_sort l)) ->
  0 < tmin -> tmin <= tmax -> 0 < sqrteps ->
  wf rows cols A -> (0 < cols <= rows)%N -> (cols <= 3)%N -> mxof rows cols A != 0 ->
  (rows * cols)%:R < enext -> enext < emax ->
  svd_one_sided sg std_sort tmin tmax emax enext sqrteps sg0 fuel rows cols A = Done d ->
  is_svd (mxof rows cols A) d.
Proof.
move=> hsort tm0 tm ep w cr c3 A0 en em; have [s0 hs sz] := mat_scale_elementsP w; rewrite /svd_one_sided; set s := mat_scale_elements _ _ _ in s0 hs sz *.
have nz : s != 0 by rewrite sz.
have [As eAs [wAs _ hAs]] := mat_divP w nz; rewrite eAs.
have hi := one_sided_start wAs hAs.
case ej: jacobi => [st|||] //; last by case: one_sided_result.
case er: one_sided_result => [d'|] // [<-].
suff [hst og] : inv1 (s^-1 *: mxof rows cols A) st /\ forall p q, (p < cols)%N -> (q < cols)%N -> p != q -> gram rows st.1 p q = 0.
  have [d2 ed2 [[wU sS wV'] oU' oV' eA]] := one_sided_resultP hsort tm0 tm ep (rowmaj A) sg0 cr nz A0 hst og.
  have dd : d2 = d' by move: ed2; rewrite er => -[].
  by rewrite -dd /is_svd; have /minn_idPr -> : (cols <= rows)%N by case/andP: cr.
move: c3; rewrite leq_eqVlt ltnS => /orP [/eqP c3|c2]; last first.
  have [|k [st0 [e [hs1 E hs2]]]] := @jacobi_last R _ (inv1 (s^-1 *: mxof rows cols A)) (one_sided_sweep sg rows cols) fuel 0%N emax enext _ st hi _ em ej.
    by move=> k' s1 s2 e1 h E; have [s3 [e3 [E' h' _ _ _]]] := one_sided_few sg k' c2 h; move: E'; rewrite E => -[-> _].
  have [s3 [e3 [E' h' q _ _]]] := one_sided_few sg k c2 hs1.
  by move: E'; rewrite E => -[-> _].
have fr : fro2 (s^-1 *: mxof rows cols A) <= (rows * cols)%:R.
  apply: (@le_trans _ _ (\sum_(i < rows) \sum_(j < cols) 1)); last first.
    by rewrite natrM mulr_natl; under eq_bigr do rewrite sumr_const card_ord; rewrite sumr_const card_ord.
  apply: ler_sum => i _; apply: ler_sum => j _; rewrite !mxE.
  have sp : 0 < s by rewrite lt_def nz.
  rewrite -real_normK ?num_real // exprn_ile1 ?normr_ge0 // normrM normfV (gtr0_norm sp) mulrC ler_pdivr_mulr // mul1r.
  exact: hs.
have en0 : 0 < enext by apply: le_lt_trans en; rewrite ler0n.
have {}fr := le_lt_trans fr en; move: {nz sz s0 hs hAs er} (s^-1 *: _) fr hi ej => M fr hi ej; move: M fr hi ej; rewrite {}c3 => M fr hi ej.
have [|k [st0 [i0 i1 E]]] := @jacobi_strict R _ (inv1 M) (fun st e => shape3 rows st.1 e) enext (one_sided_sweep sg rows 3) fuel 0%N emax _ st en0 em hi _ ej.
  move=> k [X V] h; have [X' [V' [e' [h1 h2 h3 /andP [h4 h5] h6]]]] := sweep3 sg k h.
  by exists (X', V'), e'; split=> //; rewrite h4 (le_lt_trans h5).
split=> //; have [s3 [e3 [E' [_ hc]]]] := one_sided_quiet sg k i0; move: E'; rewrite E => -[es ee].
by case: hc => [[_ [e4 og]]|p]; [rewrite es e4|rewrite -ee ltxx in p].
Qed.
Print Assumptions C88_three_columns.

(* a run with three columns that does stop, with a rotation in its first sweep *)
Lemma block3 (R : rcfType) sg rows (M0 : 'M[R]_(rows, 3)) k st :
  let I st := inv1 M0 st /\ gram rows st.1 0 2 = 0 /\ gram rows st.1 1 2 = 0 in
  let Q st := gram rows (st : mat R * mat R).1 0 1 = 0 in
  I st -> exists st' e', [/\ one_sided_sweep sg rows 3 k st = Some (st', e'), I st', Q st', 0 <= e' & (Q st -> e' = 0)].
Proof.
case: st => X V I Q [/= hi [g02 g12]]; rewrite /one_sided_sweep /pairs_loop; cbn [iota for_opt subn subn_rec Nat.sub].
have [X1 [V1 [c1 [s1 [-> i1 _ [o1 _ _ _] r1]]]]] := @gram_step R sg rows 3 M0 k 0%N 1%N X V 0 erefl hi (lexx 0).
have [a1 a2 _] := r1 2%N erefl erefl; rewrite g02 g12 !mulr0 ?addr0 ?subr0 in a1 a2.
set e1 := std_max 0 _; have e10 : 0 <= e1 by apply: std_max_ge0.
have [X2 [V2 [c2 [s2 [-> i2 [_ _ _ z2 _] [o2 _ _ _] r2]]]]] := @gram_step R sg rows 3 M0 k 0%N 2%N X1 V1 e1 erefl i1 e10.
have [b1 b2 _] := r2 1%N erefl erefl; rewrite o1 [gram _ _ 2 1]gramC a2 !mulr0 ?addr0 ?subr0 in b1 b2.
set e2 := std_max e1 _; have e20 : 0 <= e2 by apply: std_max_ge0.
have [X3 [V3 [c3 [s3 [-> i3 [_ _ _ z3 _] [o3 _ _ _] r3]]]]] := @gram_step R sg rows 3 M0 k 1%N 2%N X2 V2 e2 erefl i2 e20.
have [d1 d2 _] := r3 0%N erefl erefl.
rewrite [gram _ X2 1 0]gramC b1 [gram _ X2 2 0]gramC o2 !mulr0 ?addr0 ?subr0 in d1 d2.
rewrite [gram _ X2 2 1]gramC in b2.
exists (X3, V3), (std_max e2 `|gram rows X2 1 2|); split=> //.
- by split=> //; rewrite /= [gram _ _ 0 2]gramC d2 o3.
- by rewrite /Q /= gramC d1.
- exact: std_max_ge0.
- by move=> q; rewrite b2 /e2 a1 /e1 q !std_max0.
Qed.

Definition block (R : rcfType) : mat R := Mat true 0 [:: [:: 1; 1; 0]; [:: 0; 1; 0]; [:: 0; 0; 1]].
Example C88_three_ex (R : rcfType) sg std_sort (tmin tmax emax enext sqrteps : R) sg0 :
  (forall l : seq (R * nat), perm_eq (std_sort l) l /\ sorted (fun a b => b.1 <= a.1) (std_sort l)) ->
  0 < tmin -> tmin <= tmax -> 0 < sqrteps -> enext < emax ->
  wf 3 3 (block R) /\ mxof 3 3 (block R) != 0 /\
  exists d, svd_one_sided sg std_sort tmin tmax emax enext sqrteps sg0 3 3 3 (block R) = Done d.
Proof.
move=> hsort tm0 tm ep em; have w : wf 3 3 (block R) by [].
have A0 : mxof 3 3 (block R) != 0.
  by apply/eqP => /matrixP /(_ ord0 ord0); rewrite !mxE /get /= => /eqP; rewrite oner_eq0.
split=> //; split=> //.
have [s0 hs sz] := mat_scale_elementsP w; rewrite /svd_one_sided; set s := mat_scale_elements _ _ _ in s0 hs sz *.
have nz : s != 0 by rewrite sz.
have [As eAs [wAs _ hAs]] := mat_divP w nz; rewrite eAs.
have hi := one_sided_start wAs hAs; have [wC _ _ gC] := convertP false wAs.
set st0 := (_, _) in hi *.
have g i j : (i < 3)%N -> (j < 3)%N -> gram 3 st0.1 i j = (\sum_(k < 3) get (block R) k i * get (block R) k j) / s / s.
  move=> h1 h2; rewrite /gram !mulr_suml; apply: eq_bigr => k _; rewrite /= !gC // !hAs //; by field; rewrite nz.
have h : inv1 (s^-1 *: mxof 3 3 (block R)) st0 /\ gram 3 st0.1 0 2 = 0 /\ gram 3 st0.1 1 2 = 0.
  by split=> //; split; rewrite g // !big_ord_recr big_ord0 /get /=; ring.
have [st [-> [hst [q1 q2]] q0]] := @jacobi_once R _ _ _ enext _ 3 0%N emax _ em h isT (fun k st hi => block3 sg k hi).
have og p q : (p < 3)%N -> (q < 3)%N -> p != q -> gram 3 st.1 p q = 0.
  by case: p => [|[|[|//]]]; case: q => [|[|[|//]]] // _ _ _; rewrite ?q0 ?q1 ?q2 // gramC.
by have [d -> _] := one_sided_resultP hsort tm0 tm ep true sg0 (isT : (0 < 3 <= 3)%N) nz A0 hst og; exists d.
Qed.

Example C88_two_ex (R : rcfType) : exists A : mat R, wf 2 2 A /\ mxof 2 2 A != 0 /\ get A 0 1 != 0.
Proof.
exists (Mat true 0 [:: [:: 3%:R; 1]; [:: 0; 2%:R]]); split=> //; split; last by rewrite /get /= oner_eq0.
by apply/eqP => /matrixP /(_ ord0 ord0); rewrite !mxE /get /= => /eqP; rewrite pnatr_eq0.
Qed.
