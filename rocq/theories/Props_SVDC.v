(* Theorems about the singular value decomposition of complex matrices: C85, C86, C87.
   [hermx A] is the conjugate transpose of A; R[i] are the complex numbers over the ordered field R. *)
From mathcomp Require Import all_ssreflect all_algebra.
From mathcomp Require Import ring complex.
From Verif Require Import Spec M_Vec P_Vec M_Mat P_Mat P_Mat2 M_LU P_Tri P_LU P_LU2 M_Complex P_Complex M_QRC P_QRC P_QRC2 Props_QRC.
From Verif Require Import M_SVD P_SVD2 P_SVD P_SVDone P_SVDsolve M_SVDC P_SVDC2 P_SVDC P_SVDCres P_SVDCone P_SVDCsolve.
Set Implicit Arguments. Unset Strict Implicit. Unset Printing Implicit Defensive.
Import Order.Theory GRing.Theory Num.Theory.
Local Open Scope complex_scope.
Local Open Scope ring_scope.

(* |z|^2 *)
Local Notation sqm z := (complex.Re z ^+ 2 + complex.Im z ^+ 2).

(** * C85: the 2x2 SVD *)
Definition mat22 (F : Type) (a b c d : F) : 'M[F]_2 :=
  \matrix_(i, j) if i == 0 then (if j == 0 then a else b) else (if j == 0 then c else d).
(* [crot c s] = [c -conj(s); s conj(c)] *)
Definition crot (R : rcfType) (c s : R[i]) : 'M[R[i]]_2 := mat22 c (- conjc s) s (conjc c).

Lemma mat22_mul (F : comRingType) (a b c d a' b' c' d' : F) :
  mat22 a b c d *m mat22 a' b' c' d' = mat22 (a * a' + b * c') (a * b' + b * d') (c * a' + d * c') (c * b' + d * d').
Proof.
apply/matrixP => i j; rewrite !mxE !big_ord_recr big_ord0 /= !mxE add0r.
by case: i j => [[|[|i]] hi] [[|[|j]] hj].
Qed.
Lemma mat22_1 (F : comRingType) : mat22 1 0 0 1 = 1%:M :> 'M[F]_2.
Proof. by apply/matrixP => -[[|[|i]] hi] [[|[|j]] hj]; rewrite !mxE. Qed.
Lemma mat22_herm (R : rcfType) (a b c d : R[i]) : hermx (mat22 a b c d) = mat22 (conjc a) (conjc c) (conjc b) (conjc d).
Proof. by apply/matrixP => -[[|[|i]] hi] [[|[|j]] hj]; rewrite !mxE. Qed.

Theorem C85_svd2x2 (R : rcfType) (neg0 : bool) (a11 a12 a21 a22 : R[i]) :
  exists2 d, svd2x2_c neg0 a11 a12 a21 a22 = Some d &
  [/\ crot (ccu d) (csu d) *m hermx (crot (ccu d) (csu d)) = 1%:M,
      crot (ccv d) (csv d) *m hermx (crot (ccv d) (csv d)) = 1%:M,
      cdt d * conjc (cdt d) = 1, 0 <= cs11 d /\ 0 <= cs22 d &
      crot (ccu d) (csu d) *m mat22 (cs11 d)%:C 0 0 (cdt d * (cs22 d)%:C) *m crot (ccv d) (csv d) = mat22 a11 a12 a21 a22].
Proof.
have [d e [[h1 h2 h3 h4 h5] [e1 e2 e3 e4] _]] := svd2x2_cP neg0 a11 a12 a21 a22; exists d => //.
have orth (c s : R[i]) : c * conjc c + s * conjc s = 1 -> crot c s *m hermx (crot c s) = 1%:M.
  move=> h; rewrite /crot mat22_herm mat22_mul !conjN !conjcK -mat22_1; congr mat22; rewrite -?[RHS]h;
    by move: (conjc c) (conjc s) => *; ring.
split; try exact: orth; try by [].
rewrite /crot !mat22_mul; congr mat22; [rewrite [RHS]e1|rewrite [RHS]e2|rewrite [RHS]e3|rewrite [RHS]e4].
all: by move: (conjc (ccu d)) (conjc (csu d)) (conjc (ccv d)) (conjc (csv d)) => *; ring.
Qed.
Print Assumptions C85_svd2x2.

(* the two values are the singular values: their product and their sum of squares *)
Theorem C85_values (R : rcfType) (neg0 : bool) (a11 a12 a21 a22 : R[i]) d :
  svd2x2_c neg0 a11 a12 a21 a22 = Some d ->
  (cs11 d * cs22 d) ^+ 2 = sqm (a11 * a22 - a12 * a21) /\
  cs11 d ^+ 2 + cs22 d ^+ 2 = sqm a11 + sqm a12 + sqm a21 + sqm a22.
Proof.
have [d' e [[h1 h2 h3 h4 h5] [e1 e2 e3 e4] _]] := svd2x2_cP neg0 a11 a12 a21 a22; rewrite e => -[<-] {e d}.
change ((cs11 d' * cs22 d') ^+ 2 = cnorm1 (a11 * a22 - a12 * a21) /\
  cs11 d' ^+ 2 + cs22 d' ^+ 2 = cnorm1 a11 + cnorm1 a12 + cnorm1 a21 + cnorm1 a22).
split.
  have -> : a11 * a22 - a12 * a21 = cdt d' * (cs11 d' * cs22 d')%:C.
    transitivity ((ccu d' * conjc (ccu d') + csu d' * conjc (csu d')) * (ccv d' * conjc (ccv d') + csv d' * conjc (csv d')) *
      (cdt d' * (cs11 d' * cs22 d')%:C)); last by rewrite h1 h2 !mul1r.
    rewrite [in RHS]rcM e1 e2 e3 e4.
    by move: ((cs11 d')%:C) ((cs22 d')%:C) (conjc (ccu d')) (conjc (csu d')) (conjc (ccv d')) (conjc (csv d')) => *; ring.
  rewrite cnorm1M cnorm1_rc; suff -> : cnorm1 (cdt d') = 1 by rewrite mul1r.
  by apply: complexI; rewrite cnorm1E h3.
have aux (x y z w : R) : (x + y + z + w)%:C = x%:C + y%:C + z%:C + w%:C :> R[i] by rewrite !rcD.
apply: complexI; rewrite [in LHS]rcD aux !cnorm1E e1 e2 e3 e4.
transitivity ((ccu d' * conjc (ccu d') + csu d' * conjc (csu d')) * (ccv d' * conjc (ccv d') + csv d' * conjc (csv d')) *
   ((cs11 d')%:C ^+ 2 + cdt d' * conjc (cdt d') * (cs22 d')%:C ^+ 2)); first by rewrite h1 h2 h3 !mul1r -!rcX.
rewrite !(conjD, conjB, conjN, conjM, conjcK, conj_rc).
by move: ((cs11 d')%:C) ((cs22 d')%:C) (conjc (ccu d')) (conjc (csu d')) (conjc (ccv d')) (conjc (csv d')) (conjc (cdt d')) => *; ring.
Qed.
Print Assumptions C85_values.

(* the right rotation is the smaller one: a real positive cosine and a sine no larger in magnitude *)
Theorem C85_small_rotation (R : rcfType) (neg0 : bool) (a11 a12 a21 a22 : R[i]) d :
  svd2x2_c neg0 a11 a12 a21 a22 = Some d ->
  [/\ complex.Im (ccv d) = 0, 0 < complex.Re (ccv d) & sqm (csv d) <= sqm (ccv d)].
Proof.
have [d' e [_ _ [r [h1 h2 h3]]]] := svd2x2_cP neg0 a11 a12 a21 a22; rewrite e => -[<-] {e d}.
rewrite h1 /= expr0n addr0; split=> //.
have := ler_expn2r 2 _ _ h3; rewrite !nnegrE cabs_ge0 (ltW h2) => /(_ isT isT).
by rewrite /cabs sqr_sqrtr ?addr_ge0 ?sqr_ge0.
Qed.
Print Assumptions C85_small_rotation.

(* the singular values of [0 2i; 3 0] *)
Example C85_ex (R : rcfType) : exists2 d, svd2x2_c false (0 : R[i]) (0 +i* 2%:R) 3%:R 0 = Some d &
  (cs11 d * cs22 d) ^+ 2 = 36%:R /\ cs11 d ^+ 2 + cs22 d ^+ 2 = 13%:R.
Proof.
have [d e _] := C85_svd2x2 false (0 : R[i]) (0 +i* 2%:R) 3%:R 0; exists d => //.
have [-> ->] := C85_values e; have -> : (3%:R : R[i]) = 3%:R%:C by rewrite rmorph_nat.
by rewrite mul0r sub0r /= !mulr0 !mul0r; split; ring.
Qed.

(** * C86: the Jacobi iterations *)
(* U is rows x p, V is p x cols with p the smaller dimension, U^H U = 1, V V^H = 1 and U diag(S) V = A, S real *)
Definition is_svd_c (R : rcfType) (rows cols : nat) (A : 'M[R[i]]_(rows, cols)) (d : svdc R) : Prop :=
  let p := minn rows cols in
  let U := mxof rows p (cU d) in let V := mxof p cols (cV d) in
  [/\ wf rows p (cU d) /\ wf p cols (cV d), size (cS d) = p,
      hermx U *m U = 1%:M, V *m hermx V = 1%:M & U *m diag_mx (\row_i (nth 0 (cS d) i)%:C) *m V = A].

(* every rotation of the two-sided iteration: the two elements become zero, the two diagonal elements become
   real and non-negative, the sum of the squared magnitudes of the off-diagonal elements decreases by those of
   the two elements *)
Theorem C86_two_sided_rotation (R : rcfType) sg (n : nat) (tol : R) (k p q : nat) (U X V : mat R[i]) (e : R) :
  0 <= tol -> (p < q < n)%N -> wf n n U -> wf n n X -> wf n n V ->
  exists U' X' V' e', two_sided_step_c sg n tol k p q (U, X, V, e) = Some (U', X', V', e') /\
  let off (M : mat R[i]) := \sum_(i < n) \sum_(j < n) (if i == j then 0 else sqm (get M i j)) in
  let big z := (tol < `|complex.Re z|) || (tol < `|complex.Im z|) in
  if big (get X p q) || big (get X q p)
  then [/\ get X' p q = 0, get X' q p = 0,
           exists a b : R, [/\ 0 <= a, 0 <= b, get X' p p = a%:C & get X' q q = b%:C] &
           off X' = off X - (sqm (get X p q) + sqm (get X q p))]
  else (U', X', V') = (U, X, V).
Proof.
move=> t0 pq wU wX wV; have [U' [X' [V' [e' [h1 h2]]]]] := two_sided_step_cP sg tol k e pq wU wX wV.
exists U', X', V', e'; split=> //; cbv zeta; move=> {h1}.
case: h2 => [[[-> -> -> _] [l1 l2] [l3 l4]]|[d [ed _ hr ht _]]]; first by rewrite !ltNge l1 l2 l3 l4.
have -> : ((tol < `|complex.Re (get X p q)|) || (tol < `|complex.Im (get X p q)|)) ||
          ((tol < `|complex.Re (get X q p)|) || (tol < `|complex.Im (get X q p)|)).
  move: ht; rewrite /cscal2 /std_max; case: ifP => _; case: ifP => _; try case: ifP => _; move=> ->; by rewrite ?orbT.
have [z1 z2 z3 z4] := rotated_elems pq ed hr; have ho := rotated_off_c pq ed hr.
have [d' e2 [[_ _ _ p1 p2] _ _]] := svd2x2_cP (sg k p q) (get X p p) (get X p q) (get X q p) (get X q q).
rewrite ed in e2; case: e2 => e2; rewrite -e2 in p1 p2.
split=> //; first by exists (cs11 d), (cs22 d).
move: ho; rewrite /off2c.
have aux M : \sum_(i < n) \sum_(j < n) (if i == j then 0 else sqm (get M i j)) =
             \sum_(i < n) \sum_(j < n) (if i == j :> nat then 0 else cnorm1 (mxof n n M i j)) :> R.
  by apply: eq_bigr => i _; apply: eq_bigr => j _; rewrite val_eqE mxE.
by rewrite -!aux.
Qed.
Print Assumptions C86_two_sided_rotation.

Lemma fro2c_eq0 (R : rcfType) n m (M : 'M[R[i]]_(n, m)) : fro2c M = 0 -> M = 0.
Proof.
move/eqP; rewrite psumr_eq0; last by move=> i _; apply: sumr_ge0 => j _; apply: cnorm1_ge0.
move/allP => ef; apply/matrixP => i j; rewrite [RHS]mxE.
have := ef i (mem_index_enum _); rewrite psumr_eq0; last by move=> j' _; apply: cnorm1_ge0.
by move/allP/(_ j (mem_index_enum _)); rewrite cnorm1_eq0 => /eqP.
Qed.

(* after any number of sweeps: U and V are unitary and U X V is A divided by its scale, padded with zero columns;
   the result has orthonormal U and V, and the distance of U S V from A is that of X from being diagonal and
   real, so the result is a singular value decomposition when X is diagonal and the diagonal of A is real *)
Theorem C86_two_sided_partial (R : rcfType) sg (emax enext tol : R) (fuel rows cols : nat) (A : mat R[i]) :
  0 <= tol -> wf rows cols A -> (cols <= rows)%N -> mxof rows cols A != 0 ->
  let s := cmat_scale_elements rows cols A in
  exists U X V, let d := two_sided_result_c rows cols (rowmaj A) s (U, X, V) in
  [/\ svd_two_sided_c sg emax enext tol fuel rows cols A = Done d \/
      svd_two_sided_c sg emax enext tol fuel rows cols A = Running d,
      [/\ mxof rows rows U *m hermx (mxof rows rows U) = 1%:M, mxof rows rows V *m hermx (mxof rows rows V) = 1%:M &
          mxof rows rows U *m mxof rows rows X *m mxof rows rows V =
            \matrix_(i, j) if (j < cols)%N then get A i j / s%:C else 0],
      [/\ hermx (mxof rows cols (cU d)) *m mxof rows cols (cU d) = 1%:M,
          mxof cols cols (cV d) *m hermx (mxof cols cols (cV d)) = 1%:M &
          let E := mxof rows cols A - mxof rows cols (cU d) *m diag_mx (\row_i (nth 0 (cS d) i)%:C) *m mxof cols cols (cV d) in
          \sum_i \sum_j sqm (E i j) =
            s ^+ 2 * (\sum_(i < rows) \sum_(j < rows) (if i == j then 0 else sqm (get X i j)) +
                      \sum_(i < cols) complex.Im (get X i i) ^+ 2)],
      forall i, (i < cols)%N -> get X i i = get A i i / s%:C \/ exists2 r : R, 0 <= r & get X i i = r%:C &
      (forall i j, (i < rows)%N -> (j < rows)%N -> i != j -> get X i j = 0) ->
      (forall i, (i < cols)%N -> complex.Im (get A i i) = 0) -> is_svd_c (mxof rows cols A) d].
Proof.
move=> t0 w cr A0 s; have [s0 hs sz] := cmat_scale_elementsP w; rewrite -/s in s0 hs sz.
have nz : s != 0 by rewrite sz.
have [As eAs [wAs _ hAs]] := mat_div_cP w nz.
have [hi _] := two_sided_init_cP cr wAs hAs.
rewrite /svd_two_sided_c -/s eAs.
have [[[U X] V] [hj _] hd] := two_sided_jacobi_inv_c sg t0 fuel 0 emax enext hi.
exists U, X, V; set d := two_sided_result_c _ _ _ _ (U, X, V); have [[wU sS wV] oU oV _ ef] := two_sided_result_cP (rowmaj A) cr nz hj.
have [_ hU hV hM [_ _ hD]] := hj.
have offE : offXc rows (U, X, V) = \sum_(i < rows) \sum_(j < rows) (if i == j then 0 else sqm (get X i j)).
  by apply: eq_bigr => i _; apply: eq_bigr => j _; rewrite val_eqE mxE.
have hD' i : (i < cols)%N -> get X i i = get A i i / s%:C \/ exists2 r : R, 0 <= r & get X i i = r%:C.
  by move=> hi'; have := hD i (leq_trans hi' cr); rewrite /diag0 hi'.
split=> //.
- by case: hd => ->; [left|right].
- by split=> //; apply: mulmx1C.
- by split=> //; cbv zeta; rewrite -offE -ef.
- move=> hdiag hre; have mn : minn rows cols = cols by apply/minn_idPr.
  rewrite /is_svd_c mn; split=> //; apply/eqP; rewrite -subr_eq0 -oppr_eq0 opprB; apply/eqP/fro2c_eq0.
  rewrite [fro2c _]ef offE big1 ?add0r; last first.
    by move=> i _; rewrite big1 // => j _; case: eqP => // /eqP ij; rewrite hdiag //= expr0n addr0.
  rewrite big1 ?mulr0 // => i _; apply/eqP; rewrite sqrf_eq0; apply/eqP.
  have [->|[r _ ->]] := hD' i (ltn_ord i); last by [].
  have -> : get A i i = (complex.Re (get A i i))%:C by have := hre i (ltn_ord i); case: (get A i i) => a b /= ->.
  by rewrite -rcV -rcM.
Qed.
Print Assumptions C86_two_sided_partial.

(* with a positive tolerance the two-sided iteration stops, whatever the bits of the zeros *)
Theorem C86_two_sided_terminates (R : rcfType) sg (emax enext tol : R) (m fuel rows cols : nat) (A : mat R[i]) :
  0 < tol -> wf rows cols A -> (cols <= rows)%N -> mxof rows cols A != 0 ->
  (2 * (rows * cols))%:R <= m%:R * tol ^+ 2 -> (m + 2 <= fuel)%N ->
  exists d, svd_two_sided_c sg emax enext tol fuel rows cols A = Done d.
Proof.
move=> t0 w cr A0 hm hf; have [s0 hs sz] := cmat_scale_elementsP w; set s := cmat_scale_elements _ _ _ in s0 hs sz.
have nz : s != 0 by rewrite sz.
have s_gt0 : 0 < s by rewrite lt_def nz.
have [As eAs [wAs _ hAs]] := mat_div_cP w nz.
have [hi hX] := two_sided_init_cP cr wAs hAs.
rewrite /svd_two_sided_c -/s eAs.
have hb : offXc rows (two_sided_init_c rows cols A As) <= m%:R * tol ^+ 2.
  apply: le_trans hm; apply: off2c_bound => // i j; rewrite !mxE hX //.
    case: ifP => jc; last by rewrite normr0 ler01.
    have [h1 h2] := hs i j (ltn_ord i) jc; rewrite -rcV; case: (get A i j) h1 h2 => a b /= h1 h2.
    rewrite !mulr0 add0r subr0 !normrM normfV (gtr0_norm s_gt0) !ler_pdivr_mulr // !mul1r; by split.
  by move=> jc; rewrite ltnNge jc.
have [[[U X] V] _ ->] := @two_sided_terminates_c R sg rows cols tol _ _ (ltW t0) m fuel 0 emax enext _ t0 hi hb hf.
by eexists; reflexivity.
Qed.
Print Assumptions C86_two_sided_terminates.

(* the two-sided iteration returns the real parts of the diagonal of a diagonal matrix *)
Theorem C86_diagonal (R : rcfType) sg (emax enext tol : R) (fuel n : nat) (A : mat R[i]) :
  0 < tol -> wf n n A -> mxof n n A != 0 ->
  (forall i j, (i < n)%N -> (j < n)%N -> i != j -> get A i j = 0) ->
  exists2 d, svd_two_sided_c sg emax enext tol fuel n n A = Done d \/ svd_two_sided_c sg emax enext tol fuel n n A = Running d &
    [/\ cS d = mkseq (fun i => complex.Re (get A i i)) n, mxof n n (cU d) = 1%:M & mxof n n (cV d) = 1%:M].
Proof.
move=> t0 w A0 hd; have [s0 hs sz] := cmat_scale_elementsP w; rewrite /svd_two_sided_c; set s := cmat_scale_elements _ _ _ in s0 hs sz *.
have nz : s != 0 by rewrite sz.
have [As -> [wAs _ hAs]] := mat_div_cP w nz.
have [hi hX] := two_sided_init_cP (leqnn n) wAs hAs.
set st := two_sided_init_c n n A As in hi hX *.
have off0 : offXc n st = 0.
  rewrite /offXc /off2c big1 // => i _; rewrite big1 // => j _; case: eqP => // /eqP ij.
  by rewrite mxE hX // ltn_ord hd // mul0r /cnorm1 /= expr0n addr0.
have stay f k prev err : jacobi (two_sided_sweep_c sg n tol) f k prev err st = Done st \/ jacobi (two_sided_sweep_c sg n tol) f k prev err st = Running st.
  elim: f k prev err => [|f IH] k prev err /=; case: ifP => _; try by [left|right].
  have [s' [e [-> [hi' hc]]]] := two_sided_sweep_cP sg (ltW t0) k hi.
  case: hc => [[_ [-> _]] //|[_]]; rewrite off0 => h.
  by have := lt_le_trans (ltr_paddl (off2c_ge0 (mxof n n s'.1.2)) (exprn_gt0 2 t0)) h; rewrite ltxx.
have res : let d := two_sided_result_c n n (rowmaj A) s st in
  [/\ cS d = mkseq (fun i => complex.Re (get A i i)) n, mxof n n (cU d) = 1%:M & mxof n n (cV d) = 1%:M].
  have idm rm : mxof n n (convert (rowmaj A) n n (extract n n 0 0 (identity rm (junk A) n n))) = 1%:M.
    have [wI _ _ gI] := identityP rm (junk A) n n; have [wE _ gE] := extractP n n 0 0 (identity rm (junk A) n n).
    have [_ _ _ g1] := convertP (rowmaj A) wE.
    by apply/matrixP => i j; rewrite !mxE g1 // gE // !addn0 gI.
  split; [|exact: idm|exact: idm].
  apply: (@eq_from_nth _ 0); first by rewrite !size_map.
  rewrite !size_map size_iota => i hi'; rewrite (nth_map 0) ?size_mkseq // !nth_mkseq //.
  have := hX i i hi' hi'; rewrite hi' /st /two_sided_init_c; cbn [fst snd] => ->.
  by rewrite -rcV; case: (get A i i) => a b /=; rewrite mulr0 subr0 divfK.
by case: (stay fuel 0%N emax enext) => ->; eexists; [left; reflexivity|exact: res|right; reflexivity|exact: res].
Qed.
Print Assumptions C86_diagonal.

(* a complex diagonal element: diag(i, 1) is returned as diag(0, 1) *)
Theorem C86_two_sided_refuted (R : rcfType) sg (emax enext tol : R) (fuel : nat) :
  0 < tol -> exists A : mat R[i], wf 2 2 A /\
  exists2 d, svd_two_sided_c sg emax enext tol fuel 2 2 A = Done d \/ svd_two_sided_c sg emax enext tol fuel 2 2 A = Running d &
  [/\ mxof 2 2 (cU d) = 1%:M, mxof 2 2 (cV d) = 1%:M, cS d = [:: 0; 1] & ~ is_svd_c (mxof 2 2 A) d].
Proof.
move=> t0; pose A := Mat true (0 : R[i]) [:: [:: 'i; 0]; [:: 0; 1]]; exists A; split=> //.
have A0 : mxof 2 2 A != 0.
  by apply/eqP => /matrixP /(_ 1 1); rewrite !mxE /= => /eqP; rewrite oner_eq0.
have hd i j : (i < 2)%N -> (j < 2)%N -> i != j -> get A i j = 0 by case: i j => [|[|i]] [|[|j]].
have [d h [hS hU hV]] := C86_diagonal sg emax enext fuel t0 (erefl : wf 2 2 A) A0 hd.
exists d => //; split=> // -[_ _ _ _]; rewrite (minnn 2%N) hU hV hS mulmx1 mul1mx => /matrixP /(_ 0 0).
rewrite !mxE /= => /eqP; by rewrite eq_complex /= eq_sym oner_eq0 andbF.
Qed.
Print Assumptions C86_two_sided_refuted.

(* every rotation of the one-sided iteration makes the two columns orthogonal *)
Theorem C86_one_sided_rotation (R : rcfType) sg (rows cols k p q : nat) (X V : mat R[i]) (e : R) :
  (p < q < cols)%N -> wf rows cols X -> wf cols cols V -> mxof cols cols V *m hermx (mxof cols cols V) = 1%:M ->
  exists X' V' e', one_sided_step_c sg rows cols k p q (X, V, e) = Some (X', V', e') /\
  [/\ wf rows cols X' /\ wf cols cols V', \sum_(i < rows) conjc (get X' i p) * get X' i q = 0,
      mxof cols cols V' *m hermx (mxof cols cols V') = 1%:M &
      mxof rows cols X' *m mxof cols cols V' = mxof rows cols X *m mxof cols cols V].
Proof.
move=> pq wX wV oV; have hi : inv1c (mxof rows cols X *m mxof cols cols V) (X, V) by split=> //=; apply: mulmx1C.
have [X' [V' [e' [h [[/= w1 w2 o h2] [h3 _]]]]]] := one_sided_step_cP sg k e pq hi.
by exists X', V', e'; split=> //; split=> //; apply: mulmx1C.
Qed.
Print Assumptions C86_one_sided_rotation.

(* when the columns of X are orthogonal: U and V are unitary and U diag(S) V is A up to a unit factor for each
   singular value, none of them when every singular value reaches the threshold *)
Theorem C86_one_sided_partial (R : rcfType) sg std_sort (tmin tmax emax enext sqrteps : R) sg0 (fuel rows cols : nat) (A : mat R[i]) :
  (forall l : seq (R * nat), perm_eq (std_sort l) l /\ sorted (fun a b => b.1 <= a.1) (std_sort l)) ->
  0 < tmin -> tmin <= tmax -> 0 < sqrteps ->
  wf rows cols A -> (0 < cols <= rows)%N -> mxof rows cols A != 0 ->
  let s := cmat_scale_elements rows cols A in
  exists X V,
  [/\ mxof cols cols V *m hermx (mxof cols cols V) = 1%:M,
      s%:C *: (mxof rows cols X *m mxof cols cols V) = mxof rows cols A &
      (forall p q, (p < cols)%N -> (q < cols)%N -> p != q -> \sum_(i < rows) conjc (get X i p) * get X i q = 0) ->
      exists2 d, svd_one_sided_c sg std_sort tmin tmax emax enext sqrteps sg0 fuel rows cols A = Done d \/
                 svd_one_sided_c sg std_sort tmin tmax emax enext sqrteps sg0 fuel rows cols A = Running d &
      (exists2 ph : nat -> R[i], forall i, ph i * conjc (ph i) = 1 &
        let U := mxof rows cols (cU d) in let V := mxof cols cols (cV d) in
        [/\ size (cS d) = cols, hermx U *m U = 1%:M, V *m hermx V = 1%:M &
            U *m diag_mx (\row_i (ph i * (nth 0 (cS d) i)%:C)) *m V = mxof rows cols A]) /\
      ((forall i, (i < cols)%N -> sqrteps * `|nth 0 (cS d) 0| <= `|nth 0 (cS d) i|) ->
        is_svd_c (mxof rows cols A) d /\ forall i, (i < cols)%N -> 0 < nth 0 (cS d) i)].
Proof.
move=> hsort t0 tm ep w cr A0 s; have [s0 hs sz] := cmat_scale_elementsP w; rewrite -/s in s0 hs sz.
have nz : s != 0 by rewrite sz.
have s_gt0 : 0 < s by rewrite lt_def nz.
have [As eAs [wAs _ hAs]] := mat_div_cP w nz.
rewrite /svd_one_sided_c -/s eAs.
have [wC _ _ gC] := convertP false wAs; have [wI _ _ gI] := identityP true (junk A) cols cols.
have hi : inv1c (s^-1%:C *: mxof rows cols A) (convert false rows cols As, identity true (junk A) cols cols).
  have eI : mxof cols cols (identity true (junk A) cols cols) = 1%:M by apply/matrixP => i j; rewrite !mxE gI.
  split=> //; cbn [fst snd]; rewrite eI ?mulmx1 ?hermx1 //.
  by apply/matrixP => i j; rewrite !mxE gC // hAs // mulrC rcV.
have [[X V] hj hd] := one_sided_jacobi_inv_c sg fuel 0 emax enext hi; exists X, V.
have [/= wX wV oV eM] := hj.
split; [exact: mulmx1C|by rewrite eM scalerA -rcM mulfV // scale1r|].
move=> og; have [d ed [[wU sS wV'] oU' oV' [ph hph [hp _]] hge]] := one_sided_result_cP hsort t0 tm ep (rowmaj A) sg0 cr s_gt0 A0 hj og.
exists d; first by case: hd => ->; rewrite ed; [left|right].
split; first by exists ph.
move=> /hge [hA pos]; split=> //; have mn : minn rows cols = cols by apply/minn_idPr; case/andP: cr.
by rewrite /is_svd_c mn.
Qed.
Print Assumptions C86_one_sided_partial.

(* diag(i, 0): the sign of the real part of an element of R replaces its phase *)
Theorem C86_one_sided_refuted (R : rcfType) : exists A : mat R[i], wf 2 2 A /\
  forall sg std_sort (tmin tmax emax enext sqrteps : R) sg0 (fuel : nat),
  (forall l : seq (R * nat), perm_eq (std_sort l) l /\ sorted (fun a b => b.1 <= a.1) (std_sort l)) ->
  0 < tmin -> tmin <= tmax -> 0 < sqrteps ->
  exists2 d, svd_one_sided_c sg std_sort tmin tmax emax enext sqrteps sg0 fuel 2 2 A = Done d \/
             svd_one_sided_c sg std_sort tmin tmax emax enext sqrteps sg0 fuel 2 2 A = Running d &
  ~ is_svd_c (mxof 2 2 A) d.
Proof.
pose A := Mat true (0 : R[i]) [:: [:: 'i; 0]; [:: 0; 0]]; exists A; split=> //.
move=> sg std_sort tmin tmax emax enext sqrteps sg0 fuel hsort t0 tm ep.
have w : wf 2 2 A by [].
have A0 : mxof 2 2 A != 0.
  by apply/eqP => /matrixP /(_ 0 0); rewrite !mxE /= => /eqP; rewrite eq_complex /= oner_eq0 andbF.
have [s0 hs sz] := cmat_scale_elementsP w; rewrite /svd_one_sided_c; set s := cmat_scale_elements _ _ _ in s0 hs sz *.
have nz : s != 0 by rewrite sz.
have s_gt0 : 0 < s by rewrite lt_def nz.
have [As -> [wAs _ hAs]] := mat_div_cP w nz.
have [wC _ _ gC] := convertP false wAs; have [wI _ _ gI] := identityP true (junk A) 2 2.
set X := convert false 2 2 As in wC gC *; set V := identity true (junk A) 2 2 in wI gI *.
have hi : inv1c (s^-1%:C *: mxof 2 2 A) (X, V).
  have eI : mxof 2 2 V = 1%:M by apply/matrixP => i j; rewrite !mxE gI.
  split=> //; cbn [fst snd]; rewrite eI ?mulmx1 ?hermx1 //.
  by apply/matrixP => i j; rewrite !mxE gC // hAs // mulrC rcV.
have gX i j : (i < 2)%N -> (j < 2)%N -> get X i j = get A i j / s%:C by move=> h1 h2; rewrite gC // hAs.
have gz i j : (i < 2)%N -> (j < 2)%N -> (i, j) != (0, 0)%N -> get X i j = 0.
  by move=> h1 h2 h; rewrite gX //; case: i j h1 h2 h => [|[|i]] [|[|j]] //= _ _ _; rewrite mul0r.
have og p q : (p < 2)%N -> (q < 2)%N -> p != q -> gramc 2 X p q = 0.
  move=> hp hq pq; rewrite /gramc big1 // => k _; case: p q hp hq pq => [|[|p]] [|[|q]] // _ _ _.
    by rewrite [get X k 1]gz ?mulr0 // xpair_eqE andbF.
  by rewrite [get X k 1]gz ?conjc0 ?mul0r // xpair_eqE andbF.
have [d ed [[wU sS wV] oU oV [ph hph [hp hph0]] hge]] := one_sided_result_cP hsort t0 tm ep (rowmaj A) sg0 (isT : (0 < 2 <= 2)%N) s_gt0 A0 hi og.
exists d.
  have hst p q : (p < q < 2)%N -> gramc 2 X p q = 0.
    by move=> /andP [pq q2]; apply: og => //; [exact: ltn_trans pq q2|rewrite (ltn_eqF pq)].
  by have [->|->] := one_sided_stay sg fuel 0 emax enext hi hst; rewrite ed; [left|right].
case=> _ _ _ _; rewrite (minnn 2%N) => hA.
set U := mxof 2 2 (cU d) in oU hp hge hA; set W := mxof 2 2 (cV d) in oV hp hge hA.
(* the factors are determined by U and V *)
have hdiag : diag_mx (\row_(i < 2) (ph i * (nth 0 (cS d) i)%:C)) = diag_mx (\row_(i < 2) (nth 0 (cS d) i)%:C).
  have can D : hermx U *m (U *m D *m W) *m hermx W = D.
    by rewrite !mulmxA oU mul1mx -mulmxA oV mulmx1.
  by rewrite -[LHS]can -[RHS]can hp hA.
have e0 i : (i < 2)%N -> ph i * (nth 0 (cS d) i)%:C = (nth 0 (cS d) i)%:C.
  by move=> h; have /matrixP /(_ (Ordinal h) (Ordinal h)) := hdiag; rewrite !mxE eqxx !mulr1n.
(* some singular value is below the threshold, otherwise A is invertible *)
have small : exists2 i, (i < 2)%N & `|nth 0 (cS d) i| < sqrteps * `|nth 0 (cS d) 0|.
  case: (boolP [exists i : 'I_2, `|nth 0 (cS d) i| < sqrteps * `|nth 0 (cS d) 0|]) => [/existsP [i h]|/existsPn h].
    by exists i.
  have [|_ pos] := hge; first by move=> i hi2; have := h (Ordinal hi2); rewrite -leNgt.
  have : \det (mxof 2 2 A) = 0.
    by rewrite (expand_det_row _ 1) big1 // => j _; rewrite mxE; case: j => [[|[|j]] hj] //; rewrite /get /= mul0r.
  rewrite -hA !det_mulmx det_diag => /eqP; rewrite !mulf_eq0.
  have dU : \det U != 0 by have := mulmx1_unit oU => -[_]; rewrite unitmxE unitfE.
  have dW : \det W != 0 by have := mulmx1_unit oV => -[]; rewrite unitmxE unitfE.
  rewrite (negPf dU) (negPf dW) orbF /= prodf_seq_eq0 => /hasP [i _]; rewrite !mxE rc_eq0.
  by rewrite gt_eqF ?pos.
have [c hc [[k hk knz] hpc]] := hph0 small.
have c0 : c = 0%N by case: c hc knz {hpc} => [|[|c]] // _; rewrite gz ?eqxx // xpair_eqE andbF.
have S0 : nth 0 (cS d) 0 != 0.
  have [i _ hi0] := small; apply: contraTneq hi0 => ->; by rewrite normr0 mulr0 -leNgt.
have ph1 : ph 0%N = 1 by apply: (mulIf (x := (nth 0 (cS d) 0)%:C)); rewrite ?rc_eq0 // mul1r e0.
have ai : anti (get X 0 0) = - 'i.
  rewrite gX // anti_divr // /anti /get /= /cabs /= expr0n expr1n add0r sqrtr1 oner_eq0 /=.
  by rewrite (_ : (1 : R)%:C = 1) // divr1.
by move: hpc; rewrite c0 ai opprK ph1 => -[] /eqP; rewrite eq_complex /= ?oppr0 oner_eq0.
Qed.
Print Assumptions C86_one_sided_refuted.

(* a wide matrix is decomposed through its transpose *)
Theorem C86_wide (R : rcfType) (alg : nat -> nat -> mat R[i] -> outcome (svdc R)) (rows cols : nat) (A : mat R[i]) :
  wf rows cols A ->
  (forall r c B d, wf r c B -> (c <= r)%N -> alg r c B = Done d -> is_svd_c (mxof r c B) d) ->
  forall d, decompose_svd_c alg rows cols A = Done d -> is_svd_c (mxof rows cols A) d.
Proof.
move=> w h d; rewrite /decompose_svd_c; case: leqP => cr; first exact: h.
have [wF _ _ gF] := flip_layout_and_orderP w.
case e: alg => [d'|||d'] // [<-]; have [[wU wV] sS oU oV eA] := h _ _ _ _ wF (ltnW cr) e.
have mn : minn cols rows = rows by apply/minn_idPr; apply: ltnW.
have mn' : minn rows cols = rows by apply/minn_idPl; apply: ltnW.
rewrite mn in wU wV sS oU oV eA; rewrite /is_svd_c mn'; cbn [cU cS cV].
have mV := mxof_flip wV; have mU := mxof_flip wU; have mA := mxof_flip w.
have [w1 _ _ _] := flip_layout_and_orderP wV; have [w2 _ _ _] := flip_layout_and_orderP wU.
rewrite mV mU; split=> //.
- by rewrite hermx_flip oV trmx1.
- by apply: trmx_inj; rewrite -[LHS]hermx_flip trmxK oU trmx1.
- by rewrite -[diag_mx _]tr_diag_mx -!trmx_mul mulmxA eA mA trmxK.
Qed.
Print Assumptions C86_wide.

(* the zero matrix: 0 / 0 *)
Theorem C86_zero_matrix_faults (R : rcfType) sg std_sort (tmin tmax emax enext tol sqrteps : R) sg0 (fuel rows cols : nat) (A : mat R[i]) :
  wf rows cols A -> mxof rows cols A = 0 ->
  svd_two_sided_c sg emax enext tol fuel rows cols A = Fault /\
  svd_one_sided_c sg std_sort tmin tmax emax enext sqrteps sg0 fuel rows cols A = Fault.
Proof.
move=> w z; have [_ _ sz] := cmat_scale_elementsP w.
by rewrite /svd_two_sided_c /svd_one_sided_c /mat_div rc_eq0 sz z eqxx.
Qed.
Print Assumptions C86_zero_matrix_faults.
Example C86_zero_ex (R : rcfType) : wf 2 2 (Mat true (0 : R[i]) [:: [:: 0; 0]; [:: 0; 0]]) /\
  mxof 2 2 (Mat true (0 : R[i]) [:: [:: 0; 0]; [:: 0; 0]]) = 0.
Proof. by split=> //; apply/matrixP => -[[|[|i]] hi] [[|[|j]] hj] //; rewrite !mxE. Qed.

(* a matrix meeting the hypotheses of C86, with a real diagonal *)
Example C86_ex (R : rcfType) : let A := Mat true (0 : R[i]) [:: [:: 1; 'i]; [:: 2%:R; 3%:R]; [:: 'i; 0]] in
  [/\ wf 3 2 A, mxof 3 2 A != 0 & forall i, (i < 2)%N -> complex.Im (get A i i) = 0].
Proof.
split=> //; first by apply/eqP => /matrixP /(_ 0 0); rewrite !mxE /= => /eqP; rewrite oner_eq0.
case=> [|[|i]] // _; rewrite /get /nth /=.
by rewrite !addr0.
Qed.

(* the one-sided iteration returns decreasing magnitudes, whatever state it stopped in *)
Theorem C86_one_sided_sorted (R : rcfType) std_sort (tmin tmax sqrteps s : R) sg0 rm (rows cols : nat) st d :
  (forall l : seq (R * nat), perm_eq (std_sort l) l /\ sorted (fun a b => b.1 <= a.1) (std_sort l)) ->
  one_sided_result_c std_sort tmin tmax rows cols rm sg0 sqrteps s st = Some d ->
  forall i j, (i <= j < cols)%N -> `|nth 0 (cS d) j| <= `|nth 0 (cS d) i|.
Proof.
case: st => X V hsort; rewrite /one_sided_result_c.
have [sl pi me inj mono] := @std_sort_idx R std_sort hsort rows cols (fun i => clength (get_col rows X i)).
set l := std_sort _ in sl pi me inj mono *; set S := [seq x.1 | x <- l].
have sS : size S = cols by rewrite size_map.
have hS i j : (i <= j < cols)%N -> `|nth 0 S j| <= `|nth 0 S i|.
  move=> /andP [ij jc]; have ic := leq_ltn_trans ij jc; rewrite !(nth_map (0, 0%N)) ?sl // (me i ic).2 (me j jc).2.
  rewrite !ger0_norm ?clength_ge0 //; apply: mono; by rewrite ij.
case: ifP => _ h i j ijc; last first.
  case: h => <- /=; have /andP [ij jc] := ijc; have ic := leq_ltn_trans ij jc.
  by rewrite !(nth_map 0) ?sS // !normrM ler_wpmul2r ?hS.
move: h; case: decompose_qr_c => [[Q Rm]|] //= [<-] /=; have /andP [ij jc] := ijc; have ic := leq_ltn_trans ij jc.
rewrite !(nth_map 0) ?size_mkseq // !normrM ler_wpmul2r // !nth_mkseq // /copysign.
by case: ifP => _; case: ifP => _; rewrite ?normrN !normr_id hS.
Qed.
Print Assumptions C86_one_sided_sorted.

(** * C87: Solve and Inverse *)
Theorem C87_in_bounds (R : rcfType) (rows cols c : nat) (d : svdc R) (b : mat R[i]) :
  size (cS d) = minn rows cols ->
  [/\ (cols <= rows)%N -> svd_solve_c rows cols c d b <> OutOfBounds,
      (rows <= cols)%N -> svd_solve_follow_c rows cols c d b <> OutOfBounds &
      svd_inverse_c rows cols d <> OutOfBounds].
Proof.
move=> sS; split.
- move=> /minn_idPr h; have hle : (cols <= size (cS d))%N by rewrite sS h.
  rewrite /svd_solve_c; set Y := mat_mul (minn _ _) _ _ _ _.
  by have := @div_line_c_in R (cS d) (get_row c) (set_row c) cols Y hle; case: (for_loop _ _ _ _).
- move=> /minn_idPl h; have hle : (rows <= size (cS d))%N by rewrite sS h.
  rewrite /svd_solve_follow_c; set Y := mat_mul c _ (minn _ _) _ _.
  by have := @div_line_c_in R (cS d) (get_col c) (set_col c) rows Y hle; case: (for_loop _ _ _ _).
- rewrite /svd_inverse_c; have := @div_line_c_in R (cS d) (get_col cols) (set_col cols) (size (cS d)) (conj_transpose (minn rows cols) cols (cV d)) (leqnn _).
  by case: (for_loop _ _ _ _).
Qed.
Print Assumptions C87_in_bounds.

(* Solve for a wide matrix and column vectors, or a tall matrix and row vectors, reads S outside its bounds *)
Theorem C87_out_of_bounds (R : rcfType) (rows cols c : nat) (A : 'M[R[i]]_(rows, cols)) (d : svdc R) (b : mat R[i]) :
  is_svd_c A d -> (0 < rows)%N -> (0 < cols)%N -> (forall i, (i < minn rows cols)%N -> nth 0 (cS d) i != 0) ->
  ((rows < cols)%N -> wf rows c b -> svd_solve_c rows cols c d b = OutOfBounds) /\
  ((cols < rows)%N -> wf c cols b -> svd_solve_follow_c rows cols c d b = OutOfBounds).
Proof.
move=> [[wU wV] sS _ _ _] r0 c0 hz; split=> lt wb.
- have mn : minn rows cols = rows by apply/minn_idPl; apply: ltnW.
  rewrite /svd_solve_c mn; rewrite mn in sS hz wU; have [wt _ _] := conj_transposeP rows rows (cU d).
  have [wX _ _] := mat_mulP wt wb r0.
  by rewrite (rows_out_c (S := cS d) (m := cols) wX) ?sS.
- have mn : minn rows cols = cols by apply/minn_idPr; apply: ltnW.
  rewrite /svd_solve_follow_c mn; rewrite mn in sS hz wU; have [wt _ _] := conj_transposeP cols cols (cV d).
  have [wX _ _] := mat_mulP wb wt c0.
  by rewrite (cols_out_c (S := cS d) (m := rows) wX) ?sS.
Qed.
Print Assumptions C87_out_of_bounds.

Lemma svd_rank_c (R : rcfType) rows cols p (U : 'M[R[i]]_(rows, p)) S (V : 'M_(p, cols)) :
  hermx U *m U = 1%:M -> V *m hermx V = 1%:M -> (forall i, (i < p)%N -> nth 0 S i != 0) ->
  \rank (U *m diag_mx (rvc p S) *m V) = p.
Proof.
move=> oU oV hz; apply/eqP; rewrite eqn_leq; apply/andP; split.
  by apply: leq_trans (mxrankM_maxr _ _) _; apply: rank_leq_row.
have e : hermx U *m (U *m diag_mx (rvc p S) *m V) *m (hermx V *m dinvc p S) = 1%:M.
  rewrite !mulmxA oU mul1mx -[_ *m V *m hermx V]mulmxA oV mulmx1; exact: dinvP_c.
rewrite -[X in (X <= _)%N](mxrank1 (ComplexField.complex_fieldType R) p) -e; apply: leq_trans (mxrankM_maxl _ _) _; exact: mxrankM_maxr.
Qed.

Theorem C87_least_squares (R : rcfType) (rows cols c : nat) (A : 'M[R[i]]_(rows, cols)) (d : svdc R) (b : mat R[i]) :
  is_svd_c A d -> (0 < cols <= rows)%N -> (forall i, (i < cols)%N -> nth 0 (cS d) i != 0) -> wf rows c b ->
  exists2 x, svd_solve_c rows cols c d b = Done x & wf cols c x /\
  forall (y : 'M_(cols, c)) (j : 'I_c),
    let err z := \sum_i sqm ((A *m z - mxof rows c b) i j) in
    err (mxof cols c x) <= err y /\ (err y = err (mxof cols c x) -> forall i, y i j = get x i j).
Proof.
move=> [[wU wV] sS oU oV eA] cr hz wb; have mn : minn rows cols = cols by apply/minn_idPr; case/andP: cr.
have [x e [wx hx]] := svd_solveP_c (And3 wU sS wV) cr wb hz; exists x => //; split=> // y j; cbv zeta.
rewrite mn in wU wV sS oU oV eA.
have hr : \rank A = cols by rewrite -eA; apply: svd_rank_c.
have hn : hermx A *m (A *m mxof cols c x - mxof rows c b) = 0.
  set U := mxof rows cols (cU d) in oU eA hx *; set V := mxof cols cols (cV d) in oV eA hx *.
  have z : hermx U *m (A *m mxof cols c x - mxof rows c b) = 0.
    rewrite mulmxBr -eA hx !mulmxA oU mul1mx -[_ *m V *m hermx V]mulmxA oV mulmx1 (dinvP_c hz) mul1mx subrr //.
  by rewrite -{1}eA !hermx_mul -[_ *m (_ - _)]mulmxA -[_ *m (_ - _)]mulmxA z !mulmx0.
have [h1 h2] := normal_min_c hr hn y j; split=> // h i; by rewrite h2 // mxE.
Qed.
Print Assumptions C87_least_squares.

Theorem C87_least_squares_follow (R : rcfType) (rows cols r2 : nat) (A : 'M[R[i]]_(rows, cols)) (d : svdc R) (b : mat R[i]) :
  is_svd_c A d -> (0 < rows <= cols)%N -> (forall i, (i < rows)%N -> nth 0 (cS d) i != 0) -> wf r2 cols b ->
  exists2 x, svd_solve_follow_c rows cols r2 d b = Done x & wf r2 rows x /\
  forall (y : 'M_(r2, rows)) (i : 'I_r2),
    let err z := \sum_j sqm ((z *m A - mxof r2 cols b) i j) in
    err (mxof r2 rows x) <= err y /\ (err y = err (mxof r2 rows x) -> forall j, y i j = get x i j).
Proof.
move=> [[wU wV] sS oU oV eA] cr hz wb; have mn : minn rows cols = rows by apply/minn_idPl; case/andP: cr.
have [x e [wx hx]] := svd_solve_followP_c (And3 wU sS wV) cr wb hz; exists x => //; split=> // y j; cbv zeta.
rewrite mn in wU wV sS oU oV eA.
have hr : \rank A^T = rows by rewrite mxrank_tr -eA; apply: svd_rank_c.
have hn : hermx A^T *m (A^T *m (mxof r2 rows x)^T - (mxof r2 cols b)^T) = 0.
  have -> : A^T *m (mxof r2 rows x)^T - (mxof r2 cols b)^T = (mxof r2 rows x *m A - mxof r2 cols b)^T.
    by rewrite linearB /= trmx_mul.
  set U := mxof rows rows (cU d) in oU eA hx *; set V := mxof rows cols (cV d) in oV eA hx *.
  have z : (mxof r2 rows x *m A - mxof r2 cols b) *m hermx V = 0.
    rewrite mulmxBl -eA hx !mulmxA -[_ *m V *m hermx V]mulmxA oV mulmx1 -[_ *m hermx U *m U]mulmxA oU mulmx1.
    have := mulmx1C (dinvP_c hz) => dI; by rewrite -[_ *m dinvc _ _ *m _]mulmxA dI mulmx1 subrr.
  rewrite hermx_tr -trmx_mul -{2}eA !hermx_mul !mulmxA z !mul0mx; exact: trmx0.
have [h1 h2] := normal_min_c hr hn y^T j.
have er z : \sum_i sqm ((A^T *m z^T - (mxof r2 cols b)^T) i j) = \sum_l sqm ((z *m A - mxof r2 cols b) j l).
  by apply: eq_bigr => l _; rewrite -trmx_mul -linearB [((_ - _)^T) l j]mxE.
rewrite !er in h1 h2; split=> // h i; have := h2 h i; by rewrite !mxE.
Qed.
Print Assumptions C87_least_squares_follow.

(* Inverse is the Moore-Penrose inverse, for every shape *)
Theorem C87_pseudoinverse (R : rcfType) (rows cols : nat) (A : 'M[R[i]]_(rows, cols)) (d : svdc R) :
  is_svd_c A d -> (0 < minn rows cols)%N -> (forall i, (i < minn rows cols)%N -> nth 0 (cS d) i != 0) ->
  exists2 P, svd_inverse_c rows cols d = Done P & wf cols rows P /\
    let p := mxof cols rows P in
    [/\ A *m p *m A = A, p *m A *m p = p, hermx (A *m p) = A *m p & hermx (p *m A) = p *m A].
Proof.
move=> [[wU wV] sS oU oV eA] p0 hz.
have [x e [wx hx]] := svd_inverseP_c (And3 wU sS wV) p0 hz; exists x => //; split=> //; cbv zeta.
rewrite hx -eA; set p := minn rows cols in oU oV eA hz p0 hx *; set U := mxof rows p (cU d) in oU *; set V := mxof p cols (cV d) in oV *.
have dI := dinvP_c hz; have dI' := mulmx1C dI; rewrite /rvc in dI dI'; set D := diag_mx _ in dI dI' *; set D' := dinvc p _ in dI dI' *.
have AP : U *m D *m V *m (hermx V *m D' *m hermx U) = U *m hermx U.
  by rewrite !mulmxA -[_ *m V *m hermx V]mulmxA oV mulmx1 -[U *m D *m D']mulmxA dI mulmx1.
have PA : hermx V *m D' *m hermx U *m (U *m D *m V) = hermx V *m V.
  by rewrite !mulmxA -[_ *m hermx U *m U]mulmxA oU mulmx1 -[hermx V *m D' *m D]mulmxA dI' mulmx1.
rewrite AP PA; split.
- by rewrite !mulmxA -[U *m hermx U *m U]mulmxA oU mulmx1.
- by rewrite !mulmxA -[hermx V *m V *m hermx V]mulmxA oV mulmx1.
- by rewrite hermx_mul hermxK.
- by rewrite hermx_mul hermxK.
Qed.
Print Assumptions C87_pseudoinverse.

(* a zero singular value: division by zero *)
Theorem C87_rank_deficient (R : rcfType) (rows cols c : nat) (A : 'M[R[i]]_(rows, cols)) (d : svdc R) (b : mat R[i]) i :
  is_svd_c A d -> (i < minn rows cols)%N -> nth 0 (cS d) i = 0 ->
  svd_inverse_c rows cols d = Fault /\
  ((cols <= rows)%N -> wf rows c b -> svd_solve_c rows cols c d b = Fault).
Proof.
move=> [[wU wV] sS _ _ _] hi z; have r0 : (0 < rows)%N by apply: leq_trans (geq_minl rows cols); apply: leq_ltn_trans hi.
split.
  rewrite /svd_inverse_c; have [wt _ _] := conj_transposeP (minn rows cols) cols (cV d).
  by rewrite (@cols_fault_c _ _ _ (cS d) (size (cS d)) _ i wt) ?sS.
move=> cr wb; have mn : minn rows cols = cols by apply/minn_idPr.
rewrite /svd_solve_c mn; rewrite mn in sS wU hi; have [wt _ _] := conj_transposeP rows cols (cU d).
have [wX _ _] := mat_mulP wt wb r0.
by rewrite (@rows_fault_c _ _ _ (cS d) cols _ i wX) ?sS.
Qed.
Print Assumptions C87_rank_deficient.

(* the decomposition of the 1 x 1 matrix [2i], of [2i 0] and of its transpose *)
Definition svd_i (R : rcfType) (rows cols : nat) : svdc R :=
  Svdc (Mat true 0 (if rows is 1%N then [:: [:: 'i]] else [:: [:: 'i]; [:: 0]])) [:: 2%:R]
       (Mat true 0 (if cols is 1%N then [:: [:: 1]] else [:: [:: 1; 0]])).
Lemma sum1E (Z : zmodType) (f : 'I_1 -> Z) : \sum_i f i = f 0.
Proof. by rewrite big_ord_recl big_ord0 addr0. Qed.
Lemma sum2E (Z : zmodType) (f : 'I_2 -> Z) : \sum_i f i = f 0 + f 1.
Proof. by rewrite big_ord_recl big_ord_recl big_ord0 addr0; congr (_ + f _); apply: val_inj. Qed.
Example C87_ex (R : rcfType) :
  is_svd_c (mxof 2 1 (Mat true (0 : R[i]) [:: [:: 'i *+ 2]; [:: 0]])) (svd_i R 2 1) /\
  is_svd_c (mxof 1 2 (Mat true (0 : R[i]) [:: [:: 'i *+ 2; 0]])) (svd_i R 1 2) /\
  (forall i, (i < 1)%N -> nth 0 (cS (svd_i R 2 1)) i != 0).
Proof.
have h2 : (2%:R : R)%:C = 2%:R :> R[i] by rewrite rmorph_nat.
have ii : conjc 'i * 'i = 1 :> R[i] by apply/eqP; rewrite eq_complex /= !mulr0 !mul0r !mulNr mulr1 opprK !addr0 ?add0r ?subr0 ?oppr0 !eqxx.
split; [|split]; last by case=> // _; rewrite /= pnatr_eq0.
  rewrite /is_svd_c (_ : minn 2 1 = 1%N); last by [].
  split; [by []|by []| | |].
  - apply/matrixP => i j; rewrite !ord1 [LHS]mxE ?sum1E ?sum2E !mxE; apply: etrans ii.
    by rewrite /get; cbn [nth rowmaj stripes svd_i cU]; rewrite mulr0 addr0.
  - apply/matrixP => i j; rewrite !ord1 [LHS]mxE ?sum1E ?sum2E !mxE.
    by rewrite /get; cbn [nth rowmaj stripes svd_i cV]; rewrite conjc1 mulr1.
  - apply/matrixP => i j; rewrite diag_mul_c sum1E !ord1 !mxE; cbn [nth svd_i cS]; rewrite h2 mulr_natr.
    by case: i => [[|[|i]] hi] //; rewrite /get; cbn [nth rowmaj stripes svd_i cU cV val]; rewrite mulr1 ?mul0rn.
rewrite /is_svd_c (_ : minn 1 2 = 1%N); last by [].
split; [by []|by []| | |].
- apply/matrixP => i j; rewrite !ord1 [LHS]mxE ?sum1E ?sum2E !mxE; exact: etrans ii.
- apply/matrixP => i j; rewrite !ord1 [LHS]mxE ?sum1E ?sum2E !mxE.
  by rewrite /get; cbn [nth rowmaj stripes svd_i cV]; rewrite mul0r conjc1 mulr1 addr0.
- apply/matrixP => i j; rewrite diag_mul_c sum1E !ord1 !mxE; cbn [nth svd_i cS]; rewrite h2 mulr_natr.
  by case: j => [[|[|j]] hj] //; rewrite /get; cbn [nth rowmaj stripes svd_i cU cV val]; rewrite ?mulr1 ?mulr0.
Qed.

(** * C83: the largest magnitude of a real or imaginary part of an element of a matrix *)
Theorem C83_scale (R : rcfType) (r c : nat) (A : mat R[i]) : wf r c A -> (0 < r)%N -> (0 < c)%N ->
  let s := cmat_scale_elements r c A in
  [/\ forall i j, (i < r)%N -> (j < c)%N -> `|complex.Re (get A i j)| <= s /\ `|complex.Im (get A i j)| <= s,
      exists i j, [/\ (i < r)%N, (j < c)%N & s = `|complex.Re (get A i j)| \/ s = `|complex.Im (get A i j)|] &
      s = 0 <-> mxof r c A = 0].
Proof.
move=> w r0 c0 s; have [s0 hs sz] := cmat_scale_elementsP w; rewrite -/s in s0 hs sz; split=> //; last first.
  by split=> /eqP h; apply/eqP; [rewrite -sz|rewrite sz].
have : s = 0 \/ exists2 e, (e < stripe_count (rowmaj A) r c)%N & s = cscale_elements (nth [::] (stripes A) e).
  rewrite /s /cmat_scale_elements; set cnt := stripe_count _ _ _; set body := fun (e : nat) scale => _.
  apply: (@for_loop_inv _ (fun x => x = 0 \/ exists2 e, (e < cnt)%N & x = cscale_elements (nth [::] (stripes A) e))); first by left.
  move=> k x /andP [_ kc] hx; rewrite /body /std_max; case: ifP => // _; right; by exists k.
case=> [z|[e he eS]].
  exists 0%N, 0%N; split=> //; left; have [h _] := hs 0%N 0%N r0 c0.
  by apply/eqP; rewrite eq_le h z normr_ge0.
have sz' := wf_dim w he; have d0 : (0 < stripe_dim (rowmaj A) r c)%N by rewrite /stripe_dim; case: (rowmaj A).
have v0 : nth [::] (stripes A) e != [::] by rewrite -size_eq0 sz' -lt0n.
have [[k hk ek] _] := cscaleP v0; rewrite sz' in hk.
have hx z : nth 0 (nth [::] (stripes A) e) k = z -> s = `|complex.Re z| \/ s = `|complex.Im z|.
  by move=> ez; rewrite eS ek ez; case: (leP `|complex.Re z| `|complex.Im z|) => _; [right|left].
move: he hk sz' hx; rewrite /stripe_count /stripe_dim; case erm: (rowmaj A) => he hk sz' hx; [exists e, k|exists k, e];
  split=> //; apply: hx; by rewrite /get erm (set_nth_default (junk A)) ?sz'.
Qed.
Print Assumptions C83_scale.
(* [3 -4i] *)
Example C83_scale_ex (R : rcfType) : cmat_scale_elements 1 2 (Mat true (0 : R[i]) [:: [:: (3%:R +i* 0)%C; (0 +i* - 4%:R)%C]]) = 4%:R.
Proof.
rewrite /cmat_scale_elements /for_loop /= /cscale_elements /vmax2 /vmap2 /vmaxelem /= /std_max normrN !normr_nat normr0.
by rewrite [3%:R < 0]ltNge ler0n /= ltr0n /= ltr_nat /= ltr0n.
Qed.
