(* Theorems about the singular value decomposition: C41, C42, C43, C44, C77. *)
From mathcomp Require Import all_ssreflect all_algebra.
From mathcomp Require Import ring.
From Verif Require Import Spec M_Vec P_Vec M_Mat P_Mat P_Mat2 M_LU P_Tri P_LU P_LU2 M_QR P_QR Props_QR.
From Verif Require Import M_SVD P_SVD2 P_SVD P_SVDres P_SVDone P_SVDsolve.
Set Implicit Arguments. Unset Strict Implicit. Unset Printing Implicit Defensive.
Import Order.Theory GRing.Theory Num.Theory.
Local Open Scope ring_scope.

(** * C41: the 2x2 SVD *)
(* [rot c s] = [c -s; s c] *)
Definition rot (R : rcfType) (c s : R) : 'M[R]_2 :=
  \matrix_(i, j) if i == j then c else if i == 0 then - s else s.
Definition mx22 (R : rcfType) (a b c d : R) : 'M[R]_2 :=
  \matrix_(i, j) if i == 0 then (if j == 0 then a else b) else (if j == 0 then c else d).

Theorem C41_svd2x2 (R : rcfType) (neg0 neg1 : bool) (a11 a12 a21 a22 : R) :
  exists2 d, svd2x2 neg0 neg1 a11 a12 a21 a22 = Some d &
  [/\ rot (cu d) (su d) *m (rot (cu d) (su d))^T = 1%:M, rot (cv d) (sv d) *m (rot (cv d) (sv d))^T = 1%:M,
      dt d = 1 \/ dt d = -1, 0 <= s11 d /\ 0 <= s22 d &
      rot (cu d) (su d) *m mx22 (s11 d) 0 0 (dt d * s22 d) *m rot (cv d) (sv d) = mx22 a11 a12 a21 a22].
Proof.
have [d e [[h1 h2 h3 h4 h5] [e1 e2 e3 e4] _ _]] := svd2x2P neg0 neg1 a11 a12 a21 a22; exists d => //.
have orth (c s : R) : c ^+ 2 + s ^+ 2 = 1 -> rot c s *m (rot c s)^T = 1%:M.
  move=> h; apply/matrixP => i j; rewrite !mxE !big_ord_recr big_ord0 /= !mxE.
  by case: i j => [[|[|i]] hi] [[|[|j]] hj] //=; rewrite -?[RHS]h ?[1%:R]h; ring.
split; try exact: orth.
- by move/eqP: h3; rewrite sqrf_eq1 => /orP [] /eqP; [left|right].
- by [].
- apply/matrixP => i j; rewrite !mxE !big_ord_recr big_ord0 /= !mxE !big_ord_recr !big_ord0 /= !mxE.
  case: i j => [[|[|i]] hi] [[|[|j]] hj] //=; [rewrite [RHS]e1|rewrite [RHS]e2|rewrite [RHS]e3|rewrite [RHS]e4]; ring.
Qed.
Print Assumptions C41_svd2x2.

(* the two values are the singular values: their product and their sum of squares *)
Theorem C41_values (R : rcfType) (neg0 neg1 : bool) (a11 a12 a21 a22 : R) d :
  svd2x2 neg0 neg1 a11 a12 a21 a22 = Some d ->
  s11 d * s22 d = `|a11 * a22 - a12 * a21| /\ s11 d ^+ 2 + s22 d ^+ 2 = a11 ^+ 2 + a12 ^+ 2 + a21 ^+ 2 + a22 ^+ 2.
Proof.
have [d' e [[h1 h2 h3 h4 h5] [e1 e2 e3 e4] _ _]] := svd2x2P neg0 neg1 a11 a12 a21 a22; rewrite e => -[<-].
rewrite e1 e2 e3 e4; split.
  transitivity `|(cu d' ^+ 2 + su d' ^+ 2) * (cv d' ^+ 2 + sv d' ^+ 2) * (dt d' * (s11 d' * s22 d'))|.
    rewrite h1 h2 !mul1r normrM; have -> : `|dt d'| = 1 by move/eqP: h3; rewrite sqrf_eq1 => /orP [] /eqP ->; rewrite ?normrN normr1.
    by rewrite mul1r ger0_norm // mulr_ge0.
  by congr `|_|; move: (cu d') (su d') (cv d') (sv d') (dt d') (s11 d') (s22 d') => *; ring.
transitivity ((cu d' ^+ 2 + su d' ^+ 2) * (cv d' ^+ 2 + sv d' ^+ 2) * (s11 d' ^+ 2 + dt d' ^+ 2 * s22 d' ^+ 2)).
  by rewrite h1 h2 h3 !mul1r.
by move: (cu d') (su d') (cv d') (sv d') (dt d') (s11 d') (s22 d') => *; ring.
Qed.
Print Assumptions C41_values.

(* the singular values of [0 2; 3 0] *)
Example C41_ex (R : rcfType) : exists2 d, svd2x2 false true (0 : R) 2%:R 3%:R 0 = Some d &
  s11 d * s22 d = 6%:R /\ s11 d ^+ 2 + s22 d ^+ 2 = 13%:R.
Proof.
have [d e _] := C41_svd2x2 false true (0 : R) 2%:R 3%:R 0; exists d => //.
have [-> ->] := C41_values e; split; last by ring.
by rewrite mul0r sub0r normrN -natrM ger0_norm ?ler0n.
Qed.

(** * C42: the Jacobi iterations *)
(* U is rows x p, V is p x cols with p the smaller dimension, U^T U = 1, V V^T = 1 and U diag(S) V = A *)
Definition is_svd (R : rcfType) (rows cols : nat) (A : 'M[R]_(rows, cols)) (d : svd R) : Prop :=
  let p := minn rows cols in
  let U := mxof rows p (svdU d) in let V := mxof p cols (svdV d) in
  [/\ wf rows p (svdU d) /\ wf p cols (svdV d), size (svdS d) = p,
      U^T *m U = 1%:M, V *m V^T = 1%:M & U *m diag_mx (rv p (svdS d)) *m V = A].

(* every rotation of the two-sided iteration: the two elements become zero, the sum of the squares of the
   off-diagonal elements decreases by the squares of the two elements *)
Theorem C42_two_sided_rotation (R : rcfType) sg (n : nat) (tol : R) (k p q : nat) (U X V : mat R) (e : R) :
  0 <= tol -> (p < q < n)%N -> wf n n U -> wf n n X -> wf n n V ->
  exists U' X' V' e', two_sided_step sg n tol k p q (U, X, V, e) = Some (U', X', V', e') /\
  let off (M : mat R) := \sum_(i < n) \sum_(j < n) (if i == j then 0 else get M i j ^+ 2) in
  if (tol < `|get X p q|) || (tol < `|get X q p|)
  then [/\ get X' p q = 0, get X' q p = 0, 0 <= get X' p p /\ 0 <= get X' q q &
           off X' = off X - (get X p q ^+ 2 + get X q p ^+ 2)]
  else (U', X', V') = (U, X, V).
Proof.
move=> t0 pq wU wX wV; have [U' [X' [V' [e' [h1 h2]]]]] := two_sided_stepP sg tol k e pq wU wX wV.
exists U', X', V', e'; split=> //= {h1}.
case: h2 => [[[-> -> -> _] l1 l2]|[d [ed _ hr ht _]]]; first by rewrite !ltNge l1 l2.
have -> : (tol < `|get X p q|) || (tol < `|get X q p|).
  by move: ht; rewrite /std_max; case: ifP => _ ->; rewrite ?orbT.
have [z1 z2 p1 p2 ho] := rotated_off pq ed hr; split=> //.
move: ho; rewrite /off2.
have aux M : \sum_(i < n) \sum_(j < n) (if i == j then 0 else get M i j ^+ 2) =
             \sum_(i < n) \sum_(j < n) (if i == j :> nat then 0 else mxof n n M i j ^+ 2) :> R.
  by apply: eq_bigr => i _; apply: eq_bigr => j _; rewrite val_eqE mxE.
by rewrite -!aux.
Qed.
Print Assumptions C42_two_sided_rotation.

(* after any number of sweeps: U and V are orthogonal and U X V is A divided by its largest element, padded with
   zero columns; the result has orthonormal U and V, and the distance of U S V from A is that of X from being
   diagonal, so the result is a singular value decomposition when X is diagonal *)
Theorem C42_two_sided (R : rcfType) sg (emax enext tol : R) (fuel rows cols : nat) (A : mat R) :
  0 <= tol -> wf rows cols A -> (cols <= rows)%N -> mxof rows cols A != 0 ->
  let s := mat_scale_elements rows cols A in
  exists U X V, let d := two_sided_result rows cols (rowmaj A) s (U, X, V) in
  [/\ svd_two_sided sg emax enext tol fuel rows cols A = Done d \/
      svd_two_sided sg emax enext tol fuel rows cols A = Running d,
      [/\ mxof rows rows U *m (mxof rows rows U)^T = 1%:M, mxof rows rows V *m (mxof rows rows V)^T = 1%:M &
          mxof rows rows U *m mxof rows rows X *m mxof rows rows V =
            \matrix_(i, j) if (j < cols)%N then get A i j / s else 0],
      [/\ (mxof rows cols (svdU d))^T *m mxof rows cols (svdU d) = 1%:M,
          mxof cols cols (svdV d) *m (mxof cols cols (svdV d))^T = 1%:M &
          let E := mxof rows cols A - mxof rows cols (svdU d) *m diag_mx (rv cols (svdS d)) *m mxof cols cols (svdV d) in
          \sum_i \sum_j E i j ^+ 2 = s ^+ 2 * \sum_(i < rows) \sum_(j < rows) (if i == j then 0 else get X i j ^+ 2)] &
      (forall i j, (i < rows)%N -> (j < rows)%N -> i != j -> get X i j = 0) -> is_svd (mxof rows cols A) d].
Proof.
move=> t0 w cr A0 s; have [s0 hs sz] := mat_scale_elementsP w; rewrite -/s in s0 hs sz.
have nz : s != 0 by rewrite sz.
have [As eAs [wAs _ hAs]] := mat_divP w nz.
have [hi _] := two_sided_initP cr wAs hAs.
rewrite /svd_two_sided -/s eAs.
have [[[U X] V] [hj _] hd] := two_sided_jacobi_inv sg t0 fuel 0 emax enext hi.
exists U, X, V; set d := two_sided_result _ _ _ _ (U, X, V); have [[wU sS wV] oU oV ef] := two_sided_resultP (rowmaj A) cr nz hj.
have [_ hU hV hM _] := hj.
have offE : offX rows (U, X, V) = \sum_(i < rows) \sum_(j < rows) (if i == j then 0 else get X i j ^+ 2).
  by apply: eq_bigr => i _; apply: eq_bigr => j _; rewrite val_eqE mxE.
split=> //.
- by case: hd => ->; [left|right].
- by split=> //; apply: mulmx1C.
- by split=> //=; rewrite -offE -ef.
- move=> hdiag; have mn : minn rows cols = cols by apply/minn_idPr.
  rewrite /is_svd mn; split=> //; move: ef; rewrite offE big1 ?mulr0; last first.
    by move=> i _; rewrite big1 // => j _; case: eqP => // /eqP ij; rewrite hdiag // expr0n.
  move/eqP; rewrite psumr_eq0; last by move=> i _; apply: sumr_ge0 => j _; apply: sqr_ge0.
  move/allP => ef; apply/eqP; rewrite -subr_eq0 -oppr_eq0 opprB; apply/eqP/matrixP => i j; rewrite [RHS]mxE.
  have := ef i (mem_index_enum _); rewrite psumr_eq0; last by move=> j' _; apply: sqr_ge0.
  by move/allP/(_ j (mem_index_enum _)); rewrite sqrf_eq0 => /eqP.
Qed.
Print Assumptions C42_two_sided.

(* with a positive tolerance the two-sided iteration stops, whatever the bits of the zeros *)
Theorem C42_two_sided_terminates (R : rcfType) sg (emax enext tol : R) (m fuel rows cols : nat) (A : mat R) :
  0 < tol -> wf rows cols A -> (cols <= rows)%N -> mxof rows cols A != 0 ->
  (rows * cols)%:R <= m%:R * tol ^+ 2 -> (m + 2 <= fuel)%N ->
  exists d, svd_two_sided sg emax enext tol fuel rows cols A = Done d.
Proof.
move=> t0 w cr A0 hm hf; have [s0 hs sz] := mat_scale_elementsP w; set s := mat_scale_elements _ _ _ in s0 hs sz.
have nz : s != 0 by rewrite sz.
have [As eAs [wAs _ hAs]] := mat_divP w nz.
have [hi hX] := two_sided_initP cr wAs hAs.
rewrite /svd_two_sided -/s eAs.
have hb : offX rows (two_sided_init rows cols A As) <= m%:R * tol ^+ 2.
  apply: le_trans hm; apply: off2_bound => //= i j; rewrite !mxE hX //.
    case: ifP => jc; last by rewrite normr0 ler01.
    by rewrite normrM normfV [`|s|]ger0_norm // ler_pdivr_mulr ?mul1r ?hs // lt_def nz.
  by move=> jc; rewrite ltnNge jc.
have [[[U X] V] _ ->] := @two_sided_terminates R sg rows cols tol _ (ltW t0) m fuel 0 emax enext _ t0 hi hb hf.
by eexists; reflexivity.
Qed.
Print Assumptions C42_two_sided_terminates.

(* every rotation of the one-sided iteration makes the two columns orthogonal *)
Theorem C42_one_sided_rotation (R : rcfType) sg (rows cols k p q : nat) (X V : mat R) (e : R) :
  (p < q < cols)%N -> wf rows cols X -> wf cols cols V -> mxof cols cols V *m (mxof cols cols V)^T = 1%:M ->
  exists X' V' e', one_sided_step sg rows cols k p q (X, V, e) = Some (X', V', e') /\
  [/\ wf rows cols X' /\ wf cols cols V', \sum_(i < rows) get X' i p * get X' i q = 0,
      mxof cols cols V' *m (mxof cols cols V')^T = 1%:M &
      mxof rows cols X' *m mxof cols cols V' = mxof rows cols X *m mxof cols cols V].
Proof.
move=> pq wX wV oV; have hi : inv1 (mxof rows cols X *m mxof cols cols V) (X, V) by split=> //=; apply: mulmx1C.
have [X' [V' [e' [h [[/= w1 w2 o h2] [h3 _]]]]]] := one_sided_stepP sg k e pq hi.
by exists X', V', e'; split=> //; split=> //; apply: mulmx1C.
Qed.
Print Assumptions C42_one_sided_rotation.

Theorem C42_one_sided (R : rcfType) sg std_sort (tmin tmax emax enext sqrteps : R) sg0 (fuel rows cols : nat) (A : mat R) :
  (forall l : seq (R * nat), perm_eq (std_sort l) l /\ sorted (fun a b => b.1 <= a.1) (std_sort l)) ->
  0 < tmin -> tmin <= tmax -> 0 < sqrteps ->
  wf rows cols A -> (0 < cols <= rows)%N -> mxof rows cols A != 0 ->
  let s := mat_scale_elements rows cols A in
  exists X V,
  [/\ mxof cols cols V *m (mxof cols cols V)^T = 1%:M,
      s *: (mxof rows cols X *m mxof cols cols V) = mxof rows cols A &
      (forall p q, (p < cols)%N -> (q < cols)%N -> p != q -> \sum_(i < rows) get X i p * get X i q = 0) ->
      exists2 d, svd_one_sided sg std_sort tmin tmax emax enext sqrteps sg0 fuel rows cols A = Done d \/
                 svd_one_sided sg std_sort tmin tmax emax enext sqrteps sg0 fuel rows cols A = Running d &
                 is_svd (mxof rows cols A) d].
Proof.
move=> hsort t0 tm ep w cr A0 s; have [s0 hs sz] := mat_scale_elementsP w; rewrite -/s in s0 hs sz.
have nz : s != 0 by rewrite sz.
have [As eAs [wAs _ hAs]] := mat_divP w nz.
rewrite /svd_one_sided -/s eAs.
have [wC _ _ gC] := convertP false wAs; have [wI _ _ _] := identityP true (junk A) cols cols.
have hi : inv1 (s^-1 *: mxof rows cols A) (convert false rows cols As, identity true (junk A) cols cols).
  split=> //=; rewrite mxof_identity ?mulmx1 ?trmx1 //.
  by apply/matrixP => i j; rewrite !mxE gC // hAs // mulrC.
have [[X V] hj hd] := one_sided_jacobi_inv sg fuel 0 emax enext hi; exists X, V.
have [/= wX wV oV eM] := hj.
split; [exact: mulmx1C|by rewrite eM scalerA mulfV // scale1r|].
move=> og; have [d ed [[wU sS wV'] oU' oV' eA]] := one_sided_resultP hsort t0 tm ep (rowmaj A) sg0 cr nz A0 hj og.
exists d; first by case: hd => ->; rewrite ed; [left|right].
have mn : minn rows cols = cols by apply/minn_idPr; case/andP: cr.
by rewrite /is_svd mn.
Qed.
Print Assumptions C42_one_sided.

(* a wide matrix is decomposed through its transpose *)
Theorem C42_wide (R : rcfType) (alg : nat -> nat -> mat R -> outcome (svd R)) (rows cols : nat) (A : mat R) :
  wf rows cols A ->
  (forall r c B d, wf r c B -> (c <= r)%N -> alg r c B = Done d -> is_svd (mxof r c B) d) ->
  forall d, decompose_svd alg rows cols A = Done d -> is_svd (mxof rows cols A) d.
Proof.
move=> w h d; rewrite /decompose_svd; case: leqP => cr; first exact: h.
have [wF _ _ gF] := flip_layout_and_orderP w.
case e: alg => [d'|||d'] // [<-]; have [[wU wV] sS oU oV eA] := h _ _ _ _ wF (ltnW cr) e.
have mn : minn cols rows = rows by apply/minn_idPr; apply: ltnW.
have mn' : minn rows cols = rows by apply/minn_idPl; apply: ltnW.
rewrite mn in wU wV sS oU oV eA; rewrite /is_svd mn' /=.
have mV := mxof_flip wV; have mU := mxof_flip wU; have mA := mxof_flip w.
have [w1 _ _ _] := flip_layout_and_orderP wV; have [w2 _ _ _] := flip_layout_and_orderP wU.
rewrite mV mU !trmxK; split=> //.
by rewrite -[diag_mx _]tr_diag_mx -!trmx_mul mulmxA eA mA trmxK.
Qed.
Print Assumptions C42_wide.

(* the zero matrix: 0 / 0 *)
Theorem C42_zero_matrix_faults (R : rcfType) sg std_sort (tmin tmax emax enext tol sqrteps : R) sg0 (fuel rows cols : nat) (A : mat R) :
  wf rows cols A -> mxof rows cols A = 0 ->
  svd_two_sided sg emax enext tol fuel rows cols A = Fault /\
  svd_one_sided sg std_sort tmin tmax emax enext sqrteps sg0 fuel rows cols A = Fault.
Proof.
move=> w z; have [_ _ sz] := mat_scale_elementsP w.
by rewrite /svd_two_sided /svd_one_sided /mat_div sz z eqxx.
Qed.
Print Assumptions C42_zero_matrix_faults.
Example C42_zero_ex (R : rcfType) : wf 2 2 (Mat true (0 : R) [:: [:: 0; 0]; [:: 0; 0]]) /\
  mxof 2 2 (Mat true (0 : R) [:: [:: 0; 0]; [:: 0; 0]]) = 0.
Proof. by split=> //; apply/matrixP => -[[|[|i]] hi] [[|[|j]] hj] //; rewrite !mxE. Qed.
Theorem C42_refuted (R : rcfType) : exists A : mat R, wf 2 2 A /\
  forall sg std_sort (tmin tmax emax enext tol sqrteps : R) sg0 fuel,
    svd_two_sided sg emax enext tol fuel 2 2 A = Fault /\
    svd_one_sided sg std_sort tmin tmax emax enext sqrteps sg0 fuel 2 2 A = Fault.
Proof. by have [w z] := C42_zero_ex R; eexists; split; [exact: w|move=> *; apply: C42_zero_matrix_faults]. Qed.
Print Assumptions C42_refuted.

(** * C43: bounds *)
Theorem C43_in_bounds (R : rcfType) (rows cols c : nat) (d : svd R) (b : mat R) :
  size (svdS d) = minn rows cols ->
  [/\ (cols <= rows)%N -> svd_solve rows cols c d b <> OutOfBounds,
      (rows <= cols)%N -> svd_solve_follow rows cols c d b <> OutOfBounds &
      svd_inverse rows cols d <> OutOfBounds].
Proof.
move=> sS; split.
- move=> /minn_idPr h; have hle : (cols <= size (svdS d))%N by rewrite sS h.
  rewrite /svd_solve; set Y := mat_mul (minn _ _) _ _ _ _.
  by have := @div_line_in R (svdS d) (get_row c) (set_row c) cols Y hle; case: (for_loop _ _ _ _).
- move=> /minn_idPl h; have hle : (rows <= size (svdS d))%N by rewrite sS h.
  rewrite /svd_solve_follow; set Y := mat_mul c _ (minn _ _) _ _.
  by have := @div_line_in R (svdS d) (get_col c) (set_col c) rows Y hle; case: (for_loop _ _ _ _).
- rewrite /svd_inverse; have := @div_line_in R (svdS d) (get_col cols) (set_col cols) (size (svdS d)) (transpose (minn rows cols) cols (svdV d)) (leqnn _).
  by case: (for_loop _ _ _ _).
Qed.
Print Assumptions C43_in_bounds.

(* Solve for a wide matrix and column vectors, or a tall matrix and row vectors, reads S outside its bounds *)
Theorem C43_out_of_bounds (R : rcfType) (rows cols c : nat) (d : svd R) (b : mat R) :
  svd_shape rows cols d -> (0 < rows)%N -> (0 < cols)%N -> (forall i, (i < minn rows cols)%N -> nth 0 (svdS d) i != 0) ->
  ((rows < cols)%N -> wf rows c b -> svd_solve rows cols c d b = OutOfBounds) /\
  ((cols < rows)%N -> wf c cols b -> svd_solve_follow rows cols c d b = OutOfBounds).
Proof.
move=> [wU sS wV] r0 c0 hz; split=> lt wb.
- have mn : minn rows cols = rows by apply/minn_idPl; apply: ltnW.
  rewrite /svd_solve mn; rewrite mn in sS hz wU; have [wt _ _ _] := transposeP rows rows (svdU d).
  have [wX _ _] := mat_mulP wt wb r0.
  by rewrite (rows_out (S := svdS d) (m := cols) wX) ?sS.
- have mn : minn rows cols = cols by apply/minn_idPr; apply: ltnW.
  rewrite /svd_solve_follow mn; rewrite mn in sS hz wU; have [wt _ _ _] := transposeP cols cols (svdV d).
  have [wX _ _] := mat_mulP wb wt c0.
  by rewrite (cols_out (S := svdS d) (m := rows) wX) ?sS.
Qed.
Print Assumptions C43_out_of_bounds.
(* the decomposition of the 1 x 2 matrix [2 0] *)
Definition row2 (R : rcfType) : svd R := Svd (Mat true 0 [:: [:: 1]]) [:: 2%:R] (Mat true 0 [:: [:: 1; 0]]).
Example C43_ex (R : rcfType) :
  is_svd (mxof 1 2 (Mat true (0 : R) [:: [:: 2%:R; 0]])) (row2 R) /\
  svd_solve 1 2 1 (row2 R) (Mat true 0 [:: [:: 1]]) = OutOfBounds.
Proof.
split.
  split=> //; rewrite ?[minn 1 2]/(1%N).
  - by apply/matrixP => i j; rewrite !ord1 !mxE big_ord_recr big_ord0 /= !mxE add0r mulr1.
  - by apply/matrixP => i j; rewrite !ord1 !mxE !big_ord_recr big_ord0 /= !mxE /= add0r mulr1 mulr0 addr0.
  - apply/matrixP => i j; rewrite diag_mul !big_ord_recr big_ord0 /= !ord1 !mxE /= add0r mul1r.
    by case: j => [[|[|j]] hj] //; rewrite /get /= ?mulr1 ?mulr0.
have hz i : (i < minn 1 2)%N -> nth 0 (svdS (row2 R)) i != 0 by case: i => // _; rewrite /= pnatr_eq0.
have [h _] := @C43_out_of_bounds R 1 2 1 (row2 R) (Mat true 0 [:: [:: 1]]) (And3 erefl erefl erefl) isT isT hz.
by apply: h.
Qed.
Theorem C43_refuted (R : rcfType) : exists rows cols (A : 'M[R]_(rows, cols)) d b,
  [/\ is_svd A d, wf rows 1 b & svd_solve rows cols 1 d b = OutOfBounds].
Proof. by have [h1 h2] := C43_ex R; eexists 1%N, 2%N, _, _, _; split; [exact: h1| |exact: h2]. Qed.
Print Assumptions C43_refuted.

(** * C44: Solve and Inverse *)
Lemma svd_rank (R : rcfType) rows cols p (U : 'M[R]_(rows, p)) S (V : 'M_(p, cols)) :
  U^T *m U = 1%:M -> V *m V^T = 1%:M -> (forall i, (i < p)%N -> nth 0 S i != 0) ->
  \rank (U *m diag_mx (rv p S) *m V) = p.
Proof.
move=> oU oV hz; apply/eqP; rewrite eqn_leq; apply/andP; split.
  by apply: leq_trans (mxrankM_maxr _ _) _; apply: rank_leq_row.
have e : U^T *m (U *m diag_mx (rv p S) *m V) *m (V^T *m dinv p S) = 1%:M.
  rewrite !mulmxA oU mul1mx -[_ *m V *m V^T]mulmxA oV mulmx1; exact: dinvP.
rewrite -[X in (X <= _)%N](mxrank1 R p) -e; apply: leq_trans (mxrankM_maxl _ _) _; exact: mxrankM_maxr.
Qed.

Theorem C44_least_squares (R : rcfType) (rows cols c : nat) (A : 'M[R]_(rows, cols)) (d : svd R) (b : mat R) :
  is_svd A d -> (0 < cols <= rows)%N -> (forall i, (i < cols)%N -> nth 0 (svdS d) i != 0) -> wf rows c b ->
  exists2 x, svd_solve rows cols c d b = Done x & wf cols c x /\
  forall (y : 'M_(cols, c)) (j : 'I_c),
    let err z := \sum_i (A *m z - mxof rows c b) i j ^+ 2 in
    err (mxof cols c x) <= err y /\ (err y = err (mxof cols c x) -> forall i, y i j = get x i j).
Proof.
move=> [[wU wV] sS oU oV eA] cr hz wb; have mn : minn rows cols = cols by apply/minn_idPr; case/andP: cr.
have [x e [wx hx]] := svd_solveP (And3 wU sS wV) cr wb hz; exists x => //; split=> // y j /=.
rewrite mn in wU wV sS oU oV eA.
have hr : \rank A = cols by rewrite -eA; apply: svd_rank.
have hn : A^T *m (A *m mxof cols c x - mxof rows c b) = 0.
  set U := mxof rows cols (svdU d) in oU eA hx *; set V := mxof cols cols (svdV d) in oV eA hx *.
  have z : U^T *m (A *m mxof cols c x - mxof rows c b) = 0.
    rewrite mulmxBr -eA hx !mulmxA oU mul1mx -[_ *m V *m V^T]mulmxA oV mulmx1 (dinvP hz) mul1mx subrr //.
  by rewrite -{1}eA !trmx_mul -[_ *m (_ - _)]mulmxA -[_ *m (_ - _)]mulmxA z !mulmx0.
have [h1 h2] := normal_min hr hn y j; split=> // h i; by rewrite h2 // mxE.
Qed.
Print Assumptions C44_least_squares.

Theorem C44_least_squares_follow (R : rcfType) (rows cols r2 : nat) (A : 'M[R]_(rows, cols)) (d : svd R) (b : mat R) :
  is_svd A d -> (0 < rows <= cols)%N -> (forall i, (i < rows)%N -> nth 0 (svdS d) i != 0) -> wf r2 cols b ->
  exists2 x, svd_solve_follow rows cols r2 d b = Done x & wf r2 rows x /\
  forall (y : 'M_(r2, rows)) (i : 'I_r2),
    let err z := \sum_j (z *m A - mxof r2 cols b) i j ^+ 2 in
    err (mxof r2 rows x) <= err y /\ (err y = err (mxof r2 rows x) -> forall j, y i j = get x i j).
Proof.
move=> [[wU wV] sS oU oV eA] cr hz wb; have mn : minn rows cols = rows by apply/minn_idPl; case/andP: cr.
have [x e [wx hx]] := svd_solve_followP (And3 wU sS wV) cr wb hz; exists x => //; split=> // y j /=.
rewrite mn in wU wV sS oU oV eA.
have hr : \rank A^T = rows by rewrite mxrank_tr -eA; apply: svd_rank.
have hn : (A^T)^T *m (A^T *m (mxof r2 rows x)^T - (mxof r2 cols b)^T) = 0.
  have -> : A^T *m (mxof r2 rows x)^T - (mxof r2 cols b)^T = (mxof r2 rows x *m A - mxof r2 cols b)^T.
    by rewrite raddfB /= trmx_mul.
  set U := mxof rows rows (svdU d) in oU eA hx *; set V := mxof rows cols (svdV d) in oV eA hx *.
  have z : (mxof r2 rows x *m A - mxof r2 cols b) *m V^T = 0.
    rewrite mulmxBl -eA hx !mulmxA -[_ *m V *m V^T]mulmxA oV mulmx1 -[_ *m U^T *m U]mulmxA oU mulmx1.
    have := mulmx1C (dinvP hz) => dI; by rewrite -[_ *m dinv _ _ *m _]mulmxA dI mulmx1 subrr.
  have z' : V *m (mxof r2 rows x *m A - mxof r2 cols b)^T = 0 by rewrite -[V]trmxK -trmx_mul z trmx0.
  by rewrite trmxK -{1}eA -mulmxA z' mulmx0.
have [h1 h2] := normal_min hr hn y^T j.
have er z : \sum_i (A^T *m z^T - (mxof r2 cols b)^T) i j ^+ 2 = \sum_l (z *m A - mxof r2 cols b) j l ^+ 2.
  by apply: eq_bigr => l _; rewrite -trmx_mul -raddfB mxE.
rewrite !er in h1 h2; split=> // h i; have := h2 h i; by rewrite !mxE.
Qed.
Print Assumptions C44_least_squares_follow.

(* Inverse is the Moore-Penrose inverse, for every shape *)
Theorem C44_pseudoinverse (R : rcfType) (rows cols : nat) (A : 'M[R]_(rows, cols)) (d : svd R) :
  is_svd A d -> (0 < minn rows cols)%N -> (forall i, (i < minn rows cols)%N -> nth 0 (svdS d) i != 0) ->
  exists2 P, svd_inverse rows cols d = Done P & wf cols rows P /\
    let p := mxof cols rows P in
    [/\ A *m p *m A = A, p *m A *m p = p, (A *m p)^T = A *m p & (p *m A)^T = p *m A].
Proof.
move=> [[wU wV] sS oU oV eA] p0 hz.
have [x e [wx hx]] := svd_inverseP (And3 wU sS wV) p0 hz; exists x => //; split=> //=.
rewrite hx -eA; set p := minn rows cols in oU oV eA hz p0 hx *; set U := mxof rows p (svdU d) in oU *; set V := mxof p cols (svdV d) in oV *.
have dI := dinvP hz; have dI' := mulmx1C dI; set D := diag_mx _ in dI dI' *; set D' := dinv p _ in dI dI' *.
have AP : U *m D *m V *m (V^T *m D' *m U^T) = U *m U^T.
  by rewrite !mulmxA -[_ *m V *m V^T]mulmxA oV mulmx1 -[U *m D *m D']mulmxA dI mulmx1.
have PA : V^T *m D' *m U^T *m (U *m D *m V) = V^T *m V.
  by rewrite !mulmxA -[_ *m U^T *m U]mulmxA oU mulmx1 -[V^T *m D' *m D]mulmxA dI' mulmx1.
rewrite AP PA; split.
- by rewrite !mulmxA -[U *m U^T *m U]mulmxA oU mulmx1.
- by rewrite !mulmxA -[V^T *m V *m V^T]mulmxA oV mulmx1.
- by rewrite trmx_mul trmxK.
- by rewrite trmx_mul trmxK.
Qed.
Print Assumptions C44_pseudoinverse.

(* a zero singular value: division by zero *)
Theorem C44_rank_deficient (R : rcfType) (rows cols c : nat) (d : svd R) (b : mat R) i :
  svd_shape rows cols d -> (i < minn rows cols)%N -> nth 0 (svdS d) i = 0 ->
  svd_inverse rows cols d = Fault /\
  ((cols <= rows)%N -> wf rows c b -> svd_solve rows cols c d b = Fault).
Proof.
move=> [wU sS wV] hi z; have r0 : (0 < rows)%N by apply: leq_trans (geq_minl rows cols); apply: leq_ltn_trans hi.
split.
  rewrite /svd_inverse; have [wt _ _ _] := transposeP (minn rows cols) cols (svdV d).
  by rewrite (@cols_fault _ _ _ (svdS d) (size (svdS d)) _ i wt) ?sS.
move=> cr wb; have mn : minn rows cols = cols by apply/minn_idPr.
rewrite /svd_solve mn; rewrite mn in sS wU hi; have [wt _ _ _] := transposeP rows cols (svdU d).
have [wX _ _] := mat_mulP wt wb r0.
by rewrite (@rows_fault _ _ _ (svdS d) cols _ i wX) ?sS.
Qed.
Print Assumptions C44_rank_deficient.

(* the decomposition of the 2 x 1 matrix [3; 4] *)
Definition col2 (R : rcfType) : svd R := Svd (Mat true 0 [:: [:: 3%:R / 5%:R]; [:: 4%:R / 5%:R]]) [:: 5%:R] (Mat true 0 [:: [:: 1]]).
Example C44_ex (R : rcfType) :
  is_svd (mxof 2 1 (Mat true (0 : R) [:: [:: 3%:R]; [:: 4%:R]])) (col2 R) /\
  (forall i, (i < 1)%N -> nth 0 (svdS (col2 R)) i != 0) /\ wf 2 1 (Mat true (0 : R) [:: [:: 1]; [:: 2%:R]]).
Proof.
split; last by split=> //; case=> // _; rewrite /= pnatr_eq0.
split=> //; rewrite ?[minn 2 1]/(1%N).
- by apply/matrixP => i j; rewrite !ord1 !mxE !big_ord_recr big_ord0 /= !mxE /get /= add0r; field.
- by apply/matrixP => i j; rewrite !ord1 !mxE !big_ord_recr big_ord0 /= !mxE /get /= add0r mulr1.
- apply/matrixP => i j; rewrite diag_mul !big_ord_recr big_ord0 /= !ord1 !mxE /= add0r.
  by case: i => [[|[|i]] hi] //; rewrite /get /= mulr1; field.
Qed.

(* a matrix meeting the hypotheses of C42 *)
Example C42_ex (R : rcfType) : let A := Mat true (0 : R) [:: [:: 1; 2%:R]; [:: 3%:R; 4%:R]; [:: 5%:R; 6%:R]] in
  wf 3 2 A /\ mxof 3 2 A != 0.
Proof.
split=> //; apply/eqP => /matrixP /(_ 0 0); rewrite !mxE /= => /eqP; by rewrite oner_eq0.
Qed.
(* std::sort: a merge sort of the pairs *)
Example C42_sort (R : rcfType) (l : seq (R * nat)) :
  let s := sort (fun a b : R * nat => b.1 <= a.1) l in perm_eq s l /\ sorted (fun a b => b.1 <= a.1) s.
Proof.
split; first by rewrite perm_sort.
by apply: sort_sorted => a b; apply: le_total.
Qed.

(** * C77: signs and order of the singular values *)
(* the two-sided iteration returns the diagonal of a diagonal matrix as it is *)
Theorem C77_diagonal (R : rcfType) sg (emax enext tol : R) (fuel n : nat) (A : mat R) :
  0 < tol -> wf n n A -> mxof n n A != 0 ->
  (forall i j, (i < n)%N -> (j < n)%N -> i != j -> get A i j = 0) ->
  exists2 d, svd_two_sided sg emax enext tol fuel n n A = Done d \/ svd_two_sided sg emax enext tol fuel n n A = Running d &
    svdS d = mkseq (fun i => get A i i) n.
Proof.
move=> t0 w A0 hd; have [s0 hs sz] := mat_scale_elementsP w; rewrite /svd_two_sided; set s := mat_scale_elements _ _ _ in s0 hs sz *.
have nz : s != 0 by rewrite sz.
have [As -> [wAs _ hAs]] := mat_divP w nz.
have [hi hX] := two_sided_initP (leqnn n) wAs hAs.
set st := two_sided_init n n A As in hi hX *.
have off0 : offX n st = 0.
  rewrite /offX /off2 big1 // => i _; rewrite big1 // => j _; case: eqP => // /eqP ij.
  by rewrite mxE hX // ltn_ord hd // mul0r expr0n.
have stay f k prev err : jacobi (two_sided_sweep sg n tol) f k prev err st = Done st \/ jacobi (two_sided_sweep sg n tol) f k prev err st = Running st.
  elim: f k prev err => [|f IH] k prev err /=; case: ifP => _; try by [left|right].
  have [s' [e [-> [hi' hc]]]] := two_sided_sweepP sg (ltW t0) k hi.
  case: hc => [[_ [-> _]] //|[_]]; rewrite off0 => h.
  by have := lt_le_trans (ltr_paddl (off2_ge0 (mxof n n s'.1.2)) (exprn_gt0 2 t0)) h; rewrite ltxx.
have res : svdS (two_sided_result n n (rowmaj A) s st) = mkseq (fun i => get A i i) n.
  case: st hX {hi off0 stay} => [[U X] V] /= hX; apply: (@eq_from_nth _ 0); rewrite !size_map // size_iota => i hi.
  by rewrite (nth_map 0) ?size_mkseq // !nth_mkseq // hX // hi divfK.
by case: (stay fuel 0%N emax enext) => ->; eexists; [left; reflexivity|exact: res|right; reflexivity|exact: res].
Qed.
Print Assumptions C77_diagonal.

(* diag(-1, 2): a negative singular value and increasing order *)
Theorem C77_refuted (R : rcfType) sg (emax enext tol : R) (m fuel : nat) :
  0 < tol -> 4%:R <= m%:R * tol ^+ 2 -> (m + 2 <= fuel)%N ->
  exists A d, [/\ wf 2 2 A, svd_two_sided sg emax enext tol fuel 2 2 A = Done d,
    nth 0 (svdS d) 0 < 0 & nth 0 (svdS d) 0 < nth 0 (svdS d) 1].
Proof.
move=> t0 hm hf; pose A := Mat true (0 : R) [:: [:: -1; 0]; [:: 0; 2%:R]].
have wA : wf 2 2 A by [].
have A0 : mxof 2 2 A != 0 by apply/eqP => /matrixP /(_ 0 0); rewrite !mxE /= => /eqP; rewrite oppr_eq0 oner_eq0.
have hd i j : (i < 2)%N -> (j < 2)%N -> i != j -> get A i j = 0 by case: i j => [|[|i]] [|[|j]].
have [d0 e0] := @C42_two_sided_terminates R sg emax enext tol m fuel 2 2 A t0 wA (leqnn 2) A0 hm hf.
have [d h hS] := C77_diagonal sg emax enext fuel t0 wA A0 hd.
have ed : d = d0 by case: h; rewrite e0 => -[].
exists A, d0; rewrite -ed hS; split=> //; first by rewrite e0 ed.
  by rewrite /= ltrN10.
by rewrite /= (lt_trans (y := 0)) ?ltrN10 // ltr0n.
Qed.
Print Assumptions C77_refuted.

(* the one-sided iteration returns decreasing magnitudes, whatever state it stopped in *)
Theorem C77_one_sided_sorted (R : rcfType) std_sort (tmin tmax sqrteps s : R) sg0 rm (rows cols : nat) st d :
  (forall l : seq (R * nat), perm_eq (std_sort l) l /\ sorted (fun a b => b.1 <= a.1) (std_sort l)) ->
  one_sided_result std_sort tmin tmax rows cols rm sg0 sqrteps s st = Some d ->
  forall i j, (i <= j < cols)%N -> `|nth 0 (svdS d) j| <= `|nth 0 (svdS d) i|.
Proof.
case: st => X V hsort; rewrite /one_sided_result.
have [sl pi me inj mono] := @std_sort_idx R std_sort hsort rows cols (fun i => vlength (get_col rows X i)).
set l := std_sort _ in sl pi me inj mono *; set S := [seq x.1 | x <- l].
have sS : size S = cols by rewrite size_map.
have hS i j : (i <= j < cols)%N -> `|nth 0 S j| <= `|nth 0 S i|.
  move=> /andP [ij jc]; have ic := leq_ltn_trans ij jc; rewrite !(nth_map (0, 0%N)) ?sl // (me i ic).2 (me j jc).2.
  rewrite !ger0_norm ?length_ge0 //; apply: mono; by rewrite ij.
case: ifP => _ h i j ijc; last first.
  case: h => <- /=; have /andP [ij jc] := ijc; have ic := leq_ltn_trans ij jc.
  by rewrite !(nth_map 0) ?sS // !normrM ler_wpmul2r ?hS.
move: h; case: decompose_qr => [[Q Rm]|] //= [<-] /=; have /andP [ij jc] := ijc; have ic := leq_ltn_trans ij jc.
rewrite !(nth_map 0) ?size_mkseq // !normrM ler_wpmul2r // !nth_mkseq // /copysign.
by case: ifP => _; case: ifP => _; rewrite ?normrN !normr_id hS.
Qed.
Print Assumptions C77_one_sided_sorted.
