(* Model of Decompositions/DecomposeSVD.hpp for complex element types: std::complex<Real> is R[i] over the ordered
   field R. As in M_SVD.v the sign bit of a zero is arbitrary ([neg0], the oracle [sg]) and None / Fault is a
   division by zero whose result is used. *)
From mathcomp Require Import all_ssreflect all_algebra.
From mathcomp Require Import complex.
From Verif Require Import M_Vec M_Mat M_LU M_Complex M_QRC M_SVD.
Set Implicit Arguments. Unset Strict Implicit. Unset Printing Implicit Defensive.
Import GRing.Theory Num.Theory.
Local Open Scope complex_scope.
Local Open Scope ring_scope.

Section SVD.
Variable R : rcfType.
Local Notation C := R[i].
Implicit Types (A U V X b : mat C).

(* std::norm *)
Definition cnorm1 (z : C) : R := complex.Re z ^+ 2 + complex.Im z ^+ 2.
(* complex / real and complex / complex *)
Definition cdivr (z : C) (s : R) : option C := if s == 0 then None else Some (z / s%:C).
Definition cdivc (z w : C) : option C := if w == 0 then None else Some (z / w).
(* Common/MathUtil.hpp:31-39 Normalize(std::complex): for zero the prescaler is infinite, the product is NaN *)
Definition cnormalize1 (z : C) : C :=
  let m := std_max `|complex.Re z| `|complex.Im z| in
  if m == 0 then 1
  else let zp := z * (m^-1)%:C in zp / (Num.sqrt (cnorm1 zp))%:C.

(** ** Solve and Inverse *)
Record svdc := Svdc { cU : mat C; cS : seq R; cV : mat C }.

(* X.Row(row, X.Row(row) / S(row)) *)
Definition div_line_c (S : seq R) (get : mat C -> nat -> seq C) (put : mat C -> nat -> seq C -> mat C)
    (i : nat) (st : outcome (mat C)) : outcome (mat C) :=
  if st is Done X then
    if (i < size S)%N then
      if cdivs (get X i) (nth 0 S i) is Some v then Done (put X i v) else Fault
    else OutOfBounds
  else st.
(* DecomposeSVD.hpp:58-77 Solve(Matrix), PRECEDE_VECTOR: b is rows x c *)
Definition svd_solve_c (rows cols c : nat) (d : svdc) b : outcome (mat C) :=
  let p := minn rows cols in
  let X := mat_mul p rows c (conj_transpose rows p (cU d)) b in
  match for_loop 0 cols (div_line_c (cS d) (get_row c) (set_row c)) (Done X) with
  | Done X => Done (mat_mul cols p c (conj_transpose p cols (cV d)) X)
  | r => r
  end.
(* the FOLLOW_VECTOR branch: b is r2 x cols *)
Definition svd_solve_follow_c (rows cols r2 : nat) (d : svdc) b : outcome (mat C) :=
  let p := minn rows cols in
  let X := mat_mul r2 cols p b (conj_transpose p cols (cV d)) in
  match for_loop 0 rows (div_line_c (cS d) (get_col r2) (set_col r2)) (Done X) with
  | Done X => Done (mat_mul r2 p rows X (conj_transpose rows p (cU d)))
  | r => r
  end.
(* DecomposeSVD.hpp:92-100 Inverse *)
Definition svd_inverse_c (rows cols : nat) (d : svdc) : outcome (mat C) :=
  let p := minn rows cols in
  match for_loop 0 (size (cS d)) (div_line_c (cS d) (get_col cols) (set_col cols))
          (Done (conj_transpose p cols (cV d))) with
  | Done Xi => Done (mat_mul cols p rows Xi (conj_transpose rows p (cU d)))
  | r => r
  end.

(** ** 2x2 *)
(* DecomposeSVD.hpp:105-122 impl::ScaleElements of one and of two numbers *)
Definition cscal1 (z : C) : R := std_max `|complex.Re z| `|complex.Im z|.
Definition cscal2 (z w : C) : R :=
  std_max (std_max `|complex.Re z| `|complex.Re w|) (std_max `|complex.Im z| `|complex.Im w|).

(* DecomposeSVD.hpp:160-178 MinimizeDiagonalizingRotation *)
Definition minimize_rotation_c (cv sv : C) : option (C * C) :=
  let: (cv, sv, cvMag) :=
    if cabs cv < cabs sv then (- conjc sv, conjc cv, cabs sv) else (cv, sv, cabs cv) in
  let* cq := cdivr cv cvMag in
  let q := conjc cq in
  Some (q * cv, q * sv).

(* DecomposeSVD.hpp:186-208 DiagonalizeHermitian2x2 *)
Definition diagonalize_hermitian_c (neg0 : bool) (a11 : R) (aoff : C) (a22 : R) : option (C * C) :=
  if aoff == 0 then Some (1, 0)
  else
    let z := a22 - a11 in
    let d := Num.sqrt (z ^+ 2 + (2%:R * complex.Re aoff) ^+ 2 + (2%:R * complex.Im aoff) ^+ 2) in
    let Lma11 := 2%:R^-1 * (z + copysign neg0 d z) in
    let* cv := cdivr aoff Lma11 in
    let scale := Num.sqrt (cnorm1 cv + cnorm1 1) in
    let* c := cdivr cv scale in
    let* s := cdivr 1 scale in
    Some (c, s).

(* DecomposeSVD.hpp:216-233 DiagonalizeTriangular2x2: u is not finite iff its divisor is zero *)
Definition diagonalize_triangular_c (neg0 : bool) (r11 r12 r22 : C) : option (C * C) :=
  let zr := (complex.Re r22 + complex.Re r11) * (complex.Re r22 - complex.Re r11) in
  let zi := (complex.Im r22 + complex.Im r11) * (complex.Im r22 - complex.Im r11) in
  let z := zr + zi + cnorm1 r12 in
  let d := Num.sqrt (4%:R * cnorm1 r11 * cnorm1 r12 + z * z) in
  match cdivc (2%:R^-1 * (z + copysign neg0 d z))%:C (r12 * conjc r11) with
  | Some u =>
      let scale := Num.sqrt (1 ^+ 2 + complex.Re u ^+ 2 + complex.Im u ^+ 2) in
      let* c := sdiv 1 scale in
      let* s := cdivr u scale in
      Some (c%:C, s)
  | None => Some (1, 0)
  end.

(* DecomposeSVD.hpp:237-267 DecomposeRQ2x2 of the matrix a11 a12 a21 a22; result r11, r12, r22, cq, sq *)
Definition rq2x2_c (a11 a12 a21 a22 : C) : option (C * C * C * C * C) :=
  if a21 == 0 then Some (a11, a12, a22, 1, 0)
  else
    let scaleA21 := cscal1 a21 in
    let scaleA22 := cscal1 a22 in
    let scaleDiv := std_max `|scaleA21| `|scaleA22| in
    let* a21s := cdivr a21 scaleDiv in
    let* a22s := cdivr a22 scaleDiv in
    let divisor := Num.sqrt (cnorm1 a21s + cnorm1 a22s) in
    let* ccq := cdivr a22s divisor in
    let cq := conjc ccq in
    let* sq := cdivr a21s divisor in
    let r11 := a11 * conjc cq - a12 * sq in
    let r12 := a11 * conjc sq + a12 * cq in
    let* r := if scaleA22 < scaleA21 then cdivc a21s sq else cdivc a22s (conjc cq) in
    Some (r11, r12, scaleDiv%:C * r, cq, sq).

(* DecomposeSVD.hpp:271-301 DecomposeScaledOrthogonal2x2; [mu] lists the columns of US. A lane of
   cuSuBase whose divisor is zero is None (NaN). Result cu, su, sign, s00, s11. *)
Definition scaled_orthogonal_c (mu : seq C) : option (C * C * C * R * R) :=
  let smu := vmax2 (vabs (vreal mu)) (vabs (vimag mu)) in
  let maxIdx := max_element 0 smu in
  let normMu := vadd (vmul (vreal mu) (vreal mu)) (vmul (vimag mu) (vimag mu)) in
  let sii := [seq Num.sqrt x | x <- vadd (swz normMu [:: 0; 0; 2; 2]%N) (swz normMu [:: 1; 1; 3; 3]%N)] in
  let cuSuBase := [seq cdivr (nth 0 mu i) (nth 0 sii i) | i <- iota 0 4] in
  (* (maxIdx & 2) ^ (maxIdx >> 1), (maxIdx | 1) ^ (maxIdx >> 1), maxIdx ^ 3 for maxIdx < 4 *)
  let cuIdx := nth 0%N [:: 0; 0; 3; 3]%N maxIdx in
  let suIdx := nth 0%N [:: 1; 1; 2; 2]%N maxIdx in
  let signNumIdx := nth 0%N [:: 3; 2; 1; 0]%N maxIdx in
  let negSign := (maxIdx == 1%N) || (maxIdx == 2%N) in
  let* signBase := cdivc (nth 0 mu signNumIdx) (conjc (nth 0 mu maxIdx)) in
  let sign := cnormalize1 (if negSign then - signBase else signBase) in
  let* cb := nth None cuSuBase cuIdx in
  let* sb := nth None cuSuBase suIdx in
  let cu := if (maxIdx <= 1)%N then cb else conjc cb * sign in
  let su := if (maxIdx <= 1)%N then sb else - conjc sb * sign in
  Some (cu, su, sign, nth 0 sii 0, nth 0 sii 2).

(* DecomposeSVD.hpp:307-340 DecomposeSVD2x2 of the matrix a11 a12 a21 a22. The matrix operations A / scale
   and As * V on 2x2 matrices are written out. Result cu, su, s11, s22, cv, sv, det. *)
Record svd22c := Svd22c { ccu : C; csu : C; cs11 : R; cs22 : R; ccv : C; csv : C; cdt : C }.
Definition svd2x2_c (neg0 : bool) (a11 a12 a21 a22 : C) : option svd22c :=
  let scale := cmat_scale_elements 2 2 (Mat true a11 [:: [:: a11; a12]; [:: a21; a22]]) in
  if scale == 0 then Some (Svd22c 1 0 0 0 1 0 1)
  else
    let b11 := a11 / scale%:C in let b12 := a12 / scale%:C in
    let b21 := a21 / scale%:C in let b22 := a22 / scale%:C in
    let* (r11, r12, r22, cq, sq) := rq2x2_c b11 b12 b21 b22 in
    let* (cv1, sv1) := diagonalize_triangular_c neg0 r11 r12 r22 in
    let* (cv, sv) := minimize_rotation_c (conjc cq * cv1 + conjc sq * sv1) (- sq * cv1 + cq * sv1) in
    let* (cu, su, sign, s11, s22) := scaled_orthogonal_c
      [:: b11 * cv + b12 * sv; b21 * cv + b22 * sv;
          b11 * - conjc sv + b12 * conjc cv; b21 * - conjc sv + b22 * conjc cv] in
    Some (Svd22c cu su (scale * s11) (scale * s22) (conjc cv) (- sv) sign).

(** ** Jacobi iterations *)
(* DecomposeSVD.hpp:343-349 GivensRotateRight, 352-358 GivensRotateLeft *)
Definition givens_right_c (r : nat) X (p q : nat) (cv sv det : C) : mat C :=
  let colP := vadd (vscale (get_col r X p) cv) (vscale (get_col r X q) sv) in
  let colQ := vscalel det (vsub (vscale (get_col r X q) (conjc cv)) (vscale (get_col r X p) (conjc sv))) in
  set_col r (set_col r X p colP) q colQ.
Definition givens_left_c (c : nat) X (p q : nat) (cv sv det : C) : mat C :=
  let rowP := vsub (vscale (get_row c X p) cv) (vscale (vscalel det (get_row c X q)) (conjc sv)) in
  let rowQ := vadd (vscale (vscalel det (get_row c X q)) (conjc cv)) (vscale (get_row c X p) sv) in
  set_row c (set_row c X p rowP) q rowQ.

(* oracle: sign bit used in sweep k for the pair p, q *)
Variable sg : nat -> nat -> nat -> bool.

(* DecomposeSVD.hpp:390-404 the body of the double loop; state (U, X, V), maxError *)
Definition two_sided_step_c (n : nat) (tol : R) (k p q : nat) (st : (mat C * mat C * mat C) * R) :=
  let: (U, X, V, maxError) := st in
  let xpp := get X p p in let xpq := get X p q in let xqp := get X q p in let xqq := get X q q in
  let error := cscal2 xpq xqp in
  if tol < error then
    let maxError := std_max maxError error in
    let* d := svd2x2_c (sg k p q) xpp xpq xqp xqq in
    let U := givens_right_c n U p q (ccu d) (csu d) (cdt d) in
    let X := givens_left_c n X p q (conjc (ccu d)) (- conjc (cdt d) * csu d) (conjc (cdt d)) in
    let X := givens_right_c n X p q (conjc (ccv d)) (- csv d) 1 in
    let V := givens_left_c n V p q (ccv d) (csv d) 1 in
    Some (U, X, V, maxError)
  else Some (U, X, V, maxError).
Definition two_sided_sweep_c (n : nat) (tol : R) (k : nat) (st : mat C * mat C * mat C) :=
  pairs_loop n (two_sided_step_c n tol k) (st, 0).
(* DecomposeSVD.hpp:373-383; [scaler] nonzero *)
Definition two_sided_init_c (rows cols : nat) A (As : mat C) : mat C * mat C * mat C :=
  let X := insert rows cols 0 0 As (uninit (rowmaj A) (junk A) rows rows) in
  let X := for_loop cols rows (fun col X => for_loop 0 rows (fun row X => set X row col 0) X) X in
  (identity false (junk A) rows rows, X, identity true (junk A) rows rows).
(* DecomposeSVD.hpp:406-415 *)
Definition two_sided_result_c (rows cols : nat) (rm : bool) (scaler : R) (st : mat C * mat C * mat C) : svdc :=
  let: (U, X, V) := st in
  Svdc (convert rm rows cols (extract rows cols 0 0 U))
       (vscale (mkseq (fun i => complex.Re (get X i i)) cols) scaler)
       (convert rm cols cols (extract cols cols 0 0 V)).
(* DecomposeSVD.hpp:361-416; [emax], [enext]: numeric_limits::max() and the number before it *)
Definition svd_two_sided_c (emax enext tol : R) (fuel rows cols : nat) A : outcome svdc :=
  let scaler := cmat_scale_elements rows cols A in
  if mat_div rows cols A scaler%:C is Some As then
    match jacobi (two_sided_sweep_c rows tol) fuel 0 emax enext (two_sided_init_c rows cols A As) with
    | Done st => Done (two_sided_result_c rows cols (rowmaj A) scaler st)
    | Running st => Running (two_sided_result_c rows cols (rowmaj A) scaler st)
    | Fault => Fault
    | OutOfBounds => OutOfBounds
    end
  else Fault.

(* DecomposeSVD.hpp:419-425 TransposeMultiplyPartial *)
Definition tmp_c (r : nat) X (p q : nat) : R * C * R :=
  (complex.Re (vsum (vmul (vconj (get_col r X p)) (get_col r X p))),
   vsum (vmul (vconj (get_col r X p)) (get_col r X q)),
   complex.Re (vsum (vmul (vconj (get_col r X q)) (get_col r X q)))).
(* DecomposeSVD.hpp:449-462 *)
Definition one_sided_step_c (rows cols : nat) (k p q : nat) (st : (mat C * mat C) * R) :=
  let: (X, V, maxError) := st in
  let: (ata11, ataoff, ata22) := tmp_c rows X p q in
  let error := cabs ataoff in
  if error != 0 then
    let maxError := std_max maxError error in
    let* (cv0, sv0) := diagonalize_hermitian_c (sg k p q) ata11 ataoff ata22 in
    let* (cv, sv) := minimize_rotation_c cv0 sv0 in
    Some (givens_right_c rows X p q cv sv 1, givens_left_c cols V p q cv (- sv) 1, maxError)
  else Some (X, V, maxError).
Definition one_sided_sweep_c (rows cols : nat) (k : nat) (st : mat C * mat C) :=
  pairs_loop cols (one_sided_step_c rows cols k) (st, 0).

(* std::sort with the comparison lhs.first > rhs.first: some sorted permutation of its input *)
Variable std_sort : seq (R * nat) -> seq (R * nat).
Variables tmin tmax : R.
(* DecomposeSVD.hpp:464-512; [sqrteps] is sqrt(epsilon); [sg0] the sign bits of zeros on the diagonal of R *)
Definition one_sided_result_c (rows cols : nat) (rm : bool) (sg0 : nat -> bool) (sqrteps scaler : R) (st : mat C * mat C)
    : option svdc :=
  let: (X, V) := st in
  let sortedS := std_sort (mkseq (fun i => (clength (get_col rows X i), i)) cols) in
  let S := [seq x.1 | x <- sortedS] in
  let from i := (nth (0, 0%N) sortedS i).2 in
  let X1 := for_loop 0 cols (fun i sX => set_col rows sX i (get_col rows X (from i))) (uninit false (junk X) rows cols) in
  let V1 := for_loop 0 cols (fun i sV => set_row cols sV i (get_row cols V (from i))) (uninit true (junk V) cols cols) in
  let threshold := nth 0 S 0 * sqrteps in
  let X2 := for_loop 0 cols (fun i X =>
      let scale := nth 0 S i in
      if scale != 0 then set_col rows X i [seq x / scale%:C | x <- get_col rows X i] else X) X1 in
  let over := count (fun s => threshold <= s) S in
  if over != cols then
    let* (Q, Rm) := decompose_qr_c tmin tmax rows cols X2 in
    let S' := mkseq (fun i => copysign (sg0 i) (nth 0 S i) (complex.Re (get Rm i i))) cols in
    Some (Svdc (convert rm rows cols Q) (vscale S' scaler) (convert rm cols cols V1))
  else Some (Svdc (convert rm rows cols X2) (vscale S scaler) (convert rm cols cols V1)).
(* DecomposeSVD.hpp:428-513 *)
Definition svd_one_sided_c (emax enext sqrteps : R) (sg0 : nat -> bool) (fuel rows cols : nat) A : outcome svdc :=
  let scaler := cmat_scale_elements rows cols A in
  if mat_div rows cols A scaler%:C is Some As then
    match jacobi (one_sided_sweep_c rows cols) fuel 0 emax enext
            (convert false rows cols As, identity true (junk A) cols cols) with
    | Done st => if one_sided_result_c rows cols (rowmaj A) sg0 sqrteps scaler st is Some d then Done d else Fault
    | Running st => if one_sided_result_c rows cols (rowmaj A) sg0 sqrteps scaler st is Some d then Running d else Fault
    | Fault => Fault
    | OutOfBounds => OutOfBounds
    end
  else Fault.

(* DecomposeSVD.hpp:531-546 DecomposeSVD; [alg rows cols A] is one of the two algorithms above *)
Definition decompose_svd_c (alg : nat -> nat -> mat C -> outcome svdc) (rows cols : nat) A : outcome svdc :=
  if (cols <= rows)%N then alg rows cols A
  else
    let flip d := Svdc (flip_layout_and_order (minn rows cols) rows (cV d)) (cS d)
                       (flip_layout_and_order cols (minn rows cols) (cU d)) in
    match alg cols rows (flip_layout_and_order rows cols A) with
    | Done d => Done (flip d)
    | Running d => Running (flip d)
    | r => r
    end.
End SVD.
