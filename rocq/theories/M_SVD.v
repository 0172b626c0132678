(* Model of Decompositions/DecomposeSVD.hpp for real element types (conj is the identity, the imaginary
   part is zero, ConjTranspose is Transpose).
   The sign bit of a floating-point zero is not determined by its value: std::copysign takes it from an
   arbitrary bit [neg0]; the loops take these bits from an arbitrary oracle.
   None / Fault: a division by zero whose result is used. *)
From mathcomp Require Import all_ssreflect all_algebra.
From Verif Require Import M_Vec M_Mat M_LU M_QR.
Set Implicit Arguments. Unset Strict Implicit. Unset Printing Implicit Defensive.
Import GRing.Theory Num.Theory.
Local Open Scope ring_scope.

Notation "'let*' x := e 'in' f" := (obind (fun x => f) e) (at level 200, x pattern, right associativity).

Section SVD.
Variable R : rcfType.
Implicit Types (A U V X b : mat R).

(* std::copysign *)
Definition copysign (neg0 : bool) (x y : R) : R :=
  if (y < 0) || (y == 0) && neg0 then - `|x| else `|x|.

(** ** Solve and Inverse *)
Record svd := Svd { svdU : mat R; svdS : seq R; svdV : mat R }.
Inductive outcome (T : Type) := Done of T | Fault | OutOfBounds | Running of T.

(* X.Row(row, X.Row(row) / S(row)); reading S outside its Dimension elements is OutOfBounds *)
Definition div_line (S : seq R) (get : mat R -> nat -> seq R) (put : mat R -> nat -> seq R -> mat R)
    (i : nat) (st : outcome (mat R)) : outcome (mat R) :=
  if st is Done X then
    if (i < size S)%N then
      if vdivs (get X i) (nth 0 S i) is Some v then Done (put X i v) else Fault _
    else OutOfBounds _
  else st.
(* DecomposeSVD.hpp:58-77 Solve(Matrix), PRECEDE_VECTOR: b is rows x c *)
Definition svd_solve (rows cols c : nat) (d : svd) b : outcome (mat R) :=
  let p := minn rows cols in
  let X := mat_mul p rows c (transpose rows p (svdU d)) b in
  match for_loop 0 cols (div_line (svdS d) (get_row c) (set_row c)) (Done X) with
  | Done X => Done (mat_mul cols p c (transpose p cols (svdV d)) X)
  | r => r
  end.
(* the FOLLOW_VECTOR branch: b is r2 x cols *)
Definition svd_solve_follow (rows cols r2 : nat) (d : svd) b : outcome (mat R) :=
  let p := minn rows cols in
  let X := mat_mul r2 cols p b (transpose p cols (svdV d)) in
  match for_loop 0 rows (div_line (svdS d) (get_col r2) (set_col r2)) (Done X) with
  | Done X => Done (mat_mul r2 p rows X (transpose rows p (svdU d)))
  | r => r
  end.
(* DecomposeSVD.hpp:92-100 Inverse *)
Definition svd_inverse (rows cols : nat) (d : svd) : outcome (mat R) :=
  let p := minn rows cols in
  match for_loop 0 (size (svdS d)) (div_line (svdS d) (get_col cols) (set_col cols))
          (Done (transpose p cols (svdV d))) with
  | Done Xi => Done (mat_mul cols p rows Xi (transpose rows p (svdU d)))
  | r => r
  end.

(** ** 2x2 *)
(* DecomposeSVD.hpp:160-178 MinimizeDiagonalizingRotation *)
Definition minimize_rotation (cv sv : R) : option (R * R) :=
  let: (cv, sv, cvMag) := if `|cv| < `|sv| then (- sv, cv, `|sv|) else (cv, sv, `|cv|) in
  let* q := sdiv cv cvMag in
  Some (q * cv, q * sv).

(* DecomposeSVD.hpp:186-208 DiagonalizeHermitian2x2 *)
Definition diagonalize_hermitian (neg0 : bool) (a11 aoff a22 : R) : option (R * R) :=
  if aoff == 0 then Some (1, 0)
  else
    let z := a22 - a11 in
    let d := Num.sqrt (z ^+ 2 + (2%:R * aoff) ^+ 2) in
    let Lma11 := 2%:R^-1 * (z + copysign neg0 d z) in
    let* cv := sdiv aoff Lma11 in
    let scale := Num.sqrt (cv ^+ 2 + 1 ^+ 2) in
    let* c := sdiv cv scale in
    let* s := sdiv 1 scale in
    Some (c, s).

(* DecomposeSVD.hpp:216-233 DiagonalizeTriangular2x2: u is not finite iff its divisor is zero *)
Definition diagonalize_triangular (neg0 : bool) (r11 r12 r22 : R) : option (R * R) :=
  let z := (r22 + r11) * (r22 - r11) + r12 ^+ 2 in
  let d := Num.sqrt (4%:R * r11 ^+ 2 * r12 ^+ 2 + z * z) in
  match sdiv (2%:R^-1 * (z + copysign neg0 d z)) (r12 * r11) with
  | Some u =>
      let scale := Num.sqrt (1 ^+ 2 + u ^+ 2) in
      let* c := sdiv 1 scale in
      let* s := sdiv u scale in
      Some (c, s)
  | None => Some (1, 0)
  end.

(* DecomposeSVD.hpp:237-267 DecomposeRQ2x2 of the matrix a11 a12 a21 a22; result r11, r12, r22, cq, sq *)
Definition rq2x2 (a11 a12 a21 a22 : R) : option (R * R * R * R * R) :=
  if a21 == 0 then Some (a11, a12, a22, 1, 0)
  else
    let scaleA21 := `|a21| in
    let scaleA22 := `|a22| in
    let scaleDiv := std_max `|scaleA21| `|scaleA22| in
    let* a21s := sdiv a21 scaleDiv in
    let* a22s := sdiv a22 scaleDiv in
    let divisor := Num.sqrt (a21s ^+ 2 + a22s ^+ 2) in
    let* cq := sdiv a22s divisor in
    let* sq := sdiv a21s divisor in
    let r11 := a11 * cq - a12 * sq in
    let r12 := a11 * sq + a12 * cq in
    let* r := if scaleA22 < scaleA21 then sdiv a21s sq else sdiv a22s cq in
    Some (r11, r12, scaleDiv * r, cq, sq).

(* DecomposeSVD.hpp:271-301 DecomposeScaledOrthogonal2x2; [mu] lists the columns of US. A lane of
   cuSuBase whose divisor is zero is None (NaN). Result cu, su, sign, s00, s11. *)
Definition scaled_orthogonal (neg0 : bool) (mu : seq R) : option (R * R * R * R * R) :=
  let smu := [seq `|x| | x <- mu] in
  let maxIdx := max_element 0 smu in
  let normMu := [seq x * x | x <- mu] in
  let sii := [seq Num.sqrt x | x <- vadd (swz normMu [:: 0; 0; 2; 2]%N) (swz normMu [:: 1; 1; 3; 3]%N)] in
  let cuSuBase := [seq sdiv (nth 0 mu i) (nth 0 sii i) | i <- iota 0 4] in
  (* (maxIdx & 2) ^ (maxIdx >> 1), (maxIdx | 1) ^ (maxIdx >> 1), maxIdx ^ 3 for maxIdx < 4 *)
  let cuIdx := nth 0%N [:: 0; 0; 3; 3]%N maxIdx in
  let suIdx := nth 0%N [:: 1; 1; 2; 2]%N maxIdx in
  let signNumIdx := nth 0%N [:: 3; 2; 1; 0]%N maxIdx in
  let negSign := (maxIdx == 1%N) || (maxIdx == 2%N) in
  let* signBase := sdiv (nth 0 mu signNumIdx) (nth 0 mu maxIdx) in
  let sign := copysign neg0 1 (if negSign then - signBase else signBase) in
  let* cb := nth None cuSuBase cuIdx in
  let* sb := nth None cuSuBase suIdx in
  let cu := if (maxIdx <= 1)%N then cb else cb * sign in
  let su := if (maxIdx <= 1)%N then sb else - sb * sign in
  Some (cu, su, sign, nth 0 sii 0, nth 0 sii 2).

(* DecomposeSVD.hpp:307-340 DecomposeSVD2x2 of the matrix a11 a12 a21 a22. The matrix operations A / scale
   and As * V on 2x2 matrices are written out. Result cu, su, s11, s22, cv, sv, det. *)
Record svd22 := Svd22 { cu : R; su : R; s11 : R; s22 : R; cv : R; sv : R; dt : R }.
Definition svd2x2 (neg0 neg1 : bool) (a11 a12 a21 a22 : R) : option svd22 :=
  let scale := std_max (std_max (std_max (std_max 0 `|a11|) `|a12|) `|a21|) `|a22| in
  if scale == 0 then Some (Svd22 1 0 0 0 1 0 1)
  else
    let b11 := a11 / scale in let b12 := a12 / scale in
    let b21 := a21 / scale in let b22 := a22 / scale in
    let* (r11, r12, r22, cq, sq) := rq2x2 b11 b12 b21 b22 in
    let* (cv1, sv1) := diagonalize_triangular neg0 r11 r12 r22 in
    let* (cv, sv) := minimize_rotation (cq * cv1 + sq * sv1) (- sq * cv1 + cq * sv1) in
    let* (cu, su, sign, s11, s22) := scaled_orthogonal neg1
      [:: b11 * cv + b12 * sv; b21 * cv + b22 * sv; b11 * - sv + b12 * cv; b21 * - sv + b22 * cv] in
    Some (Svd22 cu su (scale * s11) (scale * s22) cv (- sv) sign).

(** ** Jacobi iterations *)
(* DecomposeSVD.hpp:343-349 GivensRotateRight, 352-358 GivensRotateLeft *)
Definition givens_right (r : nat) X (p q : nat) (cv sv det : R) : mat R :=
  let colP := vadd (vscale (get_col r X p) cv) (vscale (get_col r X q) sv) in
  let colQ := vscalel det (vsub (vscale (get_col r X q) cv) (vscale (get_col r X p) sv)) in
  set_col r (set_col r X p colP) q colQ.
Definition givens_left (c : nat) X (p q : nat) (cv sv det : R) : mat R :=
  let rowP := vsub (vscale (get_row c X p) cv) (vscale (vscalel det (get_row c X q)) sv) in
  let rowQ := vadd (vscale (vscalel det (get_row c X q)) cv) (vscale (get_row c X p) sv) in
  set_row c (set_row c X p rowP) q rowQ.

(* while (maxError < maxErrorPrev) { maxErrorPrev = maxError; maxError = 0; sweep }. [fuel] bounds the number
   of sweeps that are observed: Running is the state after that many sweeps. *)
Fixpoint jacobi (S : Type) (sweep : nat -> S -> option (S * R)) (fuel : nat) (k : nat) (prev err : R) (s : S) : outcome S :=
  if err < prev then
    match fuel with
    | 0%N => Running s
    | fuel'.+1 => if sweep k s is Some (s', err') then jacobi sweep fuel' k.+1 err err' s' else Fault _
    end
  else Done s.

(* oracle: sign bits used in sweep k for the pair p, q *)
Variable sg : nat -> nat -> nat -> bool * bool.

(* DecomposeSVD.hpp:390-404 the body of the double loop; state (U, X, V), maxError *)
Definition two_sided_step (n : nat) (tol : R) (k p q : nat) (st : (mat R * mat R * mat R) * R) :=
  let: (U, X, V, maxError) := st in
  let xpp := get X p p in let xpq := get X p q in let xqp := get X q p in let xqq := get X q q in
  let error := std_max `|xpq| `|xqp| in
  if tol < error then
    let maxError := std_max maxError error in
    let* d := svd2x2 (sg k p q).1 (sg k p q).2 xpp xpq xqp xqq in
    let U := givens_right n U p q (cu d) (su d) (dt d) in
    let X := givens_left n X p q (cu d) (- dt d * su d) (dt d) in
    let X := givens_right n X p q (cv d) (- sv d) 1 in
    let V := givens_left n V p q (cv d) (sv d) 1 in
    Some (U, X, V, maxError)
  else Some (U, X, V, maxError).
(* for (p = 0; p < n; ++p) for (q = p + 1; q < n; ++q) *)
Definition pairs_loop (S : Type) (n : nat) (body : nat -> nat -> S -> option S) (s : S) : option S :=
  for_opt (iota 0 n) (fun p s => for_opt (iota p.+1 (n - p.+1)) (body p) s) s.
Definition two_sided_sweep (n : nat) (tol : R) (k : nat) (st : mat R * mat R * mat R) :=
  pairs_loop n (two_sided_step n tol k) (st, 0).
(* DecomposeSVD.hpp:373-383; [scaler] nonzero *)
Definition two_sided_init (rows cols : nat) A (As : mat R) : mat R * mat R * mat R :=
  let X := insert rows cols 0 0 As (uninit (rowmaj A) (junk A) rows rows) in
  let X := for_loop cols rows (fun col X => for_loop 0 rows (fun row X => set X row col 0) X) X in
  (identity false (junk A) rows rows, X, identity true (junk A) rows rows).
(* DecomposeSVD.hpp:406-415 *)
Definition two_sided_result (rows cols : nat) (rm : bool) (scaler : R) (st : mat R * mat R * mat R) : svd :=
  let: (U, X, V) := st in
  Svd (convert rm rows cols (extract rows cols 0 0 U))
      (vscale (mkseq (fun i => get X i i) cols) scaler)
      (convert rm cols cols (extract cols cols 0 0 V)).
(* DecomposeSVD.hpp:361-416; [emax], [enext]: numeric_limits::max() and the number before it *)
Definition svd_two_sided (emax enext tol : R) (fuel rows cols : nat) A : outcome svd :=
  let scaler := mat_scale_elements rows cols A in
  if mat_div rows cols A scaler is Some As then
    match jacobi (two_sided_sweep rows tol) fuel 0 emax enext (two_sided_init rows cols A As) with
    | Done st => Done (two_sided_result rows cols (rowmaj A) scaler st)
    | Running st => Running (two_sided_result rows cols (rowmaj A) scaler st)
    | Fault => Fault _
    | OutOfBounds => OutOfBounds _
    end
  else Fault _.

(* DecomposeSVD.hpp:419-425 TransposeMultiplyPartial *)
Definition tmp (r : nat) X (p q : nat) : R * R * R :=
  (vsum (vmul (get_col r X p) (get_col r X p)), vsum (vmul (get_col r X p) (get_col r X q)),
   vsum (vmul (get_col r X q) (get_col r X q))).
(* DecomposeSVD.hpp:449-462 *)
Definition one_sided_step (rows cols : nat) (k p q : nat) (st : (mat R * mat R) * R) :=
  let: (X, V, maxError) := st in
  let: (ata11, ataoff, ata22) := tmp rows X p q in
  let error := `|ataoff| in
  if error != 0 then
    let maxError := std_max maxError error in
    let* (cv0, sv0) := diagonalize_hermitian (sg k p q).1 ata11 ataoff ata22 in
    let* (cv, sv) := minimize_rotation cv0 sv0 in
    Some (givens_right rows X p q cv sv 1, givens_left cols V p q cv (- sv) 1, maxError)
  else Some (X, V, maxError).
Definition one_sided_sweep (rows cols : nat) (k : nat) (st : mat R * mat R) :=
  pairs_loop cols (one_sided_step rows cols k) (st, 0).

(* std::sort with the comparison lhs.first > rhs.first: some sorted permutation of its input *)
Variable std_sort : seq (R * nat) -> seq (R * nat).
Variables tmin tmax : R.
(* DecomposeSVD.hpp:464-512; [sqrteps] is sqrt(epsilon); [sg0] the sign bits of zeros on the diagonal of R *)
Definition one_sided_result (rows cols : nat) (rm : bool) (sg0 : nat -> bool) (sqrteps scaler : R) (st : mat R * mat R)
    : option svd :=
  let: (X, V) := st in
  let sortedS := std_sort (mkseq (fun i => (vlength (get_col rows X i), i)) cols) in
  let S := [seq x.1 | x <- sortedS] in
  let from i := (nth (0, 0%N) sortedS i).2 in
  let X1 := for_loop 0 cols (fun i sX => set_col rows sX i (get_col rows X (from i))) (uninit false (junk X) rows cols) in
  let V1 := for_loop 0 cols (fun i sV => set_row cols sV i (get_row cols V (from i))) (uninit true (junk V) cols cols) in
  let threshold := nth 0 S 0 * sqrteps in
  let X2 := for_loop 0 cols (fun i X =>
      let scale := nth 0 S i in
      if scale != 0 then set_col rows X i [seq x / scale | x <- get_col rows X i] else X) X1 in
  let over := count (fun s => threshold <= s) S in
  if over != cols then
    let* (Q, Rm) := decompose_qr tmin tmax rows cols X2 in
    let S' := mkseq (fun i => copysign (sg0 i) (nth 0 S i) (get Rm i i)) cols in
    Some (Svd (convert rm rows cols Q) (vscale S' scaler) (convert rm cols cols V1))
  else Some (Svd (convert rm rows cols X2) (vscale S scaler) (convert rm cols cols V1)).
(* DecomposeSVD.hpp:428-513 *)
Definition svd_one_sided (emax enext sqrteps : R) (sg0 : nat -> bool) (fuel rows cols : nat) A : outcome svd :=
  let scaler := mat_scale_elements rows cols A in
  if mat_div rows cols A scaler is Some As then
    match jacobi (one_sided_sweep rows cols) fuel 0 emax enext
            (convert false rows cols As, identity true (junk A) cols cols) with
    | Done st => if one_sided_result rows cols (rowmaj A) sg0 sqrteps scaler st is Some d then Done d else Fault _
    | Running st => if one_sided_result rows cols (rowmaj A) sg0 sqrteps scaler st is Some d then Running d else Fault _
    | Fault => Fault _
    | OutOfBounds => OutOfBounds _
    end
  else Fault _.

(* DecomposeSVD.hpp:531-546 DecomposeSVD; [alg rows cols A] is one of the two algorithms above *)
Definition decompose_svd (alg : nat -> nat -> mat R -> outcome svd) (rows cols : nat) A : outcome svd :=
  if (cols <= rows)%N then alg rows cols A
  else
    let flip d := Svd (flip_layout_and_order (minn rows cols) rows (svdV d)) (svdS d)
                      (flip_layout_and_order cols (minn rows cols) (svdU d)) in
    match alg cols rows (flip_layout_and_order rows cols A) with
    | Done d => Done (flip d)
    | Running d => Running (flip d)
    | r => r
    end.
End SVD.
Arguments Fault {T}.
Arguments OutOfBounds {T}.
