(* Model of Decompositions/DecomposeQR.hpp for real element types (Conj is the identity and
   ConjTranspose is Transpose). [tmin], [tmax]: std::numeric_limits<Real>::min() and max(). None: a division
   by zero. *)
From mathcomp Require Import all_ssreflect all_algebra.
From Verif Require Import M_Vec M_Mat M_LU.
Set Implicit Arguments. Unset Strict Implicit. Unset Printing Implicit Defensive.
Import GRing.Theory Num.Theory.
Local Open Scope ring_scope.

Section QR.
Variable R : rcfType.
Variables tmin tmax : R.
Implicit Types (A b : mat R).

(* DecomposeQR.hpp:179-203 HouseholderReflection(r, k) of a rows x _ matrix *)
Definition householder (rows : nat) (r : mat R) (k : nat) : option (seq R) :=
  let x := for_loop 0 k (fun i x => set_nth 0 x i 0) (get_col rows r k) in
  match length_precise tmin tmax x with
  | None => None
  | Some normX =>
      let pivot := nth 0 x k in
      let mag := `|pivot| in
      let sign := if mag != 0 then - (pivot / mag) else 1 in
      let alpha := sign * normX in
      let u := set_nth 0 x k (pivot - alpha) in
      match length_precise tmin tmax u with
      | None => None
      | Some normU =>
          if normU != 0 then Some [seq y / normU | y <- u] else Some (set_nth 0 u k 1)
      end
  end.

(* M - Real(2) * vm * (vmT * M), lines 231-232: M is rows x cols *)
Definition reflect (rows cols : nat) (vm vmT M : mat R) : mat R :=
  mat_sub rows cols M (mat_mul rows 1 cols (mat_scalel rows 1 2%:R vm) (mat_mul 1 rows cols vmT M)).
(* the loop body, lines 227-233; state R, QT *)
Definition qr_step (rows cols : nat) (k : nat) (st : mat R * mat R) : option (mat R * mat R) :=
  let: (Rm, QT) := st in
  if householder rows Rm k is Some v then
    let vm := ctor_vector (rowmaj Rm) (junk Rm) rows 1 v in
    let vmT := ctor_vector (rowmaj Rm) (junk Rm) 1 rows v in
    Some (reflect rows cols vm vmT Rm, reflect rows rows vm vmT QT)
  else None.
(* lines 236-240 *)
Definition zero_lower (cols : nat) (Rm : mat R) : mat R :=
  for_loop 0 cols (fun j Rm => for_loop j.+1 cols (fun i Rm => set Rm i j 0) Rm) Rm.
(* DecomposeQR.hpp:211-247; the result is (Q, R) *)
Definition decompose_qr (rows cols : nat) (m : mat R) : option (mat R * mat R) :=
  let scaler := std_max tmin (mat_scale_elements rows cols m) in
  let QT0 := identity (rowmaj m) (junk m) rows rows in
  if mat_div rows cols m scaler is Some R0 then
    if for_opt (iota 0 cols) (qr_step rows cols) (R0, QT0) is Some (R1, QT) then
      let R2 := zero_lower cols R1 in
      Some (transpose cols rows (extract cols rows 0 0 QT),
            mat_scalel cols cols scaler (extract cols cols 0 0 R2))
    else None
  else None.

(* lines 101-105 SolveUnordered and 75-80 Solve(Matrix), PRECEDE_VECTOR: b is rows x c *)
Definition qr_solve (rows cols c : nat) (qr : mat R * mat R) b : option (mat R) :=
  solve_upper cols c qr.2 (mat_mul cols rows c (transpose rows cols qr.1) b).
(* lines 83-88 Solve(Vector) *)
Definition qr_solve_vec (rows cols : nat) (qr : mat R * mat R) (b : seq R) : option (seq R) :=
  omap (to_vector cols 1)
    (qr_solve rows cols 1 qr (ctor_vector (rowmaj qr.1) (junk qr.1) rows 1 b)).
(* lines 91-98 Inverse: SetOrder without PreserveTransform copies the stripes *)
Definition qr_inverse (rows cols : nat) (qr : mat R * mat R) : option (mat R) :=
  let ordR := flip_order false cols cols qr.2 in
  let ordI := flip_order false cols cols (identity (rowmaj qr.2) (junk qr.2) cols cols) in
  if solve_upper cols cols ordR ordI is Some x then
    let Rinv := flip_order false cols cols x in
    let Qinv := transpose rows cols qr.1 in
    Some (mat_mul cols cols rows Rinv Qinv)
  else None.

(* lines 253-259 DecomposeLQ of a rows x cols matrix; the result is (L, Q) *)
Definition decompose_lq (rows cols : nat) (m : mat R) : option (mat R * mat R) :=
  if decompose_qr cols rows (flip_layout_and_order rows cols m) is Some (Q, Rm) then
    Some (flip_layout_and_order rows rows Rm, flip_layout_and_order cols rows Q)
  else None.
(* DecompositionQR{ FlipLayoutAndOrder(Q), FlipLayoutAndOrder(L) } *)
Definition lq_flip (rows cols : nat) (lq : mat R * mat R) : mat R * mat R :=
  (flip_layout_and_order rows cols lq.2, flip_layout_and_order rows rows lq.1).
(* lines 153-159 Solve(Matrix), FOLLOW_VECTOR. The parameter is declared as r2 x Rows; the call to the
   QR solver compiles only if the flipped argument has Columns rows, so the model takes r2 x cols. *)
Definition lq_solve (rows cols r2 : nat) (lq : mat R * mat R) b : option (mat R) :=
  omap (flip_layout_and_order rows r2)
    (qr_solve cols rows r2 (lq_flip rows cols lq) (flip_layout_and_order r2 cols b)).
(* lines 162-167 Solve(Vector) *)
Definition lq_solve_vec (rows cols : nat) (lq : mat R * mat R) (b : seq R) : option (seq R) :=
  qr_solve_vec cols rows (lq_flip rows cols lq) b.
(* lines 170-174 Inverse *)
Definition lq_inverse (rows cols : nat) (lq : mat R * mat R) : option (mat R) :=
  omap (flip_layout_and_order rows cols) (qr_inverse cols rows (lq_flip rows cols lq)).

(* lines 266-282 DecomposeQRorLQ: which decomposition (true: QR) *)
Definition qr_or_lq (precede : bool) (rows cols : nat) : bool :=
  if rows == cols then precede else (cols < rows)%N.
End QR.
