(* Model of Decompositions/DecomposeQR.hpp for complex element types. [tmin], [tmax]:
   std::numeric_limits<Real>::min() and max(). None: a division by zero. *)
From mathcomp Require Import all_ssreflect all_algebra.
From mathcomp Require Import complex.
From Verif Require Import M_Vec M_Mat M_LU M_Complex.
Set Implicit Arguments. Unset Strict Implicit. Unset Printing Implicit Defensive.
Import GRing.Theory Num.Theory.
Local Open Scope complex_scope.
Local Open Scope ring_scope.

Section QR.
Variable R : rcfType.
Variables tmin tmax : R.
Implicit Types (A b : mat R[i]).

(* DecomposeQR.hpp:179-203 HouseholderReflection(r, k) of a rows x _ matrix *)
Definition householder_c (rows : nat) (r : mat R[i]) (k : nat) : option (seq R[i]) :=
  let x := for_loop 0 k (fun i x => set_nth 0 x i 0) (get_col rows r k) in
  match clength_precise tmin tmax x with
  | None => None
  | Some normX =>
      let pivot := nth 0 x k in
      let mag := cabs pivot in
      let sign := if mag != 0 then - (pivot / mag%:C) else 1 in
      let alpha := sign * normX%:C in
      let u := set_nth 0 x k (pivot - alpha) in
      match clength_precise tmin tmax u with
      | None => None
      | Some normU =>
          if normU != 0 then Some [seq y / normU%:C | y <- u] else Some (set_nth 0 u k 1)
      end
  end.

(* M - Real(2) * vm * (vmT * M), lines 232-233: M is rows x cols *)
Definition reflect_c (rows cols : nat) (vm vmT M : mat R[i]) : mat R[i] :=
  mat_sub rows cols M (mat_mul rows 1 cols (mat_scalel rows 1 (2%:R)%:C vm) (mat_mul 1 rows cols vmT M)).
(* the loop body, lines 228-234; state R, QT *)
Definition qr_step_c (rows cols : nat) (k : nat) (st : mat R[i] * mat R[i]) : option (mat R[i] * mat R[i]) :=
  let: (Rm, QT) := st in
  if householder_c rows Rm k is Some v then
    let vm := ctor_vector (rowmaj Rm) (junk Rm) rows 1 v in
    let vmT := ctor_vector (rowmaj Rm) (junk Rm) 1 rows (vconj v) in
    Some (reflect_c rows cols vm vmT Rm, reflect_c rows rows vm vmT QT)
  else None.
(* lines 237-241 *)
Definition zero_lower_c (cols : nat) (Rm : mat R[i]) : mat R[i] :=
  for_loop 0 cols (fun j Rm => for_loop j.+1 cols (fun i Rm => set Rm i j 0) Rm) Rm.
(* DecomposeQR.hpp:211-247; the result is (Q, R) *)
Definition decompose_qr_c (rows cols : nat) (m : mat R[i]) : option (mat R[i] * mat R[i]) :=
  let scaler := std_max tmin (cmat_scale_elements rows cols m) in
  let QT0 := identity (rowmaj m) (junk m) rows rows in
  if mat_div rows cols m scaler%:C is Some R0 then
    if for_opt (iota 0 cols) (qr_step_c rows cols) (R0, QT0) is Some (R1, QT) then
      let R2 := zero_lower_c cols R1 in
      Some (conj_transpose cols rows (extract cols rows 0 0 QT),
            mat_scalel cols cols scaler%:C (extract cols cols 0 0 R2))
    else None
  else None.

(* lines 101-105 SolveUnordered and 75-80 Solve(Matrix), PRECEDE_VECTOR: b is rows x c *)
Definition qr_solve_c (rows cols c : nat) (qr : mat R[i] * mat R[i]) b : option (mat R[i]) :=
  solve_upper cols c qr.2 (mat_mul cols rows c (conj_transpose rows cols qr.1) b).
(* lines 83-88 Solve(Vector) *)
Definition qr_solve_vec_c (rows cols : nat) (qr : mat R[i] * mat R[i]) (b : seq R[i]) : option (seq R[i]) :=
  omap (to_vector cols 1)
    (qr_solve_c rows cols 1 qr (ctor_vector (rowmaj qr.1) (junk qr.1) rows 1 b)).
(* lines 91-98 Inverse: SetOrder without PreserveTransform copies the stripes *)
Definition qr_inverse_c (rows cols : nat) (qr : mat R[i] * mat R[i]) : option (mat R[i]) :=
  let ordR := flip_order false cols cols qr.2 in
  let ordI := flip_order false cols cols (identity (rowmaj qr.2) (junk qr.2) cols cols) in
  if solve_upper cols cols ordR ordI is Some x then
    let Rinv := flip_order false cols cols x in
    let Qinv := conj_transpose rows cols qr.1 in
    Some (mat_mul cols cols rows Rinv Qinv)
  else None.

(* lines 253-259 DecomposeLQ of a rows x cols matrix; the result is (L, Q). The flip is the plain transpose. *)
Definition decompose_lq_c (rows cols : nat) (m : mat R[i]) : option (mat R[i] * mat R[i]) :=
  if decompose_qr_c cols rows (flip_layout_and_order rows cols m) is Some (Q, Rm) then
    Some (flip_layout_and_order rows rows Rm, flip_layout_and_order cols rows Q)
  else None.
(* DecompositionQR{ FlipLayoutAndOrder(Q), FlipLayoutAndOrder(L) } *)
Definition lq_flip_c (rows cols : nat) (lq : mat R[i] * mat R[i]) : mat R[i] * mat R[i] :=
  (flip_layout_and_order rows cols lq.2, flip_layout_and_order rows rows lq.1).
(* lines 153-159 Solve(Matrix), FOLLOW_VECTOR; as in M_QR.v the model takes an r2 x cols right hand side *)
Definition lq_solve_c (rows cols r2 : nat) (lq : mat R[i] * mat R[i]) b : option (mat R[i]) :=
  omap (flip_layout_and_order rows r2)
    (qr_solve_c cols rows r2 (lq_flip_c rows cols lq) (flip_layout_and_order r2 cols b)).
(* lines 162-167 Solve(Vector) *)
Definition lq_solve_vec_c (rows cols : nat) (lq : mat R[i] * mat R[i]) (b : seq R[i]) : option (seq R[i]) :=
  qr_solve_vec_c cols rows (lq_flip_c rows cols lq) b.
(* lines 170-174 Inverse *)
Definition lq_inverse_c (rows cols : nat) (lq : mat R[i] * mat R[i]) : option (mat R[i]) :=
  omap (flip_layout_and_order rows cols) (qr_inverse_c cols rows (lq_flip_c rows cols lq)).
End QR.
