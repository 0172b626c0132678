(* Bezier curves in floating point, Geometry/BezierCurve.hpp. Formats, rounding and simplifications as in M_Float.v. *)
From Coq Require Import ZArith List Arith.
From Flocq Require Import Core IEEE754.BinarySingleNaN.
From Verif Require Import M_Float M_FloatN M_FloatS M_FloatLU.
Import ListNotations.

Section FloatBezier.
Variables prec emax : Z.
Context (prec_gt_0_ : Prec_gt_0 prec) (prec_lt_emax_ : Prec_lt_emax prec emax).
Notation float := (binary_float prec emax).
Notation fadd := (fadd prec emax prec_gt_0_ prec_lt_emax_).
Notation fsub := (fsub prec emax prec_gt_0_ prec_lt_emax_).
Notation fmul := (fmul prec emax prec_gt_0_ prec_lt_emax_).
Notation fone := (fone prec emax prec_gt_0_ prec_lt_emax_).
Notation fmat := (fmat prec emax).

(* BezierCurve.hpp:60-73 PointAt. The array [reduction] as a function of the index of the point and of the coordinate; vector
   arithmetic works on the coordinates one by one. 67: one assignment *)
Definition fbezier_point (u t : float) (j : nat) (reduction : fmat) : fmat := fun k c =>
  if Nat.eqb k (j - 1) then fadd (fmul u (reduction (j - 1) c)) (fmul t (reduction j c)) else reduction k c.
(* BezierCurve.hpp:66-68 the inner loop *)
Definition fbezier_row (u t : float) (i : nat) (reduction : fmat) : fmat := fold_left (fun red j => fbezier_point u t j red) (seq 1 i) reduction.
(* BezierCurve.hpp:60-73 *)
Definition fbezier (order : nat) (controlPoints : fmat) (t : float) : nat -> float :=
  let u := fsub fone t in
  fold_left (fun red i => fbezier_row u t i red) (rev (seq 1 order)) controlPoints 0.
End FloatBezier.
