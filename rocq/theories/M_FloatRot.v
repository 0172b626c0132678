(* Rotation about an axis in floating point, Transforms/Rotation3DBuilder.hpp. Formats, rounding and simplifications as in M_Float.v. *)
From Coq Require Import ZArith Arith.
From Flocq Require Import Core IEEE754.BinarySingleNaN.
From Verif Require Import M_Float.

Section FloatRot.
Variables prec emax : Z.
Context (prec_gt_0_ : Prec_gt_0 prec) (prec_lt_emax_ : Prec_lt_emax prec emax).
Notation float := (binary_float prec emax).
Notation fadd := (fadd prec emax prec_gt_0_ prec_lt_emax_).
Notation fsub := (fsub prec emax prec_gt_0_ prec_lt_emax_).
Notation fmul := (fmul prec emax prec_gt_0_ prec_lt_emax_).
Notation fone := (fone prec emax prec_gt_0_ prec_lt_emax_).
Notation fzero := (fzero prec emax).
(* Rotation3DBuilder.hpp:73-77 cross, row i and column j; elements 0, 1, 2 of [axis] are x, y, z *)
Definition fcross_matrix (axis : nat -> float) (i j : nat) : float :=
  match i, j with
  | 0, 1 => Bopp (axis 2) | 0, 2 => axis 1
  | 1, 0 => axis 2 | 1, 2 => Bopp (axis 0)
  | 2, 0 => Bopp (axis 1) | 2, 1 => axis 0
  | _, _ => fzero
  end.
(* Rotation3DBuilder.hpp:62-83 RotationMatrixAxisAngle: element (i, j) of r for a column vector, where [c] and [s] are what std::cos
   and std::sin return; the product of a column and a row has one term per element. The remaining rows and columns and the order of
   the matrix (80-82) are in M_Transform.v *)
Definition faxis_angle (axis : nat -> float) (c s : float) (i j : nat) : float :=
  fadd (fadd (fmul c (if i =? j then fone else fzero)) (fmul s (fcross_matrix axis i j)))
       (fmul (fmul (fsub fone c) (axis i)) (axis j)).
End FloatRot.
