(* Triangles in floating point, Geometry/Triangle.hpp. Formats, rounding and simplifications as in M_Float.v, reductions as in
   M_FloatN.v. Vectors are lists of their elements. *)
From Coq Require Import ZArith List.
From Flocq Require Import Core IEEE754.BinarySingleNaN.
From Verif Require Import M_Float M_FloatN.
Import ListNotations.

Section FloatTriangle.
Variables prec emax : Z.
Context (prec_gt_0_ : Prec_gt_0 prec) (prec_lt_emax_ : Prec_lt_emax prec emax).
Notation float := (binary_float prec emax).
Notation fadd := (fadd prec emax prec_gt_0_ prec_lt_emax_).
Notation fsub := (fsub prec emax prec_gt_0_ prec_lt_emax_).
Notation fmul := (fmul prec emax prec_gt_0_ prec_lt_emax_).
Notation fdiv := (fdiv prec emax prec_gt_0_ prec_lt_emax_).
Notation fsqrt := (fsqrt prec emax prec_gt_0_ prec_lt_emax_).
Variable fmax : float -> float -> float.
(* T(0.5), T(3) *)
Definition fhalf : float := binary_normalize prec emax prec_gt_0_ prec_lt_emax_ mode_NE 1 (-1) false.
Definition fthree : float := binary_normalize prec emax prec_gt_0_ prec_lt_emax_ mode_NE 3 0 false.
(* Triangle.hpp:42-43: half the perimeter, the radicand and its root *)
Definition fheron_s (l0 l1 l2 : float) : float := fmul fhalf (fadd (fadd l0 l1) l2).
Definition fheron_product (l0 l1 l2 : float) : float :=
  let s := fheron_s l0 l1 l2 in fmul (fmul (fmul s (fsub s l0)) (fsub s l1)) (fsub s l2).
(* Triangle.hpp:38-44 Area; [l0], [l1], [l2]: the lengths computed, [pm], [ps]: the padding of the reductions in LengthPrecise *)
Definition farea (pm ps : nat) (a b c : list float) (l0 l1 l2 r : float) : Prop :=
  fdistance_precise prec emax prec_gt_0_ prec_lt_emax_ fmax pm ps a b l0 /\
  fdistance_precise prec emax prec_gt_0_ prec_lt_emax_ fmax pm ps a c l1 /\
  fdistance_precise prec emax prec_gt_0_ prec_lt_emax_ fmax pm ps b c l2 /\
  r = fsqrt (fheron_product l0 l1 l2).
(* Triangle.hpp:48-50 Centroid, one element *)
Definition fcentroid (a b c : float) : float := fdiv (fadd (fadd a b) c) fthree.
End FloatTriangle.
