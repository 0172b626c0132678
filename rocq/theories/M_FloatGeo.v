(* Lines, hyperplanes and their intersections in floating point, Geometry/Hyperplane.hpp, Line.hpp, LineSegment.hpp, Intersection.hpp.
   Formats, rounding and simplifications as in M_Float.v, reductions as in M_FloatN.v. A vector is given by its elements; both
   arguments have the same scalar type, so the conversions between scalar types are the identity. *)
From Coq Require Import ZArith List Arith.
From Flocq Require Import Core IEEE754.BinarySingleNaN.
From Verif Require Import M_Float M_FloatN M_FloatS M_FloatQR.
Import ListNotations.

Section FloatGeo.
Variables prec emax : Z.
Context (prec_gt_0_ : Prec_gt_0 prec) (prec_lt_emax_ : Prec_lt_emax prec emax).
Notation float := (binary_float prec emax).
Notation fadd := (fadd prec emax prec_gt_0_ prec_lt_emax_).
Notation fsub := (fsub prec emax prec_gt_0_ prec_lt_emax_).
Notation fmul := (fmul prec emax prec_gt_0_ prec_lt_emax_).
Notation fdiv := (fdiv prec emax prec_gt_0_ prec_lt_emax_).
Notation fzero := (fzero prec emax).
Notation fdot := (fdot prec emax prec_gt_0_ prec_lt_emax_).
Notation elements := (elements prec emax).
Notation fvec := (nat -> float).
Variable fmax : float -> float -> float.
(* the dimension and the padding of the vectors *)
Variables dim pad : nat.
Definition fvdot (v w : fvec) (r : float) : Prop := fdot pad (elements dim v) (elements dim w) r.

(* Hyperplane.hpp:28-30 Hyperplane(base, normal): the scalar *)
Definition fplane_scalar (base normal : fvec) (scalar : float) : Prop := fvdot normal base scalar.
(* Hyperplane.hpp:60-62 Base *)
Definition fplane_base (normal : fvec) (scalar : float) : fvec := fun i => fmul (normal i) scalar.
(* Hyperplane.hpp:65-67 Distance *)
Definition fplane_distance (normal : fvec) (scalar : float) (point : fvec) (r : float) : Prop :=
  exists d, fvdot point normal d /\ r = fsub d scalar.
(* Line.hpp:55-57 PointAt *)
Definition fpoint_at (base direction : fvec) (param : float) : fvec := fun i => fadd (base i) (fmul param (direction i)).

(* Intersection.hpp:25-42 IntersectHyperplaneLine; [nd]: the value of nDotD *)
Definition fintersect_param (normal : fvec) (scalar : float) (base direction : fvec) (nd : float) (r : option float) : Prop :=
  fvdot normal direction nd /\
  if fneq prec emax nd fzero
  then exists q, fvdot normal (fun i => fsub (fplane_base normal scalar i) (base i)) q /\ r = Some (fdiv q nd)
  else r = None.
(* Intersection.hpp:80-90 hyperplane and line *)
Definition fintersect (normal : fvec) (scalar : float) (base direction : fvec) (nd : float) (t : option float) (r : option fvec) : Prop :=
  fintersect_param normal scalar base direction nd t /\ r = option_map (fpoint_at base direction) t.
(* 0 <= x *)
Definition fnonneg (x : float) : bool := match Bcompare fzero x with Some Lt | Some Eq => true | _ => false end.
(* Intersection.hpp:136-144 hyperplane and ray; 0 <= std::nullopt is false *)
Definition fintersect_ray (normal : fvec) (scalar : float) (base direction : fvec) (nd : float) (t : option float) (r : option fvec) : Prop :=
  fintersect_param normal scalar base direction nd t /\
  r = match t with Some t => if fnonneg t then Some (fpoint_at base direction t) else None | None => None end.
(* Intersection.hpp:109-117 hyperplane and line segment; LineSegment.hpp:41-43 Direction, 71-73 Line; Vector/Math.hpp:218-220 Distance,
   257-261 NormalizePrecise.
   [dir]: the direction, [len]: the distance *)
Definition fintersect_segment (pm ps : nat) (normal : fvec) (scalar : float) (point1 point2 : fvec)
  (dir : fvec) (len nd : float) (t : option float) (r : option fvec) : Prop :=
  fnormalize_precise prec emax prec_gt_0_ prec_lt_emax_ fmax pm ps (elements dim (fun i => fsub (point2 i) (point1 i)))
    (elements dim (fun i => match i with 0 => fone prec emax prec_gt_0_ prec_lt_emax_ | _ => fzero end)) (elements dim dir) /\
  flength prec emax prec_gt_0_ prec_lt_emax_ ps (elements dim (fun i => fsub (point1 i) (point2 i))) len /\
  fintersect_param normal scalar point1 dir nd t /\
  r = match t with Some t => if andb (fnonneg t) (flt prec emax t len) then Some (fpoint_at point1 dir t) else None | None => None end.
End FloatGeo.

Section Plane2D.
Variables prec emax : Z.
Context (prec_gt_0_ : Prec_gt_0 prec) (prec_lt_emax_ : Prec_lt_emax prec emax).
Notation float := (binary_float prec emax).
(* Vector/Math.hpp:364-369 Cross of one vector of two elements *)
Definition fcross2 (v : nat -> float) : nat -> float := fun i => match i with 0 => Bopp (v 1) | _ => v 0 end.
(* Intersection.hpp:163-166 line and line in two dimensions; Hyperplane.hpp:38-41 *)
Definition fintersect_lines (pad : nat) (base1 dir1 base2 dir2 : nat -> float) (scalar nd : float) (t : option float) (r : option (nat -> float)) : Prop :=
  fplane_scalar prec emax prec_gt_0_ prec_lt_emax_ 2 pad base1 (fcross2 dir1) scalar /\
  fintersect prec emax prec_gt_0_ prec_lt_emax_ 2 pad (fcross2 dir1) scalar base2 dir2 nd t r.
End Plane2D.
