(* Rays and triangles in floating point, Geometry/Intersection.hpp. Formats, rounding and simplifications as in M_Float.v, reductions as
   in M_FloatN.v. Both arguments have the same scalar type, so the conversions between scalar types are the identity. *)
From Coq Require Import ZArith List Bool.
From Flocq Require Import Core IEEE754.BinarySingleNaN.
From Verif Require Import M_Float M_FloatN M_FloatS.
Import ListNotations.

Section FloatRay.
Variables prec emax : Z.
Context (prec_gt_0_ : Prec_gt_0 prec) (prec_lt_emax_ : Prec_lt_emax prec emax).
Notation float := (binary_float prec emax).
Notation fadd := (fadd prec emax prec_gt_0_ prec_lt_emax_).
Notation fsub := (fsub prec emax prec_gt_0_ prec_lt_emax_).
Notation fmul := (fmul prec emax prec_gt_0_ prec_lt_emax_).
Notation fdiv := (fdiv prec emax prec_gt_0_ prec_lt_emax_).
Notation fone := (fone prec emax prec_gt_0_ prec_lt_emax_).
Notation fzero := (fzero prec emax).
Notation flt := (flt prec emax).
Notation fcross := (fcross prec emax prec_gt_0_ prec_lt_emax_).
(* a vector of three elements *)
Notation v3 := (float * float * float)%type.
Definition el (v : v3) : list float := let '(x, y, z) := v in [x; y; z].
Definition sub3 (v w : v3) : v3 := let '(a, b, c) := v in let '(x, y, z) := w in (fsub a x, fsub b y, fsub c z).
(* Vector/Math.hpp:177-180 Dot; [pad]: the padding of the reduction *)
Definition dot3 (pad : nat) (v w : v3) (r : float) : Prop := fdot prec emax prec_gt_0_ prec_lt_emax_ pad (el v) (el w) r.
(* std::numeric_limits<T>::epsilon() *)
Definition feps : float := binary_normalize prec emax prec_gt_0_ prec_lt_emax_ mode_NE 1 (1 - prec) false.
(* Line.hpp:55-57 PointAt *)
Definition point3 (base direction : v3) (t : float) : v3 :=
  let '(a, b, c) := base in let '(x, y, z) := direction in (fadd a (fmul t x), fadd b (fmul t y), fadd c (fmul t z)).

(* Intersection.hpp:214-252 ray and triangle (A, B, C); [a], [nu], [nv], [nt]: the values of the four dot products *)
Definition fray_triangle (pad : nat) (base dir A B C : v3) (a nu nv nt : float) (r : option v3) : Prop :=
  let edge1 := sub3 B A in
  let edge2 := sub3 C A in
  let h := fcross dir edge2 in
  dot3 pad edge1 h a /\
  if flt (fabs prec emax a) feps then r = None
  else
    let f := fdiv fone a in
    let s := sub3 base A in
    dot3 pad s h nu /\
    let u := fmul f nu in
    if flt u fzero || flt fone u then r = None
    else
      let q := fcross s edge1 in
      dot3 pad dir q nv /\
      let v := fmul f nv in
      if flt v fzero || flt fone (fadd u v) then r = None
      else
        dot3 pad edge2 q nt /\
        let t := fmul f nt in
        if flt t feps then r = None else r = Some (point3 base dir t).
End FloatRay.
