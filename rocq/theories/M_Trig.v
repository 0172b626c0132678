(* Model of the transcendental part of Quaternion/Math.hpp and of Utility.hpp. The elementary functions of the C++
   library (std::exp, std::log, std::cos, std::sin, std::acos, std::atan2) are parameters; the theorems
   instantiate them with the functions of Coq's real analysis. *)
From mathcomp Require Import all_ssreflect all_algebra.
From Verif Require Import M_Vec M_Mat M_Quat.
Set Implicit Arguments. Unset Strict Implicit. Unset Printing Implicit Defensive.
Import GRing.Theory Num.Theory.
Local Open Scope ring_scope.

Section Trig.
Variable R : rcfType.
Variables (expf logf cosf sinf acosf : R -> R) (atan2f : R -> R -> R).
(* std::numeric_limits<T>::min(), max(), used by LengthPrecise *)
Variables tmin tmax : R.
Implicit Types (q : quat R) (jk : R).

(* Quaternion/Math.hpp:17-19 Angle *)
Definition qangle q : R := 2%:R * atan2f (vlength (qvector q)) (qs q).

(* Quaternion/Math.hpp:87-96 Exp. The temporary [Quaternion{...}] has the default layout SCALAR_FIRST (deduced
   template arguments); the return statement converts it. None: LengthPrecise fails *)
Definition qexp jk q : option (quat R) :=
  let scalar := qs q in
  let vector := qvector q in
  if length_precise tmin tmax vector is Some vectorLength then
    let scalarExp := expf scalar in
    let vectorNormalized := normalize_precise vector in
    Some (qconvert jk (sfirst q)
      (sqmul scalarExp (of_scalar_vector jk true (cosf vectorLength) (vscale vectorNormalized (sinf vectorLength)))))
  else None.

(* Quaternion/Math.hpp:101-110 Log; std::hypot is the square root of the sum of squares. None: LengthPrecise
   fails, or the quaternion is zero (logarithm of zero, division by zero) *)
Definition qlog jk q : option (quat R) :=
  let scalar := qs q in
  let vector := qvector q in
  if length_precise tmin tmax vector is Some vectorLength then
    let quatLength := Num.sqrt (scalar ^+ 2 + vectorLength ^+ 2) in
    let vectorNormalized := normalize_precise vector in
    if sdiv scalar quatLength is Some ratio then
      Some (of_scalar_vector jk (sfirst q) (logf quatLength) (vscale vectorNormalized (acosf ratio)))
    else None
  else None.

(* Quaternion/Math.hpp:114-117 Pow *)
Definition qpow jk q (a : R) : option (quat R) :=
  if qlog jk q is Some l then qexp jk (sqmul a l) else None.
End Trig.

Section Utility.
Variable R : realFieldType.
(* Constants<ComputeT>::Pi *)
Variable pi : R.
(* Utility.hpp:36-40 Rad2Deg, 44-48 Deg2Rad *)
Definition rad2deg (rad : R) : R := rad / pi * 180%:R.
Definition deg2rad (deg : R) : R := deg / 180%:R * pi.
(* Utility.hpp:55-57 Clamp: std::clamp(v, lo, hi) is (v < lo) ? lo : (hi < v) ? hi : v; 61-63 Saturate *)
Definition clamp (arg lower upper : R) : R := if arg < lower then lower else if upper < arg then upper else arg.
Definition saturate (arg : R) : R := clamp arg 0 1.
End Utility.
