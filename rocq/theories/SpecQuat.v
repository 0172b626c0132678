(* Reference quaternions, independent of the model: quadruples a + b i + c j + d k. *)
From mathcomp Require Import all_ssreflect all_algebra.
From Verif Require Import M_Vec M_Mat M_Quat.
Set Implicit Arguments. Unset Strict Implicit. Unset Printing Implicit Defensive.
Import GRing.Theory.
Local Open Scope ring_scope.

Section Spec.
Variable R : ringType.
Definition hq : Type := (R * R * R * R)%type.
(* what a stored quaternion means *)
Definition absq (q : quat R) : hq :=
  let e := nth 0 (elems q) in
  if sfirst q then (e 0%N, e 1%N, e 2%N, e 3%N) else (e 3%N, e 0%N, e 1%N, e 2%N).
Definition wfq (q : quat R) : bool := size (elems q) == 4%N.
(* the Hamilton product: i^2 = j^2 = k^2 = -1, ij = k = -ji, jk = i = -kj, ki = j = -ik *)
Definition hmul (x y : hq) : hq :=
  let: (a1, b1, c1, d1) := x in
  let: (a2, b2, c2, d2) := y in
  (a1 * a2 - b1 * b2 - c1 * c2 - d1 * d2,
   a1 * b2 + b1 * a2 + c1 * d2 - d1 * c2,
   a1 * c2 - b1 * d2 + c1 * a2 + d1 * b2,
   a1 * d2 + b1 * c2 - c1 * b2 + d1 * a2).
Definition hadd (x y : hq) : hq :=
  let: (a1, b1, c1, d1) := x in let: (a2, b2, c2, d2) := y in (a1 + a2, b1 + b2, c1 + c2, d1 + d2).
Definition hscale (s : R) (x : hq) : hq := let: (a, b, c, d) := x in (s * a, s * b, s * c, s * d).
Definition hopp (x : hq) : hq := let: (a, b, c, d) := x in (- a, - b, - c, - d).
Definition hconj (x : hq) : hq := let: (a, b, c, d) := x in (a, - b, - c, - d).
Definition hnorm (x : hq) : R := let: (a, b, c, d) := x in a * a + b * b + c * c + d * d.
Definition hone : hq := (1, 0, 0, 0).
Definition hzero : hq := (0, 0, 0, 0).
End Spec.
