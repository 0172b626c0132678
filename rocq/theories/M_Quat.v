(* Model of Quaternion/Quaternion.hpp, Arithmetic.hpp, Math.hpp (algebraic part), Comparison.hpp,
   RotationArithmetic.hpp and Literals.hpp. A quaternion object is its layout (a template parameter in the
   code) and its four stored elements; reading and writing the swizzles scalar, i, j, k, vector and
   canonical are reads and writes of the listed positions (theorems C03 and C04 about swizzles). *)
From mathcomp Require Import all_ssreflect all_algebra.
From Verif Require Import M_Vec M_Mat.
Set Implicit Arguments. Unset Strict Implicit. Unset Printing Implicit Defensive.
Import GRing.Theory Num.Theory.
Local Open Scope ring_scope.

(* Types.hpp eQuaternionLayout: true = SCALAR_FIRST, false = VECTOR_FIRST *)
(* Quaternion.hpp:31-34 *)
Definition scalar_idx (sf : bool) : nat := (if sf then 0 else 3)%N.
Definition idx_i (sf : bool) : nat := (if sf then 1 else 0)%N.
Definition idx_j (sf : bool) : nat := (if sf then 2 else 1)%N.
Definition idx_k (sf : bool) : nat := (if sf then 3 else 2)%N.

Section Ring.
Variable R : ringType.
Record quat := Quat { sfirst : bool; elems : seq R }.
Implicit Types (p q : quat) (v : seq R).

(* Quaternion.hpp:39-49 the named elements *)
Definition qs q : R := nth 0 (elems q) (scalar_idx (sfirst q)).
Definition qi q : R := nth 0 (elems q) (idx_i (sfirst q)).
Definition qj q : R := nth 0 (elems q) (idx_j (sfirst q)).
Definition qk q : R := nth 0 (elems q) (idx_k (sfirst q)).
Definition canonical_idx (sf : bool) : seq nat := [:: scalar_idx sf; idx_i sf; idx_j sf; idx_k sf].
Definition qvector q : seq R := swz (elems q) [:: idx_i (sfirst q); idx_j (sfirst q); idx_k (sfirst q)].
Definition canonical q : seq R := swz (elems q) (canonical_idx (sfirst q)).
(* assignment to the swizzle [canonical] of an object with elements [old] (uninitialised in constructors) *)
Definition assign_canonical (sf : bool) (old v : seq R) : quat :=
  Quat sf (foldl (fun e x => set_nth 0 e x.1 x.2) old (zip (canonical_idx sf) v)).
(* uninitialised elements: arbitrary value jk; Quaternion.hpp:186-188 constructor from canonical order *)
Definition of_canonical (jk : R) (sf : bool) v : quat := assign_canonical sf (nseq 4 jk) v.
(* 179-181 from a vector of the same layout, 236-240 back *)
Definition of_vector4 (sf : bool) v : quat := Quat sf v.
Definition to_vector4 q : seq R := elems q.
(* 193-195 conversion, 199-201 elements, 205-207 scalar and vector, 211-213 vector *)
Definition qconvert jk (sf : bool) q : quat := of_canonical jk sf (canonical q).
Definition of_elements jk (sf : bool) (s i j k : R) : quat := of_canonical jk sf [:: s; i; j; k].
Definition of_scalar_vector jk (sf : bool) (s : R) v : quat := of_canonical jk sf (s :: v).
Definition of_vector3 jk (sf : bool) v : quat := of_canonical jk sf (0 :: v).
(* 199 default arguments: conversion of a scalar *)
Definition of_scalar jk (sf : bool) (s : R) : quat := of_elements jk sf s 0 0 0.

(* Arithmetic.hpp:17-46; the result has the layout of the left operand *)
Definition qmul jk p q : quat :=
  let l := canonical p in
  let r := canonical q in
  let s1 := [:: -1; 1; -1; 1] in
  let s2 := [:: -1; 1; 1; -1] in
  let s3 := [:: -1; -1; 1; 1] in
  let t0 := swz l [:: 0; 0; 0; 0]%N in
  let t1 := swz r [:: 0; 1; 2; 3]%N in
  let t2 := swz l [:: 1; 1; 1; 1]%N in
  let t3 := swz r [:: 1; 0; 3; 2]%N in
  let t4 := swz l [:: 2; 2; 2; 2]%N in
  let t5 := swz r [:: 2; 3; 0; 1]%N in
  let t6 := swz l [:: 3; 3; 3; 3]%N in
  let t7 := swz r [:: 3; 2; 1; 0]%N in
  let m0 := vmul t0 t1 in
  let m1 := vmul (vmul s1 t2) t3 in
  let m2 := vmul (vmul s2 t4) t5 in
  let m3 := vmul (vmul s3 t6) t7 in
  of_canonical jk (sfirst p) (vadd (vadd (vadd m0 m1) m2) m3).
(* 57-60, 65-68 *)
Definition qadd jk p q : quat := of_canonical jk (sfirst p) (vadd (canonical p) (canonical q)).
Definition qsub jk p q : quat := of_canonical jk (sfirst p) (vsub (canonical p) (canonical q)).
(* 84-100 compound assignment: the result is converted to the layout of the left operand *)
Definition qadd_assign jk p q : quat := qconvert jk (sfirst p) (qadd jk p q).
Definition qsub_assign jk p q : quat := qconvert jk (sfirst p) (qsub jk p q).
Definition qmul_assign jk p q : quat := qconvert jk (sfirst p) (qmul jk p q).
(* 110-120 quaternion + scalar, 126-129 *, 147-157 scalar + quaternion, 163-166 * *)
Definition qadds jk q s : quat := qadd jk q (of_scalar jk (sfirst q) s).
Definition qsubs jk q s : quat := qsub jk q (of_scalar jk (sfirst q) s).
Definition qmuls q s : quat := of_vector4 (sfirst q) (vscale (to_vector4 q) s).
Definition sqadd jk s q : quat := qadd jk (of_scalar jk (sfirst q) s) q.
Definition sqsub jk s q : quat := qsub jk (of_scalar jk (sfirst q) s) q.
Definition sqmul s q : quat := of_vector4 (sfirst q) (vscalel s (to_vector4 q)).

(* Math.hpp:78-82 *)
Definition qconj jk q : quat := of_canonical jk (sfirst q) (vmul (canonical q) [:: 1; -1; -1; -1]).
(* 34-36 *)
Definition qlength_squared q : R := vdot id (to_vector4 q) (to_vector4 q).

(* Literals.hpp:13-73: _i, _j, _k (SCALAR_FIRST) *)
Definition lit_i jk (x : R) := of_elements jk true 0 x 0 0.
Definition lit_j jk (x : R) := of_elements jk true 0 0 x 0.
Definition lit_k jk (x : R) := of_elements jk true 0 0 0 x.

(* Quaternion.hpp:132-153; [follow]: FOLLOW_VECTOR *)
Definition elem_set (follow : bool) (m : mat R) (i j : nat) (x : R) : mat R :=
  if follow then set m j i x else set m i j x.
Definition quat_to_matrix (follow rm : bool) (jk : R) (r c : nat) q : mat R :=
  let s := qs q in let i := qi q in let j := qj q in let k := qk q in
  let m0 := uninit rm jk r c in
  let m := elem_set follow m0 0 0 (1 - 2%:R * (j * j + k * k)) in
  let m := elem_set follow m 0 1 (2%:R * (i * j - k * s)) in
  let m := elem_set follow m 0 2 (2%:R * (i * k + j * s)) in
  let m := elem_set follow m 1 0 (2%:R * (i * j + k * s)) in
  let m := elem_set follow m 1 1 (1 - 2%:R * (i * i + k * k)) in
  let m := elem_set follow m 1 2 (2%:R * (j * k - i * s)) in
  let m := elem_set follow m 2 0 (2%:R * (i * k - j * s)) in
  let m := elem_set follow m 2 1 (2%:R * (j * k + i * s)) in
  let m := elem_set follow m 2 2 (1 - 2%:R * (i * i + j * j)) in
  for_loop 0 c (fun jj m => for_loop (if jj < 3 then 3 else 0)%N r (fun ii m => set m ii jj (jj == ii)%:R) m) m.
End Ring.

(* Comparison.hpp:12-24 *)
Definition qeq (R : ringType) (p q : quat R) : bool := canonical p == canonical q.
Definition qneq (R : ringType) (p q : quat R) : bool := ~~ qeq p q.

Section Field.
Variable R : rcfType.
Implicit Types (p q : quat R) (v : seq R).
(* Arithmetic.hpp:135-138 quaternion / scalar; None: zero divisor *)
Definition qdivs q (s : R) : option (quat R) :=
  if vdivs (to_vector4 q) s is Some v then Some (of_vector4 (sfirst q) v) else None.
(* Math.hpp:42-52, 71-73 *)
Definition qlength q : R := vlength (to_vector4 q).
Definition qlength_precise tmin tmax q : option R := length_precise tmin tmax (to_vector4 q).
(* Math.hpp:57-59, 64-66 *)
Definition qnormalize q : option (quat R) :=
  if vnormalize (to_vector4 q) is Some v then Some (of_vector4 (sfirst q) v) else None.
Definition qnormalize_precise jk q : quat R :=
  of_vector4 (sfirst q) (normalize_precise_or (to_vector4 q) (to_vector4 (of_elements jk (sfirst q) 1 0 0 0))).
(* Math.hpp:25-27 *)
Definition qaxis q : seq R := normalize_precise (qvector q).
(* Math.hpp:122-126 *)
Definition qinverse jk q : option (quat R) := qdivs (qconj jk q) (qlength_squared q).
(* RotationArithmetic.hpp:21-26; 35-59 the deprecated operators call it *)
Definition qrotate jk q v : option (seq R) :=
  if qinverse jk q is Some qi then Some (qvector (qmul jk (qmul jk q (of_vector3 jk (sfirst q) v)) qi)) else None.
(* Quaternion.hpp:157-168; None: the square root is NaN or the divisor is zero *)
Definition matrix_to_quat (follow : bool) jk (sf : bool) (m : mat R) : option (quat R) :=
  let e i j := if follow then get m j i else get m i j in
  let radicand := 1 + e 0%N 0%N + e 1%N 1%N + e 2%N 2%N in
  if radicand < 0 then None else
  let s := Num.sqrt radicand * 2%:R^-1 in
  if sdiv 1 (4%:R * s) is Some d then
    let i := (e 2%N 1%N - e 1%N 2%N) * d in
    let j := (e 0%N 2%N - e 2%N 0%N) * d in
    let k := (e 1%N 0%N - e 0%N 1%N) * d in
    Some (of_canonical jk sf [:: s; i; j; k])
  else None.
End Field.
