(* Quaternions in floating point, Quaternion/Arithmetic.hpp, Math.hpp, RotationArithmetic.hpp. Formats, rounding and
   simplifications as in M_Float.v, reductions as in M_FloatN.v. A quaternion is given by its canonical elements: 0 is the scalar
   part, 1, 2, 3 the vector part; that the layout does not matter is theorem C62. *)
From Coq Require Import ZArith List Arith.
From Flocq Require Import Core IEEE754.BinarySingleNaN.
From Verif Require Import M_Float M_FloatN.
Import ListNotations.

Section FloatQ.
Variables prec emax : Z.
Context (prec_gt_0_ : Prec_gt_0 prec) (prec_lt_emax_ : Prec_lt_emax prec emax).
Notation float := (binary_float prec emax).
Notation fadd := (fadd prec emax prec_gt_0_ prec_lt_emax_).
Notation fmul := (fmul prec emax prec_gt_0_ prec_lt_emax_).
Notation fdiv := (fdiv prec emax prec_gt_0_ prec_lt_emax_).
Notation fone := (fone prec emax prec_gt_0_ prec_lt_emax_).
Notation fzero := (fzero prec emax).
Definition fquat := nat -> float.
Definition fmone : float := Bopp fone.

(* Quaternion/Arithmetic.hpp:15-46 Multiply: lane i of m0 + m1 + m2 + m3, where m1 = s1 * t2 * t3 and so on *)
Definition fqmul (p q : fquat) : fquat :=
  let lane (b0 : nat) (s1 : float) (b1 : nat) (s2 : float) (b2 : nat) (s3 : float) (b3 : nat) :=
    let m0 := fmul (p 0) (q b0) in
    let m1 := fmul (fmul s1 (p 1)) (q b1) in
    let m2 := fmul (fmul s2 (p 2)) (q b2) in
    let m3 := fmul (fmul s3 (p 3)) (q b3) in
    fadd (fadd (fadd m0 m1) m2) m3 in
  fun i => match i with
  | 0 => lane 0 fmone 1 fmone 2 fmone 3
  | 1 => lane 1 fone 0 fone 3 fmone 2
  | 2 => lane 2 fmone 3 fone 0 fone 1
  | _ => lane 3 fone 2 fmone 1 fone 0
  end.
(* a product q0 * q1 * ... * qn, from the left *)
Definition fqchain (p : fquat) (qs : list fquat) : fquat := fold_left fqmul qs p.
(* Quaternion/Math.hpp:77-82 Conj *)
Definition fqconj (q : fquat) : fquat := fun i => fmul (q i) (match i with 0 => fone | _ => fmone end).
(* Quaternion/Math.hpp:33-36 LengthSquared ([pad]: padding); Math.hpp:121-126 Inverse, Arithmetic.hpp:132-138 division by a scalar *)
Definition fqlength_squared (pad : nat) (q : fquat) (r : float) : Prop := flength_squared prec emax prec_gt_0_ prec_lt_emax_ pad (map q (seq 0 4)) r.
Definition fqinverse (q : fquat) (len2 : float) : fquat := fun i => fdiv (fqconj q i) len2.
(* Quaternion/RotationArithmetic.hpp:19-26 operator(): the quaternion [rotated], of which the vector part is returned; [v] is given
   by elements 1, 2, 3 *)
Definition fqpure (v : fquat) : fquat := fun i => match i with 0 => fzero | _ => v i end.
Definition fqrotate (pad : nat) (q v : fquat) (len2 : float) (r : fquat) : Prop :=
  fqlength_squared pad q len2 /\ r = fqmul (fqmul q (fqpure v)) (fqinverse q len2).
End FloatQ.
