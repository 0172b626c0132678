(* The conversions of a quaternion to a matrix and back in floating point, Quaternion/Quaternion.hpp. Formats, rounding and simplifications as
   in M_Float.v, quaternions as in M_FloatQ.v. *)
From Coq Require Import ZArith.
From Flocq Require Import Core IEEE754.BinarySingleNaN.
From Verif Require Import M_Float M_FloatN M_FloatQ M_FloatTriangle.

Section FloatQM.
Variables prec emax : Z.
Context (prec_gt_0_ : Prec_gt_0 prec) (prec_lt_emax_ : Prec_lt_emax prec emax).
Notation float := (binary_float prec emax).
Notation fadd := (fadd prec emax prec_gt_0_ prec_lt_emax_).
Notation fsub := (fsub prec emax prec_gt_0_ prec_lt_emax_).
Notation fmul := (fmul prec emax prec_gt_0_ prec_lt_emax_).
Notation fdiv := (fdiv prec emax prec_gt_0_ prec_lt_emax_).
Notation fsqrt := (fsqrt prec emax prec_gt_0_ prec_lt_emax_).
Notation fhalf := (fhalf prec emax prec_gt_0_ prec_lt_emax_).
Notation fone := (fone prec emax prec_gt_0_ prec_lt_emax_).
(* the constant TQ(2) *)
Definition ftq2 : float := binary_normalize prec emax prec_gt_0_ prec_lt_emax_ mode_NE 2 0 false.
(* Quaternion/Quaternion.hpp:132-146 QuaternionToMatrix: elem(row, col) for row, col < 3. Simplified: the matrix and the quaternion
   have the same scalar type, so that the static_cast does nothing; the order of the matrix (elem transposes) and the remaining rows
   and columns (148-153), which are exact, are in M_Quat.v *)
Definition fqmatrix (q : fquat prec emax) : nat -> nat -> float :=
  let s := q 0 in let i := q 1 in let j := q 2 in let k := q 3 in
  fun row col => match row, col with
  | 0, 0 => fsub fone (fmul ftq2 (fadd (fmul j j) (fmul k k)))
  | 0, 1 => fmul ftq2 (fsub (fmul i j) (fmul k s))
  | 0, _ => fmul ftq2 (fadd (fmul i k) (fmul j s))
  | 1, 0 => fmul ftq2 (fadd (fmul i j) (fmul k s))
  | 1, 1 => fsub fone (fmul ftq2 (fadd (fmul i i) (fmul k k)))
  | 1, _ => fmul ftq2 (fsub (fmul j k) (fmul i s))
  | _, 0 => fmul ftq2 (fsub (fmul i k) (fmul j s))
  | _, 1 => fmul ftq2 (fadd (fmul j k) (fmul i s))
  | _, _ => fsub fone (fmul ftq2 (fadd (fmul i i) (fmul j j)))
  end.
(* the constant TM(4) *)
Definition ftm4 : float := binary_normalize prec emax prec_gt_0_ prec_lt_emax_ mode_NE 4 0 false.
(* Quaternion/Quaternion.hpp:155-168 MatrixToQuaternion; [m row col] is elem(row, col), simplified as above *)
Definition ftrace1 (m : nat -> nat -> float) : float := fadd (fadd (fadd fone (m 0 0)) (m 1 1)) (m 2 2).
Definition fmatrix_quat (m : nat -> nat -> float) : fquat prec emax :=
  let s := fmul (fsqrt (ftrace1 m)) fhalf in
  let div := fdiv fone (fmul ftm4 s) in
  fun i => match i with
  | 0 => s
  | 1 => fmul (fsub (m 2 1) (m 1 2)) div
  | 2 => fmul (fsub (m 0 2) (m 2 0)) div
  | _ => fmul (fsub (m 1 0) (m 0 1)) div
  end.
End FloatQM.
