(* Fixed-width integers as elements of SIMD vectors (lanes of M_Simd).
   Sources: include/Mathter/Vector/{Arithmetic,OperationUtil}.hpp with T = std::int8_t ... std::int64_t and unsigned.

   An element is a [Z]. The width [w] in bits is a parameter. *)
From Coq Require Import ZArith.
From mathcomp Require Import all_ssreflect.
From Verif Require Import M_Simd.
Set Implicit Arguments. Unset Strict Implicit. Unset Printing Implicit Defensive.

Definition int_min (w : Z) : Z := (- 2 ^ (w - 1))%Z.
Definition int_max (w : Z) : Z := (2 ^ (w - 1) - 1)%Z.

(* the batch operators + - * of xsimd on integers wrap around (two's complement) *)
Definition wrap (w x : Z) : Z := ((x - int_min w) mod 2 ^ w + int_min w)%Z.
Definition int_add (w x y : Z) : Z := wrap w (x + y).
Definition int_sub (w x y : Z) : Z := wrap w (x - y).
Definition int_mul (w x y : Z) : Z := wrap w (x * y).

(* The quotient of one lane of lhs / rhs, Vector/Arithmetic.hpp:36-46. A division by zero and the quotient
   INT_MIN / -1, which is not representable, are undefined ([None]; the x86 instruction idiv faults on both). *)
Definition int_div (w x y : Z) : option Z :=
  if Z.eqb y 0 || (Z.eqb x (int_min w) && Z.eqb y (-1)) then None else Some (Z.quot x y).
(* the same for unsigned types *)
Definition uint_div (x y : Z) : option Z := if Z.eqb y 0 then None else Some (Z.div x y).

(* Vector/Arithmetic.hpp:58-63,143-146 vector OP scalar with a wrapping operator: the broadcast constructor, then DoBinaryOp *)
Definition vec_op_scalar (f : Z -> Z -> Z) (junk : Z) (simd batched : bool) (n dim : nat) (lhs : seq Z) (s : Z) : seq Z :=
  do_binary junk junk 0%Z simd n dim f lhs (ctor_all junk 0%Z batched n dim s).
