(* Projections in floating point, Transforms/OrthographicBuilder.hpp and PerspectiveBuilder.hpp. Formats, rounding and simplifications as in M_Float.v. *)
From Coq Require Import ZArith Arith.
From Flocq Require Import Core IEEE754.BinarySingleNaN.
From Verif Require Import M_Float M_FloatTriangle M_FloatQ M_FloatQM M_FloatN.

Section FloatOrtho.
Variables prec emax : Z.
Context (prec_gt_0_ : Prec_gt_0 prec) (prec_lt_emax_ : Prec_lt_emax prec emax).
Notation float := (binary_float prec emax).
Notation fadd := (fadd prec emax prec_gt_0_ prec_lt_emax_).
Notation fsub := (fsub prec emax prec_gt_0_ prec_lt_emax_).
Notation fmul := (fmul prec emax prec_gt_0_ prec_lt_emax_).
Notation fdiv := (fdiv prec emax prec_gt_0_ prec_lt_emax_).
Notation fneg := (fneg prec emax prec_gt_0_ prec_lt_emax_).
Notation fhalf := (fhalf prec emax prec_gt_0_ prec_lt_emax_).
Notation ftwo := (ftq2 prec emax prec_gt_0_ prec_lt_emax_).
(* OrthographicBuilder.hpp:51-55 Set: volumeSize, scale and offset, one coordinate [i] of [dim]; near and far are the planes of the
   projection. Unary minus of a vector is Vector/Arithmetic.hpp:214-217. The matrix (57-61) holds these numbers: scale on the
   diagonal, offset in the last row or column; see M_Transform.v *)
Definition fvolume (mn mx : nat -> float) (i : nat) : float := fsub (mx i) (mn i).
Definition fortho_scale (dim : nat) (mn mx : nat -> float) (near far : float) (i : nat) : float :=
  let scale := fdiv ftwo (fvolume mn mx i) in
  if S i =? dim then fmul scale (fmul fhalf (fsub far near)) else scale.
Definition fortho_offset (dim : nat) (mn mx : nat -> float) (near far : float) (i : nat) : float :=
  let offset := fmul (fdiv (fneg (fadd (mx i) (mn i))) ftwo) (fortho_scale dim mn mx near far i) in
  if S i =? dim then fadd offset (fdiv (fadd far near) ftwo) else offset.
(* PerspectiveBuilder.hpp:43-49 Set: the elements A, B and C of the depth. Simplified: the matrix and the builder have the same scalar
   type. The other elements (50-55, with std::tan) are not modelled in floating point; the order of the matrix (57-61) is in
   M_Transform.v *)
Definition fpersp_C (N : float) : float := if flt prec emax N (fzero prec emax) then fmone prec emax prec_gt_0_ prec_lt_emax_ else fone prec emax prec_gt_0_ prec_lt_emax_.
Definition fpersp_A (N F n f : float) : float := fdiv (fmul (fpersp_C N) (fsub (fmul f F) (fmul n N))) (fsub F N).
Definition fpersp_B (N F n f : float) : float := fdiv (fmul (fmul (fmul (fpersp_C N) F) N) (fsub n f)) (fsub F N).
End FloatOrtho.
