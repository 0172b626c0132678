(* Normalisation of floating point scalars, Common/MathUtil.hpp. Formats, rounding and simplifications as in M_Float.v. A complex
   number is the pair of its parts. *)
From Coq Require Import ZArith.
From Flocq Require Import Core IEEE754.BinarySingleNaN.
From Verif Require Import M_Float M_FloatN.

Section FloatC.
Variables prec emax : Z.
Context (prec_gt_0_ : Prec_gt_0 prec) (prec_lt_emax_ : Prec_lt_emax prec emax).
Notation float := (binary_float prec emax).
Notation fadd := (fadd prec emax prec_gt_0_ prec_lt_emax_).
Notation fmul := (fmul prec emax prec_gt_0_ prec_lt_emax_).
Notation fdiv := (fdiv prec emax prec_gt_0_ prec_lt_emax_).
Notation fsqrt := (fsqrt prec emax prec_gt_0_ prec_lt_emax_).
Notation fzero := (fzero prec emax).
Notation fone := (fone prec emax prec_gt_0_ prec_lt_emax_).

(* std::max(a, b), that is (a < b) ? b : a *)
Definition std_max (a b : float) : float := if flt prec emax a b then b else a.
(* std::complex<T> * T, std::complex<T> / T: by parts *)
Definition cmul_real (z : float * float) (s : float) : float * float := (fmul (fst z) s, fmul (snd z) s).
Definition cdiv_real (z : float * float) (s : float) : float * float := (fdiv (fst z) s, fdiv (snd z) s).
(* std::norm: the sum of the squares of the parts *)
Definition cnorm (z : float * float) : float := fadd (fmul (fst z) (fst z)) (fmul (snd z) (snd z)).

(* Common/MathUtil.hpp:24-27 Normalize of a real number: std::copysign(1, x). The sign of a NaN is not modelled. *)
Definition normalize_real (x : float) : float := if Bsign x then Bopp fone else fone.
(* Common/MathUtil.hpp:30-38 Normalize of a complex number *)
Definition normalize_complex (z : float * float) : float * float :=
  let absReal := fabs prec emax (fst z) in
  let absImag := fabs prec emax (snd z) in
  let prescaler := fdiv fone (std_max absReal absImag) in
  let zp := cmul_real z prescaler in
  let mag := fsqrt (cnorm zp) in
  if is_finite mag then cdiv_real zp mag else (fone, fzero).
End FloatC.
