(* Floating point lengths and normalisation of vectors, Vector/Math.hpp. Formats, rounding and simplifications as in M_Float.v; real
   elements only. The order of the operations in xsimd::reduce_add, xsimd::reduce_max and std::reduce is unspecified: these are
   relations, any bracketing of any rotation of the lanes. *)
From Coq Require Import ZArith List.
From Flocq Require Import Core IEEE754.BinarySingleNaN.
From Verif Require Import M_Float.
Import ListNotations.

Section FloatN.
Variables prec emax : Z.
Context (prec_gt_0_ : Prec_gt_0 prec) (prec_lt_emax_ : Prec_lt_emax prec emax).
Notation float := (binary_float prec emax).
Notation fadd := (fadd prec emax prec_gt_0_ prec_lt_emax_).
Notation fmul := (fmul prec emax prec_gt_0_ prec_lt_emax_).
Notation fdiv := (fdiv prec emax prec_gt_0_ prec_lt_emax_).
Notation fzero := (fzero prec emax).
(* the maximum of two numbers, std::max or the instruction of the processor; what it returns for a NaN is not specified *)
Variable fmax : float -> float -> float.

(* x < y, x != y *)
Definition flt (x y : float) : bool := match Bcompare x y with Some Lt => true | _ => false end.
Definition fneq (x y : float) : bool := match Bcompare x y with Some Eq => false | _ => true end.
(* std::sqrt *)
Definition fsqrt (x : float) : float := Bsqrt mode_NE x.

(* reductions: as in M_Simd.v *)
Inductive freduce (op : float -> float -> float) : list float -> float -> Prop :=
| fred_one x : freduce op [x] x
| fred_app s1 s2 a b : freduce op s1 a -> freduce op s2 b -> freduce op (s1 ++ s2) (op a b)
| fred_swap s1 s2 a : freduce op (s1 ++ s2) a -> freduce op (s2 ++ s1) a.

(* Vector/Math.hpp:143-153 Sum: [pad] lanes of zero (the padding of a batch, or the initial value T{} of std::reduce) *)
Definition fsum (pad : nat) (v : list float) (r : float) : Prop := freduce fadd (v ++ repeat fzero pad) r.
(* Vector/Math.hpp:60-70 Max of the elements: [pad] lanes are filled with the first element *)
Definition fmaximum (pad : nat) (v : list float) (r : float) : Prop := freduce fmax (v ++ repeat (hd fzero v) pad) r.
(* Vector/Math.hpp:92-105 ScaleElements of a real vector *)
Definition fscale (pad : nat) (v : list float) (r : float) : Prop := fmaximum pad (map (fabs prec emax) v) r.
(* Vector/Arithmetic.hpp:58-63,144 vector / scalar *)
Definition fdivs (v : list float) (s : float) : list float := map (fun x => fdiv x s) v.
(* Vector/Math.hpp:177-180 Dot, 191-194 LengthSquared, 198-201 Length *)
Definition flength_squared (pad : nat) (v : list float) (r : float) : Prop := fsum pad (map (fun x => fmul x x) v) r.
Definition flength (pad : nat) (v : list float) (r : float) : Prop := exists q, flength_squared pad v q /\ r = fsqrt q.
(* std::clamp *)
Definition fclamp (x lo hi : float) : float := if flt x lo then lo else if flt hi x then hi else x.
(* std::numeric_limits<T>::min(), the smallest positive normal number, and max() *)
Definition fmin_normal : float := binary_normalize prec emax prec_gt_0_ prec_lt_emax_ mode_NE 1 (2 - emax) false.
Definition fmax_value : float := Bmax_float.

(* Vector/Math.hpp:206-213 LengthPrecise. [pm], [ps]: the number of padding lanes of the two reductions *)
Definition flength_precise (pm ps : nat) (v : list float) (r : float) : Prop :=
  exists scale len, fscale pm v scale /\
    let scale := fclamp scale fmin_normal fmax_value in
    flength ps (fdivs v scale) len /\ r = fmul len scale.
(* Vector/Math.hpp:225-228 DistancePrecise *)
Definition fsubs (lhs rhs : list float) : list float := map (fun p => fsub prec emax prec_gt_0_ prec_lt_emax_ (fst p) (snd p)) (combine lhs rhs).
Definition fdistance_precise (pm ps : nat) (lhs rhs : list float) (r : float) : Prop := flength_precise pm ps (fsubs lhs rhs) r.

(* Vector/Math.hpp:232-238 Normalize, without its assertion length != 0 *)
Definition fnormalize (ps : nat) (v r : list float) : Prop := exists len, flength ps v len /\ r = fdivs v len.
(* Vector/Math.hpp:244-251 NormalizePrecise with the vector to return for null vectors *)
Definition fnormalize_precise (pm ps : nat) (v degenerate r : list float) : Prop :=
  exists scale len, fscale pm v scale /\
    let scaled := fdivs v scale in
    flength ps scaled len /\
    r = if (is_finite len && fneq len fzero)%bool then fdivs scaled len else degenerate.
End FloatN.
