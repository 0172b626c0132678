(* The QR decomposition of real matrices in floating point, Decompositions/DecomposeQR.hpp. Formats, rounding and simplifications as
   in M_Float.v, lengths as in M_FloatN.v, matrix products as in M_FloatS.v; matrices and vectors are given by their elements. *)
From Coq Require Import ZArith List Arith.
From Flocq Require Import Core IEEE754.BinarySingleNaN.
From Verif Require Import M_Float M_FloatN M_FloatS M_FloatLU.
Import ListNotations.

Section FloatQR.
Variables prec emax : Z.
Context (prec_gt_0_ : Prec_gt_0 prec) (prec_lt_emax_ : Prec_lt_emax prec emax).
Notation float := (binary_float prec emax).
Notation fsub := (fsub prec emax prec_gt_0_ prec_lt_emax_).
Notation fmul := (fmul prec emax prec_gt_0_ prec_lt_emax_).
Notation fdiv := (fdiv prec emax prec_gt_0_ prec_lt_emax_).
Notation fadd := (fadd prec emax prec_gt_0_ prec_lt_emax_).
Notation fzero := (fzero prec emax).
Notation fone := (fone prec emax prec_gt_0_ prec_lt_emax_).
Notation flt := (flt prec emax).
Notation fneq := (fneq prec emax).
Notation fmat := (fmat prec emax).
Notation frun := (frun prec emax prec_gt_0_ prec_lt_emax_).
(* the maximum used by the reductions of vectors, see M_FloatN.v; [fused]: see madd in M_FloatS.v *)
Variable fmax : float -> float -> float.
Variable fused : bool.
Notation fscale := (fscale prec emax fmax).
Notation flength_precise := (flength_precise prec emax prec_gt_0_ prec_lt_emax_ fmax).

Definition elements (m : nat) (x : nat -> float) : list float := map x (seq 0 m).
Definition ftwo : float := fadd fone fone.

(* DecomposeQR.hpp:177-201 HouseholderReflection of column k: the sign, the vector u, and the vector returned. [pm], [ps]: padding *)
Definition hh_column (R : fmat) (k : nat) : nat -> float := fun i => if Nat.ltb i k then fzero else R i k.
Definition hh_alpha (pivot normX : float) : float :=
  let mag := fabs prec emax pivot in
  let sign := if fneq mag fzero then Bopp (fdiv pivot mag) else fone in
  fmul sign normX.
Definition hh_u (R : fmat) (k : nat) (normX : float) : nat -> float :=
  let x := hh_column R k in
  fun i => if Nat.eqb i k then fsub (x k) (hh_alpha (x k) normX) else x i.
Definition hh_v (u : nat -> float) (k : nat) (normU : float) : nat -> float :=
  if fneq normU fzero then fun i => fdiv (u i) normU
  else fun i => if Nat.eqb i k then fone else u i.
Definition fhouseholder (pm ps m k : nat) (R : fmat) (normX normU : float) (v : nat -> float) : Prop :=
  flength_precise pm ps (elements m (hh_column R k)) normX /\
  let u := hh_u R k normX in
  flength_precise pm ps (elements m u) normU /\ v = hh_v u k normU.
(* DecomposeQR.hpp:233-234 R - 2 vm (vmT R). The factors have the same layout: products accumulate over runIdx, Arithmetic.hpp:30-33
   and 67-70 *)
Definition freflect (m : nat) (v : nat -> float) (X : fmat) : fmat :=
  fun i j => let w := frun fused (elements m v) (column_of prec emax m X j) in
             fsub (X i j) (frun fused [fmul ftwo (v i)] [w]).
(* DecomposeQR.hpp:229-235 the loop over the columns [ks]; state: QT, R; [norms] lists normX, normU of the iterations *)
Fixpoint fqr_loop (pm ps m : nat) (ks : list nat) (norms : list (float * float)) (st : fmat * fmat) (st' : fmat * fmat) : Prop :=
  match ks, norms with
  | [], [] => st' = st
  | k :: ks, (normX, normU) :: norms => exists v, fhouseholder pm ps m k (snd st) normX normU v /\
      fqr_loop pm ps m ks norms (freflect m v (fst st), freflect m v (snd st)) st'
  | _, _ => False
  end.
(* Matrix/Math.hpp:42-50 ScaleElements: [stripes] of the matrix, std::max; DecomposeQR.hpp:222 *)
Definition std_fmax (x y : float) : float := if flt x y then y else x.
Fixpoint fscale_stripes (pm : nat) (stripes : list (list float)) (scale r : float) : Prop :=
  match stripes with
  | [] => r = scale
  | s :: stripes => exists t, fscale pm s t /\ fscale_stripes pm stripes (std_fmax scale t) r
  end.
Definition stripes (rowmajor : bool) (m n : nat) (A : fmat) : list (list float) :=
  if rowmajor then map (fun i => elements n (A i)) (seq 0 m) else map (fun j => elements m (fun i => A i j)) (seq 0 n).
(* DecomposeQR.hpp:210-248 for m >= n. [QT], [R]: the matrices after the loop; [Qout] and [Rout]: the result, m x n and n x n *)
Definition fdecompose_qr (rowmajor : bool) (pa pm ps m n : nat) (A : fmat) (scaler : float) (norms : list (float * float)) (QT R Qout Rout : fmat) : Prop :=
  (exists t, fscale_stripes pa (stripes rowmajor m n A) fzero t /\ scaler = std_fmax (fmin_normal prec emax prec_gt_0_ prec_lt_emax_) t) /\
  fqr_loop pm ps m (seq 0 n) norms (fidentity prec emax prec_gt_0_ prec_lt_emax_, fun i j => fdiv (A i j) scaler) (QT, R) /\
  Qout = (fun i j => QT j i) /\
  Rout = (fun i j => fmul scaler (if Nat.ltb j i then fzero else R i j)).
End FloatQR.
