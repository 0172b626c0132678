(* The one-sided Jacobi SVD of real matrices in floating point, Decompositions/DecomposeSVD.hpp. Formats, rounding and simplifications
   as in M_Float.v, reductions as in M_FloatN.v, the QR decomposition as in M_FloatQR.v; matrices are given by their elements. *)
From Coq Require Import ZArith List Arith Bool Permutation.
From Flocq Require Import Core IEEE754.BinarySingleNaN.
From Verif Require Import M_Float M_FloatN M_FloatS M_FloatLU M_FloatQR.
Import ListNotations.

Section FloatSVD.
Variables prec emax : Z.
Context (prec_gt_0_ : Prec_gt_0 prec) (prec_lt_emax_ : Prec_lt_emax prec emax).
Notation float := (binary_float prec emax).
Notation fadd := (fadd prec emax prec_gt_0_ prec_lt_emax_).
Notation fsub := (fsub prec emax prec_gt_0_ prec_lt_emax_).
Notation fmul := (fmul prec emax prec_gt_0_ prec_lt_emax_).
Notation fdiv := (fdiv prec emax prec_gt_0_ prec_lt_emax_).
Notation fsqrt := (fsqrt prec emax prec_gt_0_ prec_lt_emax_).
Notation fabs := (fabs prec emax).
Notation fzero := (fzero prec emax).
Notation fone := (fone prec emax prec_gt_0_ prec_lt_emax_).
Notation flt := (flt prec emax).
Notation fneq := (fneq prec emax).
Notation fmat := (fmat prec emax).
Notation std_fmax := (std_fmax prec emax).
Notation column_of := (column_of prec emax).
(* the maximum used by the reductions and contraction in the QR decomposition, see M_FloatN.v and M_FloatS.v *)
Variable fmax : float -> float -> float.
Variable fused : bool.
(* std::hypot of three arguments; the C++ standard does not say how accurate it is *)
Variable hypot3 : float -> float -> float -> float.

Definition fconst (m e : Z) : float := binary_normalize prec emax prec_gt_0_ prec_lt_emax_ mode_NE m e false.
(* std::copysign *)
Definition fcopysign (x y : float) : float := if Bsign y then Bopp (fabs x) else fabs x.

(* DecomposeSVD.hpp:186-208 DiagonalizeHermitian2x2, without its assertion; std::imag of a real number is zero, std::norm its square *)
Definition fdiagonalize (a11 aoff a22 : float) : float * float :=
  if fneq aoff fzero then
    let z := fsub a22 a11 in
    let d := hypot3 z (fmul (fconst 2 0) aoff) (fmul (fconst 2 0) fzero) in
    let Lma11 := fmul (fconst 1 (-1)) (fadd z (fcopysign d z)) in
    let cv := fdiv aoff Lma11 in
    let sv := fone in
    let scale := fsqrt (fadd (fmul cv cv) (fmul sv sv)) in
    (fdiv cv scale, fdiv sv scale)
  else (fone, fzero).
(* DecomposeSVD.hpp:160-178 MinimizeDiagonalizingRotation *)
Definition fminimize (cs : float * float) : float * float :=
  let '(cv, sv) := cs in
  let swap := flt (fabs cv) (fabs sv) in
  let '(cv, sv) := if swap then (Bopp sv, cv) else (cv, sv) in
  let cvMag := if swap then fabs (snd cs) else fabs (fst cs) in
  let q := fdiv cv cvMag in
  (fmul q cv, fmul q sv).
(* DecomposeSVD.hpp:343-349 GivensRotateRight with det = 1: columns p and q of X *)
Definition fgivens_right (X : fmat) (p q : nat) (cv sv : float) : fmat := fun i j =>
  if Nat.eqb j p then fadd (fmul (X i p) cv) (fmul (X i q) sv)
  else if Nat.eqb j q then fmul fone (fsub (fmul (X i q) cv) (fmul (X i p) sv))
  else X i j.
(* DecomposeSVD.hpp:352-358 GivensRotateLeft with det = 1: rows p and q of V *)
Definition fgivens_left (V : fmat) (p q : nat) (cv sv : float) : fmat := fun i j =>
  if Nat.eqb i p then fsub (fmul (V p j) cv) (fmul (fmul fone (V q j)) sv)
  else if Nat.eqb i q then fadd (fmul (fmul fone (V q j)) cv) (fmul (V p j) sv)
  else V i j.

(* DecomposeSVD.hpp:419-425 TransposeMultiplyPartial and 450-460 the body of the loop over the pairs; state: X, V, maxError. [pad]:
   padding of the sums *)
Definition fsvd_pair (pad m : nat) (pq : nat * nat) (st st' : (fmat * fmat) * float) : Prop :=
  let '(X, V, maxError) := st in let '(p, q) := pq in
  exists ata11 ataoff ata22, fdot prec emax prec_gt_0_ prec_lt_emax_ pad (column_of m X p) (column_of m X p) ata11 /\
    fdot prec emax prec_gt_0_ prec_lt_emax_ pad (column_of m X p) (column_of m X q) ataoff /\
    fdot prec emax prec_gt_0_ prec_lt_emax_ pad (column_of m X q) (column_of m X q) ata22 /\
    let error := fabs ataoff in
    if fneq error fzero then
      let '(cv, sv) := fminimize (fdiagonalize ata11 ataoff ata22) in
      st' = ((fgivens_right X p q cv sv, fgivens_left V p q cv (Bopp sv)), std_fmax maxError error)
    else st' = st.
(* DecomposeSVD.hpp:448-449 the pairs p < q *)
Definition svd_pairs (n : nat) : list (nat * nat) := flat_map (fun p => map (fun q => (p, q)) (seq (S p) (n - S p))) (seq 0 n).
Fixpoint fsvd_sweep (pad m : nat) (pairs : list (nat * nat)) (st st' : (fmat * fmat) * float) : Prop :=
  match pairs with
  | [] => st' = st
  | pq :: pairs => exists st1, fsvd_pair pad m pq st st1 /\ fsvd_sweep pad m pairs st1 st'
  end.
(* DecomposeSVD.hpp:443-462 the while loop, [k]: the number of sweeps *)
Inductive fsvd_loop (pad m n : nat) : nat -> float -> float -> fmat -> fmat -> fmat -> fmat -> Prop :=
| svd_stop maxError maxErrorPrev X V : flt maxError maxErrorPrev = false -> fsvd_loop pad m n 0 maxError maxErrorPrev X V X V
| svd_more k maxError maxErrorPrev X V X1 V1 e1 X' V' : flt maxError maxErrorPrev = true ->
    fsvd_sweep pad m (svd_pairs n) (X, V, fzero) (X1, V1, e1) -> fsvd_loop pad m n k e1 maxError X1 V1 X' V' ->
    fsvd_loop pad m n (S k) maxError maxErrorPrev X V X' V'.
(* DecomposeSVD.hpp:464-512 sorting, normalisation of the columns and, if some are small, the QR decomposition. [sigma]: the order
   found by std::sort; [ps]: padding of Length; [qa], [qm], [qs]: see fdecompose_qr *)
Definition fge (x y : float) : bool := match Bcompare x y with Some Gt => true | Some Eq => true | _ => false end.
Definition fsvd_normalize (sorted : fmat) (S : nat -> float) : fmat := fun i j => if fneq (S j) fzero then fdiv (sorted i j) (S j) else sorted i j.
Definition fsvd_threshold (S : nat -> float) : float := fmul (S 0) (fsqrt (fconst 1 (1 - prec))).
Definition fsvd_finish (ps qa qm qs m n : nat) (scaler : float) (sigma : nat -> nat) (X V U : fmat) (S : nat -> float) (Vout : fmat) : Prop :=
  exists lens, (forall i, i < n -> flength prec emax prec_gt_0_ prec_lt_emax_ ps (column_of m X i) (lens i)) /\
    Permutation (map sigma (seq 0 n)) (seq 0 n) /\ (forall i j, i < j < n -> fgt prec emax (lens (sigma j)) (lens (sigma i)) = false) /\
    let S0 := fun i => lens (sigma i) in
    let X1 := fsvd_normalize (fun i j => X i (sigma j)) S0 in
    Vout = (fun i j => V (sigma i) j) /\
    if forallb (fun i => fge (S0 i) (fsvd_threshold S0)) (seq 0 n) then
      U = X1 /\ S = (fun i => fmul (S0 i) scaler)
    else exists qscaler norms QT R Q Rout,
      fdecompose_qr prec emax prec_gt_0_ prec_lt_emax_ fmax fused false qa qm qs m n X1 qscaler norms QT R Q Rout /\
      U = Q /\ S = (fun i => fmul (fcopysign (S0 i) (Rout i i)) scaler).
(* DecomposeSVD.hpp:428-513 DecomposeSVDJacobiOneSided for m >= n; std::nextafter(max, 0) is the number below max() *)
Definition fdecompose_svd (rowmajor : bool) (pa pad ps qa qm qs m n k : nat) (A : fmat) (scaler : float) (X V : fmat) (sigma : nat -> nat) (U : fmat) (S : nat -> float) (Vout : fmat) : Prop :=
  fscale_stripes prec emax fmax pa (stripes prec emax rowmajor m n A) fzero scaler /\
  fsvd_loop pad m n k (Bpred (fmax_value prec emax prec_gt_0_ prec_lt_emax_)) (fmax_value prec emax prec_gt_0_ prec_lt_emax_)
    (fun i j => fdiv (A i j) scaler) (fidentity prec emax prec_gt_0_ prec_lt_emax_) X V /\
  fsvd_finish ps qa qm qs m n scaler sigma X V U S Vout.
End FloatSVD.
