(* Solve and Inverse of the QR and LQ decompositions of real matrices in floating point, Decompositions/DecomposeQR.hpp. Formats,
   rounding and simplifications as in M_Float.v, matrix products as in M_FloatS.v, triangular systems as in M_FloatLU.v. *)
From Coq Require Import ZArith List Arith.
From Flocq Require Import Core IEEE754.BinarySingleNaN.
From Verif Require Import M_Float M_FloatN M_FloatS M_FloatLU M_FloatQR.
Import ListNotations.

Section FloatQRS.
Variables prec emax : Z.
Context (prec_gt_0_ : Prec_gt_0 prec) (prec_lt_emax_ : Prec_lt_emax prec emax).
Notation float := (binary_float prec emax).
Notation fmat := (fmat prec emax).
Variable fused : bool.
Notation fproduct := (fproduct prec emax prec_gt_0_ prec_lt_emax_).
Notation fsolve_upper := (fsolve_upper prec emax prec_gt_0_ prec_lt_emax_ fused).
Notation ftranspose := (ftranspose prec emax).
Notation fidentity := (fidentity prec emax prec_gt_0_ prec_lt_emax_).

(* DecomposeQR.hpp:75-88 Solve and 101-105 SolveUnordered, for the m x c right hand side [b]; [y] is ConjTranspose(Q) * b. [rm1], [rm2]: the
   layouts of the factors of the product, [pad]: its padding *)
Definition fqr_solve (rm1 rm2 : bool) (pad m n c : nat) (Q R b y x : fmat) : Prop :=
  (forall i j, (i < n)%nat -> (j < c)%nat -> fproduct rm1 rm2 fused pad m (ftranspose Q) b i j (y i j)) /\
  x = fsolve_upper n R y.
(* DecomposeQR.hpp:91-98 Inverse; the order of the matrices is set to PRECEDE_VECTOR before the system is solved *)
Definition fqr_inverse (rm1 rm2 : bool) (pad m n : nat) (Q R X : fmat) : Prop :=
  let Rinv := fsolve_upper n R fidentity in
  forall i j, (i < n)%nat -> (j < m)%nat -> fproduct rm1 rm2 fused pad n Rinv (ftranspose Q) i j (X i j).
(* DecomposeQR.hpp:253-259 DecomposeLQ, 153-175 DecompositionLQ: everything is done by the QR decomposition of the transpose
   (FlipLayoutAndOrder) *)
Definition fdecompose_lq (fmax : float -> float -> float) (rowmajor : bool) (pa pm ps m n : nat) (A : fmat) (scaler : float) (norms : list (float * float)) (QT R Lout Qout : fmat) : Prop :=
  fdecompose_qr prec emax prec_gt_0_ prec_lt_emax_ fmax fused (negb rowmajor) pa pm ps n m (ftranspose A) scaler norms QT R (ftranspose Qout) (ftranspose Lout).
Definition flq_solve (rm1 rm2 : bool) (pad m n c : nat) (L Q b y x : fmat) : Prop :=
  fqr_solve rm1 rm2 pad n m c (ftranspose Q) (ftranspose L) (ftranspose b) (ftranspose y) (ftranspose x).
Definition flq_inverse (rm1 rm2 : bool) (pad m n : nat) (L Q X : fmat) : Prop :=
  fqr_inverse rm1 rm2 pad n m (ftranspose Q) (ftranspose L) (ftranspose X).
End FloatQRS.
