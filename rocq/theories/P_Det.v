(* Determinants of matrices given by a function on naturals: Laplace expansion along the first row,
   closed formulas for sizes 1 to 4. *)
From mathcomp Require Import all_ssreflect all_algebra.
From mathcomp Require Import ring.
Set Implicit Arguments. Unset Strict Implicit. Unset Printing Implicit Defensive.
Import GRing.Theory.
Local Open Scope ring_scope.

Section DetF.
Variable R : comRingType.
Implicit Types f g : nat -> nat -> R.

Definition mxf m n f : 'M[R]_(m, n) := \matrix_(i, j) f i j.
Definition detf n f : R := \det (mxf n n f).
(* drop column j *)
Definition skip (j k : nat) : nat := if (k < j)%N then k else k.+1.

Lemma eq_detf n f g : (forall i j, (i < n)%N -> (j < n)%N -> f i j = g i j) -> detf n f = detf n g.
Proof. by move=> h; congr (\det _); apply/matrixP => i j; rewrite !mxE h. Qed.

Lemma bumpE (j k : nat) : bump j k = skip j k.
Proof. by rewrite /bump /skip; case: leqP. Qed.

Lemma detf_rec n f : detf n.+1 f =
  \sum_(j < n.+1) f 0%N j * ((-1) ^+ j * detf n (fun i k => f i.+1 (skip j k))).
Proof.
rewrite /detf (expand_det_row _ ord0); apply: eq_bigr => j _; rewrite mxE; congr (_ * _).
rewrite /cofactor /= add0n; congr (_ * \det _).
by apply/matrixP => i k; rewrite !mxE /= /bump leq0n add1n; congr f; rewrite -bumpE.
Qed.

Lemma detf0 f : detf 0 f = 1. Proof. exact: det_mx00. Qed.

Lemma detf1 f : detf 1 f = f 0%N 0%N.
Proof. by rewrite detf_rec big_ord1 detf0 expr0 !mulr1. Qed.

Lemma detf2 f : detf 2 f = f 0%N 0%N * f 1%N 1%N - f 0%N 1%N * f 1%N 0%N.
Proof. by rewrite detf_rec !big_ord_recl big_ord0 /= !detf1 /skip /bump /= ?add1n; ring. Qed.

Lemma detf3 f : detf 3 f =
  f 0%N 0%N * (f 1%N 1%N * f 2%N 2%N - f 1%N 2%N * f 2%N 1%N)
  - f 0%N 1%N * (f 1%N 0%N * f 2%N 2%N - f 1%N 2%N * f 2%N 0%N)
  + f 0%N 2%N * (f 1%N 0%N * f 2%N 1%N - f 1%N 1%N * f 2%N 0%N).
Proof. by rewrite detf_rec !big_ord_recl big_ord0 /= !detf2 /skip /bump /= ?add1n; ring. Qed.

Lemma detf4 f : detf 4 f =
    f 0%N 0%N * detf 3 (fun i k => f i.+1 (skip 0 k))
  - f 0%N 1%N * detf 3 (fun i k => f i.+1 (skip 1 k))
  + f 0%N 2%N * detf 3 (fun i k => f i.+1 (skip 2 k))
  - f 0%N 3%N * detf 3 (fun i k => f i.+1 (skip 3 k)).
Proof.
rewrite detf_rec !big_ord_recl big_ord0 /= /bump /=.
rewrite !addrA addr0 expr0 mul1r expr1 mulN1r mulrN.
by rewrite -[(-1) ^+ 2]/((-1) ^+ (0 + 2)) sqrrN expr1n mul1r -signr_odd /= expr1 mulN1r mulrN.
Qed.
End DetF.
