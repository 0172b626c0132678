(* Lemmas for C95: the residual of a system solved with factors Q and R, over the reals. *)
From Coq Require Import List Arith Reals Lia Lra.
From Verif Require Import P_FloatTri P_Norm P_FloatQRL.
Import ListNotations.
Local Open Scope R_scope.
Notation S n f := (lsum f (seq 0 n)).

Lemma assoc n m (f : nat -> R) (g : nat -> nat -> R) (h : nat -> R) :
  S n (fun l => f l * S m (fun k => g l k * h k)) = S m (fun k => S n (fun l => f l * g l k) * h k).
Proof.
rewrite (lsum_ext _ (fun l => S m (fun k => f l * (g l k * h k)))) by (intros; rewrite lsum_scal; reflexivity).
rewrite lsum_swap; apply lsum_ext; intros k _; rewrite (Rmult_comm (lsum _ _)), <- lsum_scal; apply lsum_ext; intros; ring.
Qed.
Lemma dif n (c f g : nat -> R) : S n (fun k => c k * (f k - g k)) = S n (fun k => c k * f k) - S n (fun k => c k * g k).
Proof.
unfold Rminus; rewrite <- (Rmult_1_l (S n (fun k => c k * g k))), Ropp_mult_distr_l, <- lsum_scal, <- lsum_plus; apply lsum_ext; intros; ring.
Qed.
Lemma difr n (f g c : nat -> R) : S n (fun k => (f k - g k) * c k) = S n (fun k => f k * c k) - S n (fun k => g k * c k).
Proof.
rewrite (lsum_ext _ (fun k => c k * (f k - g k))) by (intros; ring); rewrite dif; f_equal; apply lsum_ext; intros; ring.
Qed.
Lemma Sb n (c f e : nat -> R) : (forall k, (k < n)%nat -> Rabs (f k) <= e k) -> Rabs (S n (fun k => c k * f k)) <= S n (fun k => Rabs (c k) * e k).
Proof.
intro h; apply Rle_trans with (1 := lsum_abs _ _); apply lsum_le; intros k hk; apply in_seq in hk; rewrite Rabs_mult.
apply Rmult_le_compat_l; [apply Rabs_pos|apply h; lia].
Qed.
Lemma Sbr n (c f e : nat -> R) : (forall k, (k < n)%nat -> Rabs (f k) <= e k) -> Rabs (S n (fun k => f k * c k)) <= S n (fun k => e k * Rabs (c k)).
Proof.
intro h; apply Rle_trans with (1 := lsum_abs _ _); apply lsum_le; intros k hk; apply in_seq in hk; rewrite Rabs_mult.
apply Rmult_le_compat_r; [apply Rabs_pos|apply h; lia].
Qed.

Section Solve.
Variables (m n : nat) (A Q R e : nat -> nat -> R).
Hypothesis hA : forall i j, (i < m)%nat -> (j < n)%nat -> Rabs (S n (fun l => Q i l * R l j) - A i j) <= e i j.

Section System.
Variables (b y x ep de : nat -> Rdefinitions.R).
Hypothesis hy : forall l, (l < n)%nat -> Rabs (y l - S m (fun k => Q k l * b k)) <= ep l.
Hypothesis hx : forall l, (l < n)%nat -> Rabs (y l - S n (fun j => R l j * x j)) <= de l.
Lemma solve_res W i : (i < m)%nat -> (forall k, (k < m)%nat -> Rabs (S n (fun l => Q i l * Q k l) - delta i k) <= W) ->
  Rabs (b i - S n (fun j => A i j * x j)) <= W * S m (fun k => Rabs (b k)) + S n (fun l => Rabs (Q i l) * (ep l + de l)) + S n (fun j => e i j * Rabs (x j)).
Proof.
intros hi hw.
replace (b i - S n (fun j => A i j * x j)) with
  ((S m (fun k => (delta i k - S n (fun l => Q i l * Q k l)) * b k) + S n (fun l => Q i l * ((S m (fun k => Q k l * b k) - y l) + (y l - S n (fun j => R l j * x j))))) +
   S n (fun j => (S n (fun l => Q i l * R l j) - A i j) * x j)).
- apply Rle_trans with (1 := Rabs_triang _ _), Rplus_le_compat.
  + apply Rle_trans with (1 := Rabs_triang _ _), Rplus_le_compat.
    * rewrite <- lsum_scal; apply Sbr; intros k hk; rewrite Rabs_minus_sym; apply hw, hk.
    * apply Sb; intros l hl; apply Rle_trans with (1 := Rabs_triang _ _), Rplus_le_compat; [rewrite Rabs_minus_sym; apply hy, hl|apply hx, hl].
  + apply Sbr; intros j hj; apply hA; assumption.
- rewrite !difr, (lsum_delta m b i hi).
  rewrite (lsum_ext (fun l => Q i l * _) (fun l => Q i l * (S m (fun k => Q k l * b k) - S n (fun j => R l j * x j)))) by (intros; ring).
  rewrite dif, (assoc n m (Q i) (fun l k => Q k l) b), (assoc n n (Q i) R x); ring.
Qed.
Lemma least_squares W l : (l < n)%nat -> (forall p, (p < n)%nat -> Rabs (S m (fun i => Q i l * Q i p) - delta l p) <= W) ->
  Rabs (S m (fun i => Q i l * (b i - S n (fun j => A i j * x j)))) <=
  ep l + de l + W * S n (fun p => Rabs (S n (fun j => R p j * x j))) + S m (fun i => Rabs (Q i l) * S n (fun j => e i j * Rabs (x j))).
Proof.
intros hl hw.
replace (S m (fun i => Q i l * (b i - S n (fun j => A i j * x j)))) with
  (((S m (fun i => Q i l * b i) - y l) + (y l - S n (fun j => R l j * x j)) + S n (fun p => (delta l p - S m (fun i => Q i l * Q i p)) * S n (fun j => R p j * x j))) +
   S m (fun i => Q i l * S n (fun j => (S n (fun p => Q i p * R p j) - A i j) * x j))).
- apply Rle_trans with (1 := Rabs_triang _ _), Rplus_le_compat.
  + apply Rle_trans with (1 := Rabs_triang _ _), Rplus_le_compat.
    * apply Rle_trans with (1 := Rabs_triang _ _), Rplus_le_compat; [rewrite Rabs_minus_sym; apply hy, hl|apply hx, hl].
    * rewrite <- lsum_scal; apply Sbr; intros p hp; rewrite Rabs_minus_sym; apply hw, hp.
  + apply Sb; intros i hi; apply Sbr; intros j hj; apply hA; assumption.
- rewrite difr, (lsum_delta n (fun p => S n (fun j => R p j * x j)) l hl).
  rewrite (lsum_ext (fun i => Q i l * S n (fun j => (S n (fun p => Q i p * R p j) - A i j) * x j))
    (fun i => Q i l * (S n (fun p => Q i p * S n (fun j => R p j * x j)) - S n (fun j => A i j * x j)))) by (intros; rewrite difr, <- assoc; reflexivity).
  rewrite !dif, (assoc m n (fun i => Q i l) Q (fun p => S n (fun j => R p j * x j))); ring.
Qed.
End System.
(* the residual against the columns of A *)
Lemma normal (r t : nat -> Rdefinitions.R) j : (j < n)%nat -> (forall l, (l < n)%nat -> Rabs (S m (fun i => Q i l * r i)) <= t l) ->
  Rabs (S m (fun i => A i j * r i)) <= S n (fun l => Rabs (R l j) * t l) + S m (fun i => e i j * Rabs (r i)).
Proof.
intros hj ht.
replace (S m (fun i => A i j * r i)) with (S n (fun l => R l j * S m (fun i => Q i l * r i)) - S m (fun i => (S n (fun l => Q i l * R l j) - A i j) * r i)).
- unfold Rminus; apply Rle_trans with (1 := Rabs_triang _ _); rewrite Rabs_Ropp; apply Rplus_le_compat; [apply Sb; exact ht|].
  apply Sbr; intros i hi; apply hA; assumption.
- rewrite difr, (assoc n m (fun l => R l j) (fun l i => Q i l) r).
  rewrite (lsum_ext (fun k => S n (fun l => R l j * Q k l) * r k) (fun k => S n (fun l => Q k l * R l j) * r k)).
  + ring.
  + intros k _; f_equal; apply lsum_ext; intros; ring.
Qed.
Lemma inverse_res (X Z ep de : nat -> nat -> Rdefinitions.R) i k : (i < m)%nat ->
  (forall j, (j < n)%nat -> Rabs (X j k - S n (fun p => Z j p * Q k p)) <= ep j k) ->
  (forall l p, (l < n)%nat -> (p < n)%nat -> Rabs (delta l p - S n (fun j => R l j * Z j p)) <= de l p) ->
  Rabs (S n (fun j => A i j * X j k) - S n (fun l => Q i l * Q k l)) <=
  S n (fun j => e i j * Rabs (X j k)) + S n (fun l => Rabs (Q i l) * (S n (fun j => Rabs (R l j) * ep j k) + S n (fun p => de l p * Rabs (Q k p)))).
Proof.
intros hi h1 h2.
replace (S n (fun j => A i j * X j k) - S n (fun l => Q i l * Q k l)) with
  (- S n (fun j => (S n (fun l => Q i l * R l j) - A i j) * X j k) +
   S n (fun l => Q i l * (S n (fun j => R l j * (X j k - S n (fun p => Z j p * Q k p))) - S n (fun p => (delta l p - S n (fun j => R l j * Z j p)) * Q k p)))).
- apply Rle_trans with (1 := Rabs_triang _ _); rewrite Rabs_Ropp; apply Rplus_le_compat; [apply Sbr; intros j hj; apply hA; assumption|].
  apply Sb; intros l hl; unfold Rminus at 1; apply Rle_trans with (1 := Rabs_triang _ _); rewrite Rabs_Ropp; apply Rplus_le_compat.
  + apply Sb; exact (fun j hj => h1 j hj).
  + apply Sbr; intros p hp; apply h2; assumption.
- rewrite difr, <- (assoc n n (Q i) R (fun j => X j k)).
  rewrite (lsum_ext (fun l => Q i l * (_ - _)) (fun l => Q i l * (S n (fun j => R l j * X j k) - Q k l))).
  + rewrite dif; ring.
  + intros l hl; apply in_seq in hl; f_equal; rewrite dif, difr, (lsum_delta n (fun p => Q k p) l) by lia.
    rewrite (assoc n n (R l) Z (Q k)); ring.
Qed.
End Solve.
