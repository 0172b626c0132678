(* Solving with the floating point LU and LUP decompositions *)
From Coq Require Import ZArith List Arith Bool Reals Lia Lra Psatz Permutation.
From Flocq Require Import Core IEEE754.BinarySingleNaN.
From Verif Require Import M_Float P_Float M_FloatN M_FloatLU P_FloatLU P_FloatTri P_FloatDec.
Import ListNotations.
Local Open Scope R_scope.

(* residuals of the two triangular systems and of the factors add up to the residual of the system *)
Lemma combine_residuals (n : nat) (C F G : nat -> nat -> R) (b y x v z : nat -> R) (w : nat -> nat -> R) (g : R) (i : nat) :
  let N := seq 0 n in 0 <= g ->
  (forall j, In j N -> Rabs (C i j - lsum (fun p => F i p * G p j) N) <= g * lsum (fun p => Rabs (F i p * G p j)) N + w i j) ->
  Rabs (b i - lsum (fun p => F i p * y p) N) <= g * lsum (fun p => Rabs (F i p * y p)) N + v i ->
  (forall p, In p N -> Rabs (y p - lsum (fun j => G p j * x j) N) <= g * lsum (fun j => Rabs (G p j * x j)) N + z p) ->
  Rabs (b i - lsum (fun j => C i j * x j) N) <=
    (3 * g + g * g) * lsum (fun j => lsum (fun p => Rabs (F i p) * Rabs (G p j)) N * Rabs (x j)) N +
    (v i + (1 + g) * lsum (fun p => Rabs (F i p) * z p) N + lsum (fun j => w i j * Rabs (x j)) N).
Proof.
intros N g0 h3 h1 h2.
set (T := lsum (fun j => lsum (fun p => Rabs (F i p) * Rabs (G p j)) N * Rabs (x j)) N).
assert (TE : T = lsum (fun p => Rabs (F i p) * lsum (fun j => Rabs (G p j * x j)) N) N).
{ unfold T; rewrite (lsum_ext (fun p => Rabs (F i p) * lsum (fun j => Rabs (G p j * x j)) N) (fun p => lsum (fun j => Rabs (F i p) * Rabs (G p j * x j)) N))
    by (intros; rewrite lsum_scal; reflexivity).
  rewrite lsum_swap; apply lsum_ext; intros j _; rewrite Rmult_comm, <- lsum_scal; apply lsum_ext; intros p _; rewrite Rabs_mult; ring. }
set (Z := lsum (fun p => Rabs (F i p) * z p) N).
(* the second system, multiplied by the row of F *)
assert (e2 : lsum (fun p => Rabs (F i p) * Rabs (y p - lsum (fun j => G p j * x j) N)) N <= g * T + Z).
{ apply Rle_trans with (lsum (fun p => g * (Rabs (F i p) * lsum (fun j => Rabs (G p j * x j)) N) + Rabs (F i p) * z p) N).
  - apply lsum_le; intros p hp; assert (a := Rabs_pos (F i p)); generalize (h2 p hp); nra.
  - rewrite lsum_plus, lsum_scal, <- TE; fold Z; lra. }
assert (ey : lsum (fun p => Rabs (F i p * y p)) N <= (1 + g) * T + Z).
{ apply Rle_trans with (lsum (fun p => Rabs (F i p) * lsum (fun j => Rabs (G p j * x j)) N + Rabs (F i p) * Rabs (y p - lsum (fun j => G p j * x j) N)) N).
  - apply lsum_le; intros p hp; rewrite Rabs_mult, <- Rmult_plus_distr_l; apply Rmult_le_compat_l; [apply Rabs_pos|].
    assert (t := Rabs_triang (lsum (fun j => G p j * x j) N) (y p - lsum (fun j => G p j * x j) N)).
    replace (lsum (fun j => G p j * x j) N + (y p - lsum (fun j => G p j * x j) N)) with (y p) in t by ring.
    generalize (lsum_abs (fun j => G p j * x j) N); lra.
  - rewrite lsum_plus, <- TE; lra. }
assert (split : b i - lsum (fun j => C i j * x j) N = (b i - lsum (fun p => F i p * y p) N) +
  (lsum (fun p => F i p * (y p - lsum (fun j => G p j * x j) N)) N - lsum (fun j => (C i j - lsum (fun p => F i p * G p j) N) * x j) N)).
{ assert (s1 : lsum (fun p => F i p * (y p - lsum (fun j => G p j * x j) N)) N = lsum (fun p => F i p * y p) N - lsum (fun p => F i p * lsum (fun j => G p j * x j) N) N).
  { rewrite (lsum_ext _ (fun p => F i p * y p + (-1) * (F i p * lsum (fun j => G p j * x j) N))) by (intros; ring); rewrite lsum_plus, lsum_scal; ring. }
  assert (s2 : lsum (fun j => (C i j - lsum (fun p => F i p * G p j) N) * x j) N = lsum (fun j => C i j * x j) N - lsum (fun j => lsum (fun p => F i p * G p j) N * x j) N).
  { rewrite (lsum_ext _ (fun j => C i j * x j + (-1) * (lsum (fun p => F i p * G p j) N * x j))) by (intros; ring); rewrite lsum_plus, lsum_scal; ring. }
  assert (s3 : lsum (fun p => F i p * lsum (fun j => G p j * x j) N) N = lsum (fun j => lsum (fun p => F i p * G p j) N * x j) N).
  { rewrite (lsum_ext _ (fun p => lsum (fun j => F i p * (G p j * x j)) N)) by (intros; rewrite lsum_scal; reflexivity).
    rewrite lsum_swap; apply lsum_ext; intros j _; rewrite Rmult_comm, <- lsum_scal; apply lsum_ext; intros; ring. }
  rewrite s1, s2, s3; ring. }
assert (e3 : Rabs (lsum (fun j => (C i j - lsum (fun p => F i p * G p j) N) * x j) N) <= g * T + lsum (fun j => w i j * Rabs (x j)) N).
{ apply Rle_trans with (1 := lsum_abs _ _); apply Rle_trans with (lsum (fun j => g * (lsum (fun p => Rabs (F i p) * Rabs (G p j)) N * Rabs (x j)) + w i j * Rabs (x j)) N).
  - apply lsum_le; intros j hj; rewrite Rabs_mult, <- Rmult_assoc, <- Rmult_plus_distr_r; apply Rmult_le_compat_r; [apply Rabs_pos|].
    apply Rle_trans with (1 := h3 j hj); apply Rplus_le_compat_r, Rmult_le_compat_l; [exact g0|]; apply Req_le, lsum_ext; intros; apply Rabs_mult.
  - rewrite lsum_plus, lsum_scal; apply Rle_refl. }
assert (e4 : Rabs (lsum (fun p => F i p * (y p - lsum (fun j => G p j * x j) N)) N) <= g * T + Z).
{ apply Rle_trans with (1 := lsum_abs _ _); apply Rle_trans with (2 := e2); apply Req_le, lsum_ext; intros; apply Rabs_mult. }
rewrite split; apply Rle_trans with (1 := Rabs_triang _ _).
assert (e5 := Rabs_triang (lsum (fun p => F i p * (y p - lsum (fun j => G p j * x j) N)) N) (- lsum (fun j => (C i j - lsum (fun p => F i p * G p j) N) * x j) N)).
rewrite Rabs_Ropp in e5; unfold Rminus at 2; assert (e6 : g * lsum (fun p => Rabs (F i p * y p)) N <= g * ((1 + g) * T + Z)) by (apply Rmult_le_compat_l; assumption).
fold T; unfold Rminus in *; lra.
Qed.

(* a small residual is a small perturbation of the coefficients *)
Lemma row_perturbation (l : list nat) (a x : nat -> R) (b g w : R) : 0 <= g -> 0 <= w ->
  Rabs (b - lsum (fun k => a k * x k) l) <= g * lsum (fun k => Rabs (a k * x k)) l + w ->
  exists d, (forall k, Rabs (d k) <= g * Rabs (a k)) /\ Rabs (b - lsum (fun k => (a k + d k) * x k) l) <= w.
Proof.
intros g0 w0 h; set (T := lsum (fun k => Rabs (a k * x k)) l) in *; set (r := b - lsum (fun k => a k * x k) l) in *.
assert (T0 : 0 <= T) by (apply lsum_pos; intros; apply Rabs_pos).
destruct (Req_dec T 0) as [z|nz].
- exists (fun _ => 0); split; [intro k; rewrite Rabs_R0; apply Rmult_le_pos; [exact g0|apply Rabs_pos]|].
  rewrite (lsum_ext _ (fun k => a k * x k)) by (intros; ring); fold r; rewrite z, Rmult_0_r, Rplus_0_l in h; exact h.
- assert (G : exists r', Rabs r' <= g * T /\ Rabs (r - r') <= w).
  { destruct (Rle_or_lt (Rabs r) (g * T)) as [l1|l1]; [exists r; split; [exact l1|unfold Rminus; rewrite Rplus_opp_r, Rabs_R0; exact w0]|].
    assert (gt : 0 <= g * T) by (apply Rmult_le_pos; assumption).
    destruct (Rle_or_lt 0 r) as [p|p].
    - rewrite Rabs_pos_eq in * by exact p; exists (g * T); rewrite Rabs_pos_eq by exact gt; split; [lra|]; rewrite Rabs_pos_eq; lra.
    - rewrite Rabs_left in * by exact p; exists (- (g * T)); rewrite Rabs_Ropp, Rabs_pos_eq by exact gt; split; [lra|]; rewrite Rabs_left1; lra. }
  destruct G as [r' [h1 h2]]; set (q := r' / T).
  assert (hq : Rabs q <= g).
  { unfold q, Rdiv; rewrite Rabs_mult, (Rabs_pos_eq (/ T)) by (apply Rlt_le, Rinv_0_lt_compat; lra).
    apply (Rmult_le_reg_r T); [lra|]; rewrite Rmult_assoc, Rinv_l by exact nz; lra. }
  set (sg := fun t => if Rle_lt_dec 0 t then 1 else -1).
  assert (sa : forall t, Rabs (sg t) = 1) by (intro t; unfold sg; destruct (Rle_lt_dec 0 t); [apply Rabs_R1|rewrite Rabs_left; lra]).
  assert (st : forall t, sg t * t = Rabs t) by (intro t; unfold sg; destruct (Rle_lt_dec 0 t); [rewrite Rabs_pos_eq|rewrite Rabs_left]; lra).
  exists (fun k => q * Rabs (a k) * sg (x k)); split.
  + intro k; rewrite !Rabs_mult, sa, Rabs_Rabsolu, Rmult_1_r; apply Rmult_le_compat_r; [apply Rabs_pos|exact hq].
  + rewrite (lsum_ext _ (fun k => a k * x k + q * Rabs (a k * x k))).
    * rewrite lsum_plus, lsum_scal; fold T; unfold q, Rdiv; rewrite Rmult_assoc, Rinv_l by exact nz.
      replace (b - (lsum (fun k => a k * x k) l + r' * 1)) with (r - r') by (unfold r; ring); exact h2.
    * intros k _; rewrite Rabs_mult, <- (st (x k)); ring.
Qed.
Lemma lsum_map f (P : nat -> nat) l : lsum f (map P l) = lsum (fun i => f (P i)) l.
Proof. induction l as [|x l IH]; simpl; [reflexivity|]; unfold lsum in *; rewrite IH; reflexivity. Qed.

Section Solve.
Variables prec emax : Z.
Context (prec_gt_0_ : Prec_gt_0 prec) (prec_lt_emax_ : Prec_lt_emax prec emax).
Notation val := (@B2R prec emax).
Notation fin := (@is_finite prec emax).
Notation fmat := (fmat prec emax).
Lemma permuteE (junk b : fmat) n P i c : (i < n)%nat -> fpermute prec emax junk n P b i c = b (P i) c.
Proof.
unfold fpermute; intro h.
assert (G : forall m, fold_left (fun B i => fset_row prec emax B i (b (P i))) (seq 0 m) junk i c = if Nat.ltb i m then b (P i) c else junk i c).
{ induction m as [|m IH]; [reflexivity|]; rewrite seq_S, fold_left_app; cbn [fold_left plus]; unfold fset_row at 1; rewrite IH.
  destruct (Nat.eqb_spec i m) as [->|ne]; [rewrite (proj2 (Nat.ltb_lt m (S m))) by lia; reflexivity|].
  destruct (Nat.ltb_spec i m), (Nat.ltb_spec i (S m)); lia || reflexivity. }
rewrite G, (proj2 (Nat.ltb_lt i n) h); reflexivity.
Qed.
Lemma inverse_permuteE (junk b : fmat) n P i r : Permutation (map P (seq 0 n)) (seq 0 n) -> (i < n)%nat ->
  finverse_permute_follow prec emax junk n P b r (P i) = b r i.
Proof.
intros pm h; unfold finverse_permute_follow.
assert (inj : forall i j, (i < n)%nat -> (j < n)%nat -> P i = P j -> i = j).
{ intros a d ha hd e; assert (nd : NoDup (map P (seq 0 n))) by (apply Permutation_NoDup with (2 := seq_NoDup n 0), Permutation_sym, pm).
  assert (q := proj1 (NoDup_nth (map P (seq 0 n)) (P 0%nat)) nd a d); rewrite map_length, seq_length in q.
  apply q; [exact ha|exact hd|]; rewrite !(map_nth P), !seq_nth by assumption; exact e. }
assert (G : forall m, (m <= n)%nat -> (i < m)%nat -> fold_left (fun B i => fset_col prec emax B (P i) (fun r => b r i)) (seq 0 m) junk r (P i) = b r i).
{ induction m as [|m IH]; intros hm hi; [lia|]; rewrite seq_S, fold_left_app; cbn [fold_left plus]; unfold fset_col at 1.
  destruct (Nat.eqb_spec (P i) (P m)) as [e|ne]; [rewrite (inj i m h ltac:(lia) e); reflexivity|].
  apply IH; [lia|]; destruct (Nat.eq_dec i m) as [->|]; [tauto|lia]. }
apply G; lia.
Qed.
End Solve.
