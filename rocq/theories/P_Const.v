(* Rational enclosures of pi, e and the square root of 2, and a criterion for correct rounding *)
From Coq Require Import Reals Ratan Machin QArith Qreals Lra Lia.
From Flocq Require Import Core.
Set Implicit Arguments. Unset Strict Implicit. Unset Printing Implicit Defensive.
Local Open Scope R_scope.

Fixpoint qsum (f : nat -> Q) (n : nat) : Q :=
  match n with O => f O | S k => Qred (qsum f k + f n) end.
Lemma qsumE f g n : (forall i, Q2R (f i) = g i) -> Q2R (qsum f n) = sum_f_R0 g n.
Proof.
intros h; induction n as [|n IH]; [apply h|].
change (Q2R (Qred (qsum f n + f (S n))) = sum_f_R0 g n + g (S n)).
rewrite (Qeq_eqR _ _ (Qred_correct _)), Q2R_plus, IH, h; reflexivity.
Qed.

Fixpoint ppow (p : positive) (n : nat) : positive := match n with O => xH | S k => (p * ppow p k)%positive end.
Lemma ppowE p n : IZR (Zpos (ppow p n)) = IZR (Zpos p) ^ n.
Proof. induction n as [|n IH]; simpl; [reflexivity|rewrite Pos2Z.inj_mul, mult_IZR, IH; reflexivity]. Qed.
Lemma Q2R_1 p : Q2R (1 # p) = / IZR (Zpos p).
Proof. unfold Q2R; simpl; lra. Qed.
Definition qsign (n : nat) : Q := if Nat.even n then 1%Q else (-1)%Q.
Lemma qsignE n : Q2R (qsign n) = (-1) ^ n.
Proof.
induction n as [|n IH]; [unfold qsign, Q2R; simpl; lra|].
rewrite <- tech_pow_Rmult, <- IH; unfold qsign; rewrite Nat.even_succ, <- Nat.negb_even.
destruct (Nat.even n); unfold Q2R; simpl; lra.
Qed.
Definition qodd (n : nat) : positive := Pos.of_succ_nat (2 * n).
Lemma qoddE n : IZR (Zpos (qodd n)) = INR (2 * n + 1).
Proof. unfold qodd; rewrite Zpos_P_of_succ_nat, INR_IZR_INZ; f_equal; lia. Qed.
Definition qpi (n : nat) : Q :=
  (qsign n * ((2 # 1) * ((1 # ppow 3 (2 * n + 1)) * (1 # qodd n)) + (1 # ppow 7 (2 * n + 1)) * (1 # qodd n)))%Q.
Lemma qpiE n : Q2R (qpi n) = tg_alt PI_2_3_7_tg n.
Proof.
unfold qpi, tg_alt, PI_2_3_7_tg, Ratan_seq; rewrite Q2R_mult, Q2R_plus, !Q2R_mult, qsignE, !Q2R_1, !ppowE, qoddE.
rewrite !pow_inv; unfold Q2R, Rdiv; simpl Qnum; simpl Qden; f_equal; lra.
Qed.

Lemma pi_bounds : 3.1415926535897932384626433832795028841971693993751 - / IZR (10 ^ 45) <= PI <= 3.1415926535897932384626433832795028841971693993751 + / IZR (10 ^ 45).
Proof.
destruct (PI_2_3_7_ineq 25) as [l u].
rewrite <- (qsumE _ qpiE) in l; rewrite <- (qsumE _ qpiE) in u.
assert (L : Qle (31415926535897932384626433832795028841971693993 # 40000000000000000000000000000000000000000000000) (qsum qpi (S (2 * 25)))) by (vm_compute; discriminate).
assert (U : Qle (qsum qpi (2 * 25)) (31415926535897932384626433832795028841971693994 # 40000000000000000000000000000000000000000000000)) by (vm_compute; discriminate).
apply Qle_Rle in L; apply Qle_Rle in U.
pose proof (Rle_trans _ _ _ L l) as L'; pose proof (Rle_trans _ _ _ u U) as U'.
unfold Q2R in L', U'; simpl Qnum in L', U'; simpl Qden in L', U'; simpl Z.pow.
lra.
Qed.

Fixpoint pfact (n : nat) : positive := match n with O => xH | S k => (Pos.of_succ_nat k * pfact k)%positive end.
Lemma pfactE n : IZR (Zpos (pfact n)) = INR (fact n).
Proof.
induction n as [|n IH]; [reflexivity|].
change (IZR (Zpos (Pos.of_succ_nat n * pfact n)) = INR (S n * fact n)).
rewrite Pos2Z.inj_mul, mult_IZR, IH, mult_INR, Zpos_P_of_succ_nat; f_equal; rewrite INR_IZR_INZ; f_equal; lia.
Qed.
Definition qe (n : nat) : Q := (qsign n * (1 # pfact n))%Q.
Lemma qeE n : Q2R (qe n) = tg_alt (fun i => / INR (fact i)) n.
Proof. unfold qe, tg_alt; rewrite Q2R_mult, qsignE, Q2R_1, pfactE; reflexivity. Qed.
Lemma fact_ineq N : sum_f_R0 (tg_alt (fun i => / INR (fact i))) (S (2 * N)) <= exp (-1) <=
  sum_f_R0 (tg_alt (fun i => / INR (fact i))) (2 * N).
Proof.
apply alternated_series_ineq.
- intro n; apply Rinv_le_contravar; [apply INR_fact_lt_0|apply le_INR; simpl; lia].
- intros eps he; destruct (cv_speed_pow_fact 1 eps he) as [n hn]; exists n; intros k hk.
  specialize (hn k hk); rewrite pow1 in hn; unfold Rdiv in hn; rewrite Rmult_1_l in hn; exact hn.
- intros eps he; destruct (E1_cvg (-1) eps he) as [n hn]; exists n; intros k hk; specialize (hn k hk).
  replace (sum_f_R0 (tg_alt (fun i => / INR (fact i))) k) with (E1 (-1) k); [exact hn|].
  unfold E1; apply sum_eq; intros i _; unfold tg_alt; apply Rmult_comm.
Qed.
Lemma e_bounds : 2.7182818284590452353602874713526624977572470937 - / IZR (10 ^ 45) <= exp 1 <= 2.7182818284590452353602874713526624977572470937 + / IZR (10 ^ 45).
Proof.
destruct (fact_ineq 20) as [l u].
rewrite <- (qsumE _ qeE) in l; rewrite <- (qsumE _ qeE) in u.
assert (L : Qle (10 ^ 45 # 2718281828459045235360287471352662497757247094) (qsum qe (S (2 * 20)))) by (vm_compute; discriminate).
assert (U : Qle (qsum qe (2 * 20)) (10 ^ 45 # 2718281828459045235360287471352662497757247093)) by (vm_compute; discriminate).
apply Qle_Rle in L; apply Qle_Rle in U.
pose proof (Rle_trans _ _ _ L l) as L'; pose proof (Rle_trans _ _ _ u U) as U'.
pose proof (exp_pos (-1)) as p.
assert (e1 : exp 1 = / exp (-1)) by (rewrite <- exp_Ropp; f_equal; lra).
unfold Q2R in L', U'; simpl Qnum in L', U'; simpl Qden in L', U'; simpl Z.pow; simpl Z.pow in L', U'; rewrite e1; split.
- apply Rinv_le_contravar in U'; [|exact p].
  apply Rle_trans with (2 := U'); rewrite Rinv_mult, Rinv_inv; lra.
- apply Rinv_le_contravar in L'; [|lra].
  apply Rle_trans with (1 := L'); rewrite Rinv_mult, Rinv_inv; lra.
Qed.

Lemma sqrt2_bounds : 1.4142135623730950488016887242096980785696718753769 - / IZR (10 ^ 45) <= sqrt 2 <= 1.4142135623730950488016887242096980785696718753769 + / IZR (10 ^ 45).
Proof.
pose proof (sqrt_pos 2) as p; pose proof (sqrt_sqrt 2 ltac:(lra)) as s; simpl Z.pow.
set (c := 1.4142135623730950488016887242096980785696718753769).
split; apply Rnot_lt_le; intro h.
- assert (sqrt 2 * sqrt 2 <= (c - / 1000000000000000000000000000000000000000000000) * (c - / 1000000000000000000000000000000000000000000000)) by (apply Rmult_le_compat; lra).
  unfold c in *; lra.
- assert ((c + / 1000000000000000000000000000000000000000000000) * (c + / 1000000000000000000000000000000000000000000000) <= sqrt 2 * sqrt 2).
    apply Rmult_le_compat; unfold c in *; lra.
  unfold c in *; lra.
Qed.

(* a real number within half a unit in the last place of a number with p significant bits rounds to it *)
Lemma round_near (p emin m e : Z) (x : R) : (1 < p)%Z -> (emin <= e)%Z -> (2 ^ (p - 1) < m < 2 ^ p)%Z ->
  Rabs (x - IZR m * bpow radix2 e) < bpow radix2 (e - 1) ->
  round radix2 (FLT_exp emin p) ZnearestE x = IZR m * bpow radix2 e.
Proof.
intros hp he hm hx.
assert (b : 0 < bpow radix2 e) by apply bpow_gt_0.
assert (eb : bpow radix2 (e - 1) = bpow radix2 e / 2) by (unfold Z.sub; rewrite bpow_plus; simpl; lra).
assert (m1 : bpow radix2 (p - 1) + 1 <= IZR m).
  rewrite <- (IZR_Zpower radix2) by lia; rewrite <- plus_IZR; apply IZR_le; simpl radix_val; lia.
assert (m2 : IZR m + 1 <= bpow radix2 p).
  rewrite <- (IZR_Zpower radix2) by lia; rewrite <- plus_IZR; apply IZR_le; simpl radix_val; lia.
apply Rabs_def2 in hx; destruct hx as [x1 x2]; rewrite eb in x1, x2.
assert (lo : bpow radix2 (p - 1) * bpow radix2 e <= x).
  pose proof (Rmult_le_compat_r _ _ _ (Rlt_le _ _ b) m1) as q; lra.
assert (hi : x < bpow radix2 p * bpow radix2 e).
  pose proof (Rmult_le_compat_r _ _ _ (Rlt_le _ _ b) m2) as q; lra.
assert (xp : 0 < x).
  apply Rlt_le_trans with (2 := lo); apply Rmult_lt_0_compat; apply bpow_gt_0.
assert (ec : cexp radix2 (FLT_exp emin p) x = e).
  unfold cexp, FLT_exp; rewrite (mag_unique_pos radix2 x (p + e)); [lia|].
  split; [replace (p + e - 1)%Z with ((p - 1) + e)%Z by lia|]; rewrite bpow_plus; assumption.
unfold round, scaled_mantissa; rewrite ec, (Znearest_imp _ _ m); [reflexivity|].
assert (xe : x = x * bpow radix2 (- e) * bpow radix2 e) by (rewrite Rmult_assoc, <- bpow_plus, Z.add_opp_diag_l; simpl; lra).
set (y := x * bpow radix2 (- e)) in *.
apply Rabs_def1; apply Rmult_lt_reg_r with (1 := b); lra.
Qed.
