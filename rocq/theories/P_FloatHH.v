(* Lemmas for C92: the vector of a Householder reflection in floating point. *)
From Coq Require Import ZArith List Arith Bool Reals Lia Lra Psatz.
From Flocq Require Import Core IEEE754.BinarySingleNaN Mult_error.
From Verif Require Import M_Float P_Float P_FloatD M_FloatN P_FloatN M_FloatS M_FloatLU P_FloatLU P_FloatTri M_FloatQR Props_Float Props_FloatN Props_FloatS P_Norm P_FloatQR.
Import ListNotations.
Local Open Scope R_scope.

Section FloatHH.
Variables prec emax : Z.
Context (p0 : Prec_gt_0 prec) (pe : Prec_lt_emax prec emax).
Hypothesis prec1 : (1 < prec)%Z.
Hypothesis range : (3 * prec <= emax)%Z.
Hypothesis range2 : (prec + 7 <= emax)%Z.
Notation float := (binary_float prec emax).
Notation val := (@B2R prec emax).
Notation fin := (@is_finite prec emax).
Notation u := (u prec).
Notation eta := (eta prec emax).
Notation RN := (round radix2 (FLT_exp (SpecFloat.emin prec emax) prec) ZnearestE).
Notation format := (generic_format radix2 (FLT_exp (SpecFloat.emin prec emax) prec)).
Notation fmat := (fmat prec emax).
Variable fmax : float -> float -> float.
Hypothesis fmaxP : forall x y : float, is_nan x = false -> is_nan y = false -> fmax x y = if flt prec emax x y then y else x.
Notation fsub := (fsub prec emax p0 pe).
Notation fmul := (fmul prec emax p0 pe).
Notation fdiv := (fdiv prec emax p0 pe).
Notation fzero := (fzero prec emax).
Notation fone := (fone prec emax p0 pe).
Notation flength_precise := (flength_precise prec emax p0 pe fmax).
Notation elements := (elements prec emax).

Variables (m ps pm : nat).
Hypothesis m0 : (0 < m)%nat.
Definition KK : nat := ((m + ps) / 2 + 5)%nat.
Hypothesis size : INR (KK + 3) * u <= / 8.
Definition ss : R := / (1 - u) ^ (KK + 3).

Lemma u14 : 0 < u <= / 8.
Proof.
split; [apply bpow_gt_0|]; assert (h := size); assert (1 <= INR (KK + 3)) by (replace 1 with (INR 1) by reflexivity; apply le_INR; lia).
assert (0 < u) by apply bpow_gt_0; nra.
Qed.
Lemma u01 : 0 <= u <= 1 /\ 0 <= 1 - u <= 1.
Proof. generalize u14; repeat split; lra. Qed.
Lemma pow_le1 x k : 0 <= x <= 1 -> x ^ k <= 1.
Proof. intro h; induction k as [|k IH]; [simpl; lra|]; cbn [pow]; assert (0 <= x ^ k) by (apply pow_le; lra); nra. Qed.
Lemma bern x k : 0 <= x <= 1 -> 1 - INR k * x <= (1 - x) ^ k.
Proof.
intro hx; induction k as [|k IH]; [simpl; lra|]; rewrite S_INR; cbn [pow].
assert (0 <= (1 - x) ^ k) by (apply pow_le; lra); assert (k0 := pos_INR k); nra.
Qed.
Lemma big : 7 / 8 <= (1 - u) ^ (KK + 3).
Proof. apply Rle_trans with (2 := bern u (KK + 3) ltac:(generalize u14; lra)); generalize size; lra. Qed.
Lemma ss1 : 1 <= ss /\ ss <= 8 / 7 /\ 0 < / ss.
Proof.
assert (h := big); assert (c : (1 - u) ^ (KK + 3) <= 1) by apply pow_le1, u01.
unfold ss; rewrite Rinv_inv; split; [assert (r := Rinv_le_contravar ((1 - u) ^ (KK + 3)) 1 ltac:(lra) c); rewrite Rinv_1 in r; exact r|split; [|lra]].
replace (8 / 7) with (/ (7 / 8)) by lra; apply Rinv_le_contravar; lra.
Qed.
Lemma count : INR (m + ps) <= bpow radix2 prec.
Proof.
assert (e : u * bpow radix2 prec = 1) by (unfold Props_Float.u; rewrite <- bpow_plus, Z.add_opp_diag_l; reflexivity).
assert (k : INR (m + ps) <= 2 * INR (KK + 3)).
{ rewrite <- (mult_INR 2); apply le_INR; unfold KK; generalize (Nat.div_mod (m + ps) 2 ltac:(lia)) (Nat.mod_upper_bound (m + ps) 2 ltac:(lia)); lia. }
assert (b0 : 0 < bpow radix2 prec) by apply bpow_gt_0; assert (h := size); nra.
Qed.
Lemma mu : INR m * u <= / 2.
Proof.
assert (k : INR m <= 2 * INR (KK + 3)).
{ rewrite <- (mult_INR 2); apply le_INR; unfold KK; generalize (Nat.div_mod (m + ps) 2 ltac:(lia)) (Nat.mod_upper_bound (m + ps) 2 ltac:(lia)); lia. }
generalize size u14; nra.
Qed.
Lemma eta_u : / 2 * eta <= 4 * u * u * u * u.
Proof.
unfold Props_Float.eta, Props_Float.u; replace (/ 2) with (bpow radix2 (-1)) by reflexivity; replace 4 with (bpow radix2 2) by (simpl; lra).
rewrite <- !bpow_plus; apply bpow_le; lia.
Qed.
Lemma meta : INR m * (/ 2 * eta) <= u * u.
Proof.
assert (h1 := eta_u); assert (h2 := mu); assert (h3 := u14); assert (n0 := pos_INR m).
apply Rle_trans with (INR m * (4 * u * u * u * u)); [apply Rmult_le_compat_l; assumption|].
replace (INR m * (4 * u * u * u * u)) with ((INR m * u) * (4 * u) * (u * u)) by ring.
rewrite <- (Rmult_1_l (u * u)) at 2; apply Rmult_le_compat_r; [nra|]; assert (0 <= INR m * u) by (apply Rmult_le_pos; lra); nra.
Qed.
Lemma norm_nrm (x : nat -> float) : norm prec emax (elements m x) = nrm m (fun i => val (x i)).
Proof.
unfold norm, nrm, M_FloatQR.elements; rewrite map_map, Rsum_lsum; f_equal; apply lsum_ext; intros; ring.
Qed.
Lemma cases (x : float) : fin x = true \/ x = B754_nan \/ exists b, x = B754_infinity b.
Proof. destruct x as [s|s| |s mm e b]; [left; reflexivity|right; right; exists s; reflexivity|right; left; reflexivity|left; reflexivity]. Qed.
Lemma length_fin (x : nat -> float) (r : float) : flength_precise pm ps (elements m x) r -> fin r = true -> forall i, (i < m)%nat -> fin (x i) = true.
Proof.
intros h f.
assert (nn : ~ In B754_nan (elements m x)).
{ intro hn; rewrite (C78_length_nan prec emax p0 pe fmax _ _ _ _ hn h) in f; discriminate. }
intros i hi; assert (hin : In (x i) (elements m x)) by (apply in_map, in_seq; lia).
destruct (cases (x i)) as [H|[H|[b H]]]; [exact H|rewrite H in hin; tauto|].
exfalso; assert (F : Forall (fun x => is_nan x = false) (elements m x)) by (apply Forall_forall; intros y hy; destruct y; try reflexivity; tauto).
rewrite (C78_length_infinite prec emax p0 pe prec1 range2 fmax fmaxP _ _ _ _ F (ex_intro (fun b => In (B754_infinity b) (elements m x)) b ltac:(rewrite H in hin; exact hin)) h) in f; discriminate.
Qed.
Lemma length_val (x : nat -> float) (r : float) : flength_precise pm ps (elements m x) r -> fin r = true ->
  let n := nrm m (fun i => val (x i)) in n * (1 - u) ^ KK - / 2 * eta <= val r <= n * (1 + u) ^ KK + / 2 * eta.
Proof.
intros h f n; assert (ff := length_fin x r h f).
assert (F : Forall (fun x => fin x = true) (elements m x)) by (apply Forall_forall; intros y hy; apply in_map_iff in hy; destruct hy as [i [<- hi]]; apply in_seq in hi; apply ff; lia).
assert (L : length (elements m x) = m) by (unfold M_FloatQR.elements; rewrite map_length, seq_length; reflexivity).
assert (nl : elements m x <> []) by (intro e; rewrite e in L; simpl in L; lia).
generalize (C78_length_precise prec emax p0 pe prec1 ltac:(lia) range2 fmax fmaxP (elements m x) pm ps r nl F); rewrite L; intro H.
destruct (H count h) as [[_ H1]|[H1 _]]; [rewrite norm_nrm in H1; exact H1|rewrite H1 in f; discriminate].
Qed.
Lemma fneq_val (x : float) : fin x = true -> fneq prec emax x fzero = true <-> val x <> 0.
Proof.
intro fx; unfold fneq; rewrite (Bcompare_correct prec emax x fzero fx eq_refl); change (val fzero) with 0.
destruct (Rcompare_spec (val x) 0); split; intro; try reflexivity; try discriminate; lra.
Qed.

(** * The length of the vector *)
Section Vector.
Variables (w : nat -> float) (k : nat) (nu : float).
Hypothesis kl : (k < m)%nat.
Hypothesis hl : flength_precise pm ps (elements m w) nu.
Hypothesis fnu : fin nu = true.
Hypothesis thr : val nu = 0 \/ bpow radix2 (3 - emax + prec) <= val nu.
Notation v := (hh_v prec emax p0 pe w k nu).
Hypothesis fv : forall i, (i < m)%nat -> fin (v i) = true.
Notation U := (val nu).
Notation N := (nrm m (fun i => val (w i))).

Lemma zero_case : U = 0 -> (forall i, (i < m)%nat -> val (w i) = 0) /\ (forall i, (i < m)%nat -> val (v i) = if Nat.eqb i k then 1 else 0).
Proof.
intro z; assert (H := length_val w nu hl fnu); cbv zeta in H; rewrite z in H.
assert (b := big); assert (uu := u14); assert (e0 : 0 < eta) by apply bpow_gt_0; assert (N0 := nrm_pos m (fun i => val (w i))).
assert (b' : 7 / 8 <= (1 - u) ^ KK).
{ apply Rle_trans with (1 := b); rewrite pow_add; rewrite <- (Rmult_1_r ((1 - u) ^ KK)) at 2; apply Rmult_le_compat_l; [apply pow_le; lra|].
  apply pow_le1, u01. }
assert (Nl : N < eta) by nra.
assert (W : forall i, (i < m)%nat -> val (w i) = 0).
{ intros i hi; destruct (format_emin prec emax prec1 (val (w i)) (format_val _ _ (w i))) as [q e].
  assert (be : bpow radix2 (SpecFloat.emin prec emax) = eta) by (unfold Props_Float.eta; f_equal; unfold SpecFloat.emin; lia); rewrite be in e.
  assert (l : Rabs (val (w i)) < eta).
  { apply Rle_lt_trans with (2 := Nl); rewrite <- (dot_basis m i (fun i => val (w i)) hi).
    apply Rle_trans with (1 := cauchy _ _ _); rewrite <- (Rmult_1_l N) at 2; apply Rmult_le_compat_r; [exact N0|].
    unfold nrm; rewrite (dot_basis m i (fun k0 => if Nat.eqb k0 i then 1 else 0) hi), Nat.eqb_refl, sqrt_1; lra. }
  rewrite e in l |- *; rewrite Rabs_mult, (Rabs_pos_eq eta) in l by lra.
  assert (l1 : Rabs (IZR q) < 1) by (apply (Rmult_lt_reg_r eta); lra); rewrite <- abs_IZR in l1; apply lt_IZR in l1; replace q with 0%Z by lia; ring. }
split; [exact W|]; intros i hi; unfold hh_v.
destruct (fneq prec emax nu fzero) eqn:E; [apply fneq_val in E; [tauto|exact fnu]|].
destruct (Nat.eqb i k); [unfold M_Float.fone; apply Bone_correct|apply W, hi].
Qed.
Lemma big_case : U <> 0 -> 0 < U /\ eta <= u * u * U /\ N / U <= ss * (1 - u) ^ 2 /\ / ss <= N / U * (1 - u) ^ 2 /\
  nrm m (fun i => val (v i) - val (w i) / U) <= u * (N / U) + u * u.
Proof.
intro nz; destruct thr as [z|t]; [tauto|].
assert (U0 : 0 < U) by (apply Rlt_le_trans with (2 := t); apply bpow_gt_0).
assert (eU : eta <= u * u * U).
{ apply Rle_trans with (u * u * bpow radix2 (3 - emax + prec)).
  - unfold Props_Float.eta, Props_Float.u; rewrite <- !bpow_plus; apply bpow_le; lia.
  - apply Rmult_le_compat_l; [generalize u14; nra|exact t]. }
assert (H := length_val w nu hl fnu); cbv zeta in H; assert (uu := u14); assert (b := big); assert (e0 : 0 < eta) by apply bpow_gt_0.
assert (N0 := nrm_pos m (fun i => val (w i))).
set (c := 1 - u) in *; assert (c0 : 0 < c) by (unfold c; lra); assert (cK := pow_lt c KK c0).
assert (D : N = N / U * U) by (field; lra).
assert (d0 : 0 <= N / U) by (apply Rmult_le_pos; [exact N0|apply Rlt_le, Rinv_0_lt_compat, U0]).
set (q := N / U) in *; clearbody q.
assert (h1 : q * c ^ KK <= 1 + u * u / 2).
{ apply (Rmult_le_reg_r U); [exact U0|]; rewrite D in H; nra. }
assert (h2 : 1 - u * u / 2 <= q * (1 + u) ^ KK).
{ apply (Rmult_le_reg_r U); [exact U0|]; rewrite D in H; nra. }
split; [exact U0|split; [exact eU|split; [|split]]].
- unfold ss; fold c; rewrite pow_add, Rinv_mult.
  replace (/ c ^ KK * / c ^ 3 * c ^ 2) with (/ c ^ KK * / c) by (field; split; apply Rgt_not_eq; [exact c0|exact cK]).
  apply (Rmult_le_reg_r (c ^ KK * c)); [apply Rmult_lt_0_compat; assumption|].
  replace (/ c ^ KK * / c * (c ^ KK * c)) with 1 by (field; split; apply Rgt_not_eq; [exact c0|exact cK]).
  apply Rle_trans with ((1 + u * u / 2) * c); [rewrite <- Rmult_assoc; apply Rmult_le_compat_r; lra|unfold c; nra].
- unfold ss; fold c; rewrite Rinv_inv, pow_add.
  assert (pp : (1 + u) ^ KK * c ^ KK <= 1) by (rewrite <- Rpow_mult_distr; apply pow_le1; unfold c; split; nra).
  assert (h3 : (1 - u * u / 2) * c ^ KK <= q).
  { apply Rle_trans with (q * (1 + u) ^ KK * c ^ KK); [apply Rmult_le_compat_r; lra|].
    rewrite Rmult_assoc; rewrite <- (Rmult_1_r q) at 2; apply Rmult_le_compat_l; assumption. }
  assert (h4 : c <= 1 - u * u / 2) by (unfold c; nra).
  replace (c ^ KK * c ^ 3) with (c * c ^ KK * c ^ 2) by ring; apply Rmult_le_compat_r; [nra|].
  apply Rle_trans with (2 := h3); apply Rmult_le_compat_r; lra.
- assert (F : forall i, (i < m)%nat -> Rabs (val (v i) - val (w i) / U) <= u * Rabs (val (w i) / U) + / 2 * eta).
  { intros i hi; assert (f := fv i hi); unfold hh_v in f |- *.
    destruct (fneq prec emax nu fzero) eqn:E; [|exfalso; assert (E' : fneq prec emax nu fzero = true) by (apply fneq_val; assumption); rewrite E' in E; discriminate].
    destruct (fdiv_inv prec emax p0 pe _ _ f fnu) as [_ [_ ev]]; rewrite ev.
    assert (r := RN_err prec emax p0 (val (w i) / U)); rewrite epsE in r; exact r. }
  apply Rle_trans with (nrm m (fun i => u * Rabs (val (w i) / U) + / 2 * eta)); [apply nrm_le; exact F|].
  apply Rle_trans with (1 := triangle _ _ _); apply Rplus_le_compat.
  + rewrite nrm_scal, (Rabs_pos_eq u), nrm_abs by lra; apply Rmult_le_compat_l; [lra|].
    rewrite (nrm_ext m (fun i => val (w i) / U) (fun i => / U * val (w i))) by (intros; unfold Rdiv; ring).
    rewrite nrm_scal, Rabs_pos_eq by (apply Rlt_le, Rinv_0_lt_compat, U0); rewrite D; apply Req_le; field; lra.
  + apply Rle_trans with (1 := nrm_const m _ (Rlt_le _ _ (Rmult_lt_0_compat _ _ (Rinv_0_lt_compat 2 Rlt_0_2) e0))); apply meta.
Qed.
Lemma vector_nrm : / ss <= nrm m (fun i => val (v i)) <= ss.
Proof.
destruct (Req_dec U 0) as [z|nz].
- destruct (zero_case z) as [_ h].
  rewrite (nrm_ext m _ (fun i => if Nat.eqb i k then 1 else 0)) by exact h.
  unfold nrm; rewrite (dot_basis m k _ kl), Nat.eqb_refl, sqrt_1; destruct ss1 as [h1 [h2 h3]]; split; [|exact h1].
  rewrite <- Rinv_1; apply Rinv_le_contravar; lra.
- destruct (big_case nz) as [U0 [_ [h1 [h2 h3]]]]; destruct ss1 as [s1 [s2 s3]]; assert (uu := u14).
  assert (NU : nrm m (fun i => val (w i) / U) = N / U).
  { rewrite (nrm_ext m (fun i => val (w i) / U) (fun i => / U * val (w i))) by (intros; unfold Rdiv; ring).
    rewrite nrm_scal, Rabs_pos_eq by (apply Rlt_le, Rinv_0_lt_compat, U0); unfold Rdiv; ring. }
  set (q := N / U) in *.
  assert (s4 : 7 / 8 <= / ss) by (replace (7 / 8) with (/ (8 / 7)) by lra; apply Rinv_le_contravar; lra).
  assert (q0 : 0 <= q) by (unfold q; apply Rmult_le_pos; [apply nrm_pos|apply Rlt_le, Rinv_0_lt_compat, U0]).
  assert (q1 : / ss <= q) by (apply Rle_trans with (1 := h2); rewrite <- (Rmult_1_r q) at 2; apply Rmult_le_compat_l; [exact q0|apply pow_le1, u01]).
  split.
  + apply Rle_trans with (q - (u * q + u * u)); [|].
    * apply Rle_trans with (1 := h2); simpl; assert (0 <= u * (q * (1 - u) - u)) by (apply Rmult_le_pos; [lra|nra]); lra.
    * assert (t := triangle m (fun i => val (v i)) (fun i => - (val (v i) - val (w i) / U))); cbv beta in t.
      rewrite (nrm_ext m (fun i => val (v i) + - (val (v i) - val (w i) / U)) (fun i => val (w i) / U)) in t by (intros; ring).
      rewrite (nrm_ext m (fun i => - (val (v i) - val (w i) / U)) (fun i => -1 * (val (v i) - val (w i) / U))) in t by (intros; ring).
      rewrite (nrm_scal m (-1)), Rabs_left, NU in t by lra; lra.
  + apply Rle_trans with (q + (u * q + u * u)).
    * assert (t := triangle m (fun i => val (w i) / U) (fun i => val (v i) - val (w i) / U)); cbv beta in t.
      rewrite (nrm_ext m (fun i => val (w i) / U + (val (v i) - val (w i) / U)) (fun i => val (v i))) in t by (intros; ring).
      rewrite NU in t; lra.
    * assert (h5 : q + (u * q + u * u) <= ss * (1 - u) ^ 2 * (1 + u) + u * u) by nra.
      apply Rle_trans with (1 := h5); simpl; assert (0 <= (ss - 1) * (u + u * u - u * u * u)) by (apply Rmult_le_pos; [lra|nra]); nra.
Qed.
End Vector.
Definition dd : R := ss * ss - 1.
Lemma square_gap x : / ss <= x <= ss -> Rabs (x * x - 1) <= dd.
Proof.
intro h; destruct ss1 as [s1 [s2 s3]]; unfold dd; assert (si : / ss * ss = 1) by (apply Rinv_l; lra).
apply Rabs_le; split; [|nra].
assert (/ ss * / ss <= x * x) by nra; assert (0 <= (ss - / ss) * (ss - / ss)) by nra; nra.
Qed.
Lemma dd0 : 0 <= dd. Proof. unfold dd; destruct ss1; nra. Qed.
(** * The reflection of the column itself *)
Definition AA : R := u * (ss + ss * ss + u * u) + ((ss - 1) * ss + u * u).
Definition tau : R := (ss * ss - 1) + AA * (2 * ss + AA) + 4 * ss * (u * ss + u * u).
Lemma AA0 : 0 <= AA.
Proof. unfold AA; destruct ss1 as [s1 _]; assert (uu := u14); assert (0 <= (ss - 1) * ss) by nra; assert (0 <= u * (ss + ss * ss + u * u)) by (apply Rmult_le_pos; nra); nra. Qed.
Lemma tau0 : 0 <= tau.
Proof.
unfold tau; assert (a := AA0); destruct ss1 as [s1 _]; assert (uu := u14); assert (0 <= AA * (2 * ss + AA)) by (apply Rmult_le_pos; lra).
assert (0 <= 4 * ss * (u * ss + u * u)) by (apply Rmult_le_pos; nra); nra.
Qed.
Lemma ss_up : (1 + u) ^ KK <= ss /\ / ss <= (1 - u) ^ KK.
Proof.
assert (b := big); assert (uu := u14); assert (c0 : 0 < 1 - u) by lra; unfold ss; rewrite Rinv_inv; split.
- apply (Rmult_le_reg_r ((1 - u) ^ (KK + 3))); [lra|]; rewrite Rinv_l by lra; rewrite pow_add, <- Rmult_assoc, <- Rpow_mult_distr.
  assert (h1 : ((1 + u) * (1 - u)) ^ KK <= 1) by (apply pow_le1; split; nra).
  assert (h2 : (1 - u) ^ 3 <= 1) by apply pow_le1, u01.
  assert (h3 : 0 <= ((1 + u) * (1 - u)) ^ KK) by (apply pow_le; nra).
  assert (h4 : 0 <= (1 - u) ^ 3) by (apply pow_le; lra); nra.
- rewrite pow_add; rewrite <- (Rmult_1_r ((1 - u) ^ KK)) at 2; apply Rmult_le_compat_l; [apply pow_le; lra|apply pow_le1, u01].
Qed.
Lemma fin_opp (x : float) : fin (Bopp x) = fin x. Proof. apply is_finite_Bopp. Qed.
Lemma RN_id (x : float) : RN (val x) = val x.
Proof. apply round_generic; [auto with typeclass_instances|apply format_val]. Qed.
Lemma RN_opp t : RN (- t) = - RN t. Proof. apply round_NE_opp. Qed.
Lemma RN_one : RN 1 = 1.
Proof. assert (h := RN_id (Bone : float)); rewrite Bone_correct in h; exact h. Qed.
Lemma nonneg (x : float) : - eta < val x -> 0 <= val x.
Proof.
intro h; destruct (format_emin prec emax prec1 (val x) (format_val _ _ x)) as [q e].
assert (be : bpow radix2 (SpecFloat.emin prec emax) = eta) by (unfold Props_Float.eta; f_equal; unfold SpecFloat.emin; lia); rewrite be in e.
assert (e0 : 0 < eta) by apply bpow_gt_0; rewrite e in *.
assert (l : -1 < IZR q) by (apply (Rmult_lt_reg_r eta); lra); change (-1) with (IZR (-1)) in l; apply lt_IZR in l.
apply Rmult_le_pos; [apply (IZR_le 0); lia|lra].
Qed.
Lemma alpha_val (x nx : float) : fin x = true -> fin (hh_alpha prec emax p0 pe x nx) = true -> fin nx = true /\
  val (hh_alpha prec emax p0 pe x nx) = (if Req_EM_T (val x) 0 then 1 else if Rlt_dec (val x) 0 then 1 else -1) * val nx.
Proof.
intros fx f; unfold hh_alpha in *; destruct (fmul_inv _ _ _ _ _ _ f) as [fs fn]; split; [exact fn|].
rewrite (fmul_val _ _ _ _ _ _ f).
assert (fa : fin (fabs prec emax x) = true) by (rewrite fabs_fin; exact fx).
destruct (fneq prec emax (fabs prec emax x) fzero) eqn:E.
- assert (nz : val x <> 0).
  { apply fneq_val in E; [|exact fa]; rewrite fabs_val in E; intro z; apply E; rewrite z; apply Rabs_R0. }
  destruct (Req_EM_T (val x) 0) as [z|_]; [tauto|].
  rewrite fin_opp in fs; destruct (fdiv_inv prec emax p0 pe _ _ fs fa) as [_ [_ ev]]; rewrite val_opp, ev, fabs_val.
  destruct (Rlt_dec (val x) 0) as [l|l].
  + rewrite Rabs_left by exact l; replace (val x / - val x) with (- (1)) by (field; lra); rewrite RN_opp, RN_one, Ropp_involutive, Rmult_1_l; apply RN_id.
  + rewrite Rabs_pos_eq by lra; replace (val x / val x) with 1 by (field; lra); rewrite RN_one; replace (- (1) * val nx) with (- val nx) by ring.
    rewrite RN_opp, RN_id; ring.
- destruct (Req_EM_T (val x) 0) as [z|nz].
  + unfold M_Float.fone; rewrite Bone_correct, Rmult_1_l; apply RN_id.
  + exfalso; assert (E' : fneq prec emax (fabs prec emax x) fzero = true) by (apply fneq_val; [exact fa|]; rewrite fabs_val; apply Rabs_no_R0, nz); rewrite E' in E; discriminate.
Qed.
(* the first element of the vector, up to its sign *)
Lemma pivot_val (x nx : float) : fin x = true -> 0 <= val nx -> fin (fsub x (hh_alpha prec emax p0 pe x nx)) = true ->
  exists g W, (g = 1 \/ g = -1) /\ val x = g * Rabs (val x) /\ val (fsub x (hh_alpha prec emax p0 pe x nx)) = g * W /\
    Rabs (W - (Rabs (val x) + val nx)) <= u * (Rabs (val x) + val nx) /\ Rabs (val x) <= W.
Proof.
intros fx n0 f; destruct (fsub_inv _ _ _ _ _ _ f) as [_ fa]; destruct (alpha_val x nx fx fa) as [fn ea].
assert (S := sub_rel prec emax p0 x (hh_alpha prec emax p0 pe x nx)); assert (ev := fsub_val _ _ _ _ _ _ f).
assert (c0 := Rabs_pos (val x)).
set (a := hh_alpha prec emax p0 pe x nx) in *; set (y := val (fsub x a)) in *.
rewrite ea in *.
assert (ge : Rabs (val x) <= RN (Rabs (val x) + val nx)).
{ apply RN_ge; [exact p0|apply generic_format_abs, format_val|lra]. }
destruct (Req_EM_T (val x) 0) as [z|nz]; [|destruct (Rlt_dec (val x) 0) as [l|l]].
- exists (-1), (val nx); rewrite z, Rabs_R0; repeat split; [right; reflexivity|ring| |rewrite Rplus_0_l, Rminus_diag_eq, Rabs_R0 by reflexivity; generalize u14; nra|exact n0].
  rewrite ev, z; replace (0 - 1 * val nx) with (- val nx) by ring; rewrite RN_opp, RN_id; ring.
- exists (-1), (- y); rewrite Rabs_left in * by exact l; replace (val x - 1 * val nx) with (- (- val x + val nx)) in * by ring.
  rewrite RN_opp in ev; split; [right; reflexivity|split; [ring|split; [ring|split; [|lra]]]].
  rewrite RN_opp, Rabs_Ropp, (Rabs_pos_eq (- val x + val nx)) in S by lra; rewrite ev, Ropp_involutive.
  replace (RN (- val x + val nx) - (- val x + val nx)) with (- (- RN (- val x + val nx) - - (- val x + val nx))) by ring; rewrite Rabs_Ropp; exact S.
- exists 1, y; rewrite Rabs_pos_eq in * by lra; replace (val x - -1 * val nx) with (val x + val nx) in * by ring.
  split; [left; reflexivity|split; [ring|split; [ring|split; [|lra]]]].
  rewrite (Rabs_pos_eq (val x + val nx)) in S by lra; rewrite ev; exact S.
Qed.

Section Reflection.
Variables (Rm : fmat) (k : nat) (nx nu : float) (v : nat -> float).
Hypothesis kl : (k < m)%nat.
Hypothesis hh : fhouseholder prec emax p0 pe fmax pm ps m k Rm nx nu v.
Hypothesis fR : forall i, (i < m)%nat -> fin (Rm i k) = true.
Hypothesis fnu : fin nu = true.
Hypothesis thr : val nu = 0 \/ bpow radix2 (3 - emax + prec) <= val nu.
Hypothesis fv : forall i, (i < m)%nat -> fin (v i) = true.
Notation w := (hh_u prec emax p0 pe Rm k nx).
Notation vr := (fun i => val (v i)).
Definition xh : nat -> R := msk (fun i => Nat.leb k i) (fun i => val (Rm i k)).

Lemma hh_unit : Rabs (dot m vr vr - 1) <= dd.
Proof.
destruct hh as [_ [h2 e]]; subst v; rewrite <- nrm_sq; apply square_gap, (vector_nrm w k nu kl h2 fnu thr fv).
Qed.
Lemma hh_zero i : (i < k)%nat -> val (v i) = 0.
Proof.
intro hi; destruct hh as [_ [h2 e]].
assert (wi : w i = fzero).
{ unfold hh_u, hh_column; destruct (Nat.eqb_spec i k) as [->|_]; [lia|]; destruct (Nat.ltb_spec i k); [reflexivity|lia]. }
rewrite e; unfold hh_v; destruct (fneq prec emax nu fzero) eqn:E.
- rewrite wi; apply fneq_val in E; [|exact fnu]; apply fdiv_zero; [reflexivity|reflexivity|exact E].
- destruct (Nat.eqb_spec i k) as [->|_]; [lia|]; rewrite wi; reflexivity.
Qed.
Lemma xhE i : val (hh_column prec emax Rm k i) = xh i.
Proof. unfold hh_column, xh, msk; destruct (Nat.ltb_spec i k); destruct (Nat.leb_spec k i); try lia; reflexivity. Qed.
Lemma hh_tail : nrm m (msk (fun i => Nat.ltb k i) (reflect m vr xh)) <= tau * nrm m xh.
Proof.
destruct hh as [h1 [h2 e]]; cbv zeta in h2; assert (fw := length_fin w nu h2 fnu).
assert (t0 := tau0); assert (X0 := nrm_pos m xh).
assert (wl : forall i, (k < i)%nat -> val (w i) = xh i).
{ intros i hi; unfold hh_u; destruct (Nat.eqb_spec i k) as [->|_]; [lia|]; apply xhE. }
assert (wk : w k = fsub (hh_column prec emax Rm k k) (hh_alpha prec emax p0 pe (hh_column prec emax Rm k k) nx)) by (unfold hh_u; rewrite Nat.eqb_refl; reflexivity).
assert (ck : hh_column prec emax Rm k k = Rm k k) by (unfold hh_column; rewrite Nat.ltb_irrefl; reflexivity).
assert (fwk := fw k kl); rewrite wk, ck in fwk.
assert (fnx : fin nx = true) by (destruct (fsub_inv _ _ _ _ _ _ fwk) as [_ fa]; apply (alpha_val _ nx (fR k kl) fa)).
assert (LX := length_val (hh_column prec emax Rm k) nx h1 fnx); cbv zeta in LX.
rewrite (nrm_ext m (fun i => val (hh_column prec emax Rm k i)) xh) in LX by (intros; apply xhE).
assert (uu := u14); assert (e0 : 0 < eta) by apply bpow_gt_0; destruct ss1 as [s1 [s2 s3]]; destruct ss_up as [p1 p2].
set (X := nrm m xh) in *.
assert (n0 : 0 <= val nx) by (apply nonneg; assert (0 <= X * (1 - u) ^ KK) by (apply Rmult_le_pos; [exact X0|lra]); lra).
destruct (pivot_val (Rm k k) nx (fR k kl) n0 fwk) as [g [W [hg [e1 [e2 [e3 e4]]]]]].
assert (xk : xh k = val (Rm k k)) by (rewrite <- xhE, ck; reflexivity).
set (c := Rabs (val (Rm k k))) in *; assert (c0 : 0 <= c) by apply Rabs_pos.
assert (gg : g * g = 1) by (destruct hg; subst g; ring).
set (ek := fun i => if Nat.eqb i k then 1 else 0 : R).
assert (we : forall i, (i < m)%nat -> val (w i) = xh i + g * (W - c) * ek i).
{ intros i hi; unfold ek; destruct (Nat.eqb_spec i k) as [->|ne].
  - rewrite wk, ck, e2, xk, e1; ring.
  - unfold hh_u; destruct (Nat.eqb_spec i k) as [->|_]; [tauto|]; rewrite xhE; ring. }
assert (bk : dot m ek xh = g * c) by (unfold ek; rewrite dot_basis by exact kl; rewrite xk; exact e1).
assert (bb : dot m ek ek = 1) by (unfold ek; rewrite dot_basis by exact kl; rewrite Nat.eqb_refl; reflexivity).
assert (dwx : dot m (fun i => val (w i)) xh = X * X + (W - c) * c).
{ rewrite (dot_ext m _ xh (fun i => xh i + g * (W - c) * ek i) (fun i => xh i + 0 * ek i)); [|exact we|intros; ring].
  rewrite dot_comb, bk, bb; unfold X; rewrite nrm_sq; replace (g * (W - c) * (g * c)) with (g * g * ((W - c) * c)) by ring; rewrite gg; ring. }
assert (dww : dot m (fun i => val (w i)) (fun i => val (w i)) = X * X + (W - c) * (W + c)).
{ rewrite (dot_ext m _ _ (fun i => xh i + g * (W - c) * ek i) (fun i => xh i + g * (W - c) * ek i)); [|exact we|exact we].
  rewrite dot_comb, bk, bb; unfold X; rewrite nrm_sq; replace (g * (W - c) * (g * c)) with (g * g * ((W - c) * c)) by ring; rewrite gg.
  replace (g * (W - c) * (g * (W - c)) * 1) with (g * g * ((W - c) * (W - c))) by ring; rewrite gg; ring. }
destruct (Req_dec (val nu) 0) as [z|nz].
{ assert (fv' : forall i, (i < m)%nat -> fin (hh_v prec emax p0 pe w k nu i) = true) by (rewrite <- e; exact fv).
  destruct (zero_case w k nu kl h2 fnu thr z) as [w0 v0].
  apply Rle_trans with 0; [|apply Rmult_le_pos; assumption].
  apply Req_le; rewrite (nrm_ext m _ (fun i => 0 * 1)); [rewrite nrm_scal, Rabs_R0; ring|].
  intros i hi; unfold msk, reflect; destruct (Nat.ltb_spec k i) as [l|l]; [|ring].
  rewrite <- (wl i l), (w0 i hi), e, (v0 i hi); destruct (Nat.eqb_spec i k) as [->|_]; [lia|ring]. }
assert (fv' : forall i, (i < m)%nat -> fin (hh_v prec emax p0 pe w k nu i) = true) by (rewrite <- e; exact fv).
destruct (big_case w k nu kl h2 fnu thr fv' nz) as [U0 [eU [b1 [b2 b3]]]]; assert (nv := vector_nrm w k nu kl h2 fnu thr fv').
rewrite <- e in b3, nv.
set (U := val nu) in *; set (N := nrm m (fun i => val (w i))) in *.
assert (NN : N * N = X * X + (W - c) * (W + c)) by (unfold N; rewrite nrm_sq; exact dww).
assert (N0 : 0 <= N) by apply nrm_pos.
assert (XN : X <= N) by (assert (0 <= (W - c) * (W + c)) by (apply Rmult_le_pos; lra); nra).
set (q := N / U) in *; assert (Nq : N = q * U) by (unfold q; field; lra); clearbody q.
assert (q0 : 0 <= q) by nra.
assert (le1 : (1 - u) ^ 2 <= 1) by apply pow_le1, u01.
assert (qs : q <= ss) by (apply Rle_trans with (1 := b1); rewrite <- (Rmult_1_r ss) at 2; apply Rmult_le_compat_l; lra).
assert (qs' : / ss <= q) by (apply Rle_trans with (1 := b2); rewrite <- (Rmult_1_r q) at 2; apply Rmult_le_compat_l; lra).
assert (XU : X <= ss * U) by (apply Rle_trans with (1 := XN); rewrite Nq; apply Rmult_le_compat_r; lra).
assert (cX : c <= X).
{ unfold c; rewrite <- xk; rewrite <- (dot_basis m k xh kl); apply Rle_trans with (1 := cauchy _ _ _); fold ek; unfold nrm at 1; rewrite bb, sqrt_1, Rmult_1_l; apply Rle_refl. }
assert (NX : Rabs (val nx - X) <= ((ss - 1) * ss + u * u) * U).
{ assert (k1 : X * (1 + u) ^ KK <= X * ss) by (apply Rmult_le_compat_l; lra).
  assert (k2 : X * / ss <= X * (1 - u) ^ KK) by (apply Rmult_le_compat_l; lra).
  assert (k3 : X * (1 - / ss) <= X * (ss - 1)).
  { apply Rmult_le_compat_l; [exact X0|]; assert (si : / ss * ss = 1) by (apply Rinv_l; lra); assert (0 <= (ss - 1) * (1 - / ss)); [|nra].
    apply Rmult_le_pos; [lra|]; assert (/ ss <= 1) by (rewrite <- Rinv_1; apply Rinv_le_contravar; lra); lra. }
  assert (k4 : X * (ss - 1) <= ss * U * (ss - 1)) by (apply Rmult_le_compat_r; lra).
  apply Rabs_le; split; lra. }
assert (nxU : val nx <= (ss * ss + u * u) * U) by (apply Rabs_le_inv in NX; nra).
assert (Wc : Rabs (W - c - X) <= AA * U).
{ replace (W - c - X) with ((W - (c + val nx)) + (val nx - X)) by ring; apply Rle_trans with (1 := Rabs_triang _ _).
  assert (k1 : u * (c + val nx) <= u * ((ss + ss * ss + u * u) * U)) by (apply Rmult_le_compat_l; [lra|nra]).
  unfold AA; lra. }
assert (A0 := AA0).
assert (Wd : Rabs (X * X - (W - c) * (W - c)) <= AA * (2 * ss + AA) * (U * U)).
{ replace (X * X - (W - c) * (W - c)) with (- ((W - c - X) * (2 * X + (W - c - X)))) by ring; rewrite Rabs_Ropp, Rabs_mult.
  assert (k1 : Rabs (2 * X + (W - c - X)) <= (2 * ss + AA) * U).
  { apply Rle_trans with (1 := Rabs_triang _ _); rewrite (Rabs_pos_eq (2 * X)) by lra; lra. }
  replace (AA * (2 * ss + AA) * (U * U)) with (AA * U * ((2 * ss + AA) * U)) by ring.
  apply Rmult_le_compat; [apply Rabs_pos|apply Rabs_pos|exact Wc|exact k1]. }
assert (qq := square_gap q (conj qs' qs)); unfold dd in qq.
set (B := ss * ss - 1 + AA * (2 * ss + AA)) in *.
set (lam := 1 - 2 * dot m (fun i => val (w i)) xh / (U * U)).
assert (hlam : Rabs lam <= B).
{ unfold lam; rewrite dwx; replace (1 - 2 * (X * X + (W - c) * c) / (U * U)) with (- (q * q - 1) + - ((X * X - (W - c) * (W - c)) / (U * U))).
  - apply Rle_trans with (1 := Rabs_triang _ _); rewrite !Rabs_Ropp; unfold B; apply Rplus_le_compat; [exact qq|].
    unfold Rdiv; rewrite Rabs_mult, (Rabs_pos_eq (/ (U * U))) by (apply Rlt_le, Rinv_0_lt_compat; nra).
    apply (Rmult_le_reg_r (U * U)); [nra|]; rewrite Rmult_assoc, Rinv_l, Rmult_1_r by nra; exact Wd.
  - apply (Rmult_eq_reg_r (U * U)); [|nra]; replace ((- (q * q - 1) + - ((X * X - (W - c) * (W - c)) / (U * U))) * (U * U)) with (- (q * U * (q * U)) + U * U - (X * X - (W - c) * (W - c))) by (field; lra).
    rewrite <- Nq, NN; field; lra. }
set (ep := fun i => val (v i) - val (w i) / U) in *.
assert (ep0 := nrm_pos m ep); assert (epl : nrm m ep <= u * ss + u * u) by (apply Rle_trans with (1 := b3); nra).
assert (cv := cauchy m vr xh); assert (ce := cauchy m ep xh); fold X in cv, ce.
assert (dv : dot m vr xh = dot m (fun i => val (w i)) xh / U + dot m ep xh).
{ rewrite (dot_ext m vr xh (fun i => / U * val (w i) + ep i) xh) by (intros; unfold ep; try field; try reflexivity; lra).
  rewrite dot_plus, dot_scal; unfold Rdiv; ring. }
assert (pn : nrm m (fun i => val (w i) / U) = q).
{ rewrite (nrm_ext m (fun i => val (w i) / U) (fun i => / U * val (w i))) by (intros; unfold Rdiv; ring).
  rewrite nrm_scal, Rabs_pos_eq by (apply Rlt_le, Rinv_0_lt_compat, U0); fold N; rewrite Nq; field; lra. }
set (b := 2 * (nrm m ep * X)); set (bv := 2 * (ss * X)).
assert (bp : 0 <= b) by (unfold b; apply Rmult_le_pos; [lra|apply Rmult_le_pos; assumption]).
assert (bvp : 0 <= bv) by (unfold bv; apply Rmult_le_pos; [lra|apply Rmult_le_pos; lra]).
assert (B0 : 0 <= B) by (apply Rle_trans with (2 := hlam), Rabs_pos).
apply Rle_trans with (nrm m (fun i => B * Rabs (xh i) + (b * Rabs (val (w i) / U) + bv * Rabs (ep i)))).
{ apply nrm_le; intros i hi; unfold msk; destruct (Nat.ltb_spec k i) as [l|l].
  - assert (ei : reflect m vr xh i = lam * xh i + (- 2 * dot m ep xh * (val (w i) / U) + - 2 * dot m vr xh * ep i)).
    { unfold reflect; replace (val (v i)) with (val (w i) / U + ep i) at 1 by (unfold ep; ring).
      unfold lam; rewrite Rmult_plus_distr_l, <- Rplus_assoc, <- (Rplus_assoc _ _ (- 2 * dot m vr xh * ep i)); f_equal; rewrite dv, (wl i l); field; lra. }
    rewrite ei; apply Rle_trans with (1 := Rabs_triang _ _); apply Rplus_le_compat; [rewrite Rabs_mult; apply Rmult_le_compat_r; [apply Rabs_pos|exact hlam]|].
    apply Rle_trans with (1 := Rabs_triang _ _); rewrite !Rabs_mult, (Rabs_left (-2)) by lra; apply Rplus_le_compat; apply Rmult_le_compat_r; try apply Rabs_pos.
    + unfold b; lra.
    + unfold bv; assert (nrm m vr * X <= ss * X) by (apply Rmult_le_compat_r; [exact X0|apply nv]); lra.
  - rewrite Rabs_R0; repeat apply Rplus_le_le_0_compat; apply Rmult_le_pos; try assumption; apply Rabs_pos. }
apply Rle_trans with (1 := triangle _ _ _); rewrite nrm_scal, nrm_abs, (Rabs_pos_eq B) by exact B0; fold X.
apply Rle_trans with (B * X + (b * q + bv * nrm m ep)).
{ apply Rplus_le_compat_l; apply Rle_trans with (1 := triangle _ _ _); rewrite !nrm_scal, !nrm_abs, (Rabs_pos_eq b), (Rabs_pos_eq bv), pn by assumption; apply Rle_refl. }
unfold tau; fold B; unfold b, bv.
assert (k1 : nrm m ep * X * q <= (u * ss + u * u) * X * ss).
{ apply Rmult_le_compat; [apply Rmult_le_pos; assumption|exact q0|apply Rmult_le_compat_r; assumption|exact qs]. }
assert (k2 : ss * X * nrm m ep <= ss * X * (u * ss + u * u)) by (apply Rmult_le_compat_l; [apply Rmult_le_pos; lra|exact epl]).
lra.
Qed.
End Reflection.
End FloatHH.
