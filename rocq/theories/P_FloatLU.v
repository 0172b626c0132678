(* Lemmas about the floating point solvers and decompositions of M_FloatLU.v *)
From Coq Require Import ZArith List Arith Bool Reals Lia Lra Psatz.
From Flocq Require Import Core Plus_error Mult_error Relative IEEE754.BinarySingleNaN.
From Verif Require Import M_Float P_Float P_FloatD M_FloatN P_FloatN M_FloatLU.
Import ListNotations.
Local Open Scope R_scope.

Section FloatLUP.
Variables prec emax : Z.
Context (prec_gt_0_ : Prec_gt_0 prec) (prec_lt_emax_ : Prec_lt_emax prec emax).
Hypothesis prec1 : (1 < prec)%Z.
Notation float := (binary_float prec emax).
Notation emin := (SpecFloat.emin prec emax).
Notation fexp := (FLT_exp emin prec).
Notation RN := (round radix2 fexp ZnearestE).
Notation format := (generic_format radix2 fexp).
Notation bp := (bpow radix2).
Notation u := (bpow radix2 (- prec)).
Notation val := (@B2R prec emax).
Notation fin := (@is_finite prec emax).
Notation fsub := (fsub prec emax prec_gt_0_ prec_lt_emax_).
Notation fmul := (fmul prec emax prec_gt_0_ prec_lt_emax_).
Notation fdiv := (fdiv prec emax prec_gt_0_ prec_lt_emax_).
Notation ffma := (ffma prec emax prec_gt_0_ prec_lt_emax_).
Notation fzero := (fzero prec emax).
Notation fmat := (fmat prec emax).
Notation fmsub := (fmsub prec emax prec_gt_0_ prec_lt_emax_).
(* half the smallest subnormal number *)
Notation eps := (bpow radix2 (emin - 1)).
Instance fexp_valid4 : Valid_exp fexp.
Proof. apply FLT_exp_valid; exact prec_gt_0_. Qed.

(** * Errors relative to the result *)
Lemma RN_err_r t : Rabs (t - RN t) <= u * Rabs (RN t) + eps.
Proof.
rewrite Rabs_minus_sym.
assert (h : Rabs (RN t - t) <= / 2 * ulp radix2 fexp (RN t)) by (apply error_le_half_ulp_round; auto with typeclass_instances).
assert (ep : 0 < eps) by apply bpow_gt_0; assert (up : 0 < u) by apply bpow_gt_0; assert (ra := Rabs_pos (RN t)).
destruct (Rle_or_lt (bp (emin + prec - 1)) (Rabs (RN t))) as [l|l].
- generalize (ulp_FLT_le radix2 emin prec (RN t) l); rewrite (bpow_plus radix2 1 (- prec) : bp (1 - prec) = bp 1 * u); change (bp 1) with 2; lra.
- rewrite ulp_FLT_small in h; [|exact prec_gt_0_|].
  + replace eps with (/ 2 * bp emin); [nra|]; replace (emin - 1)%Z with (emin + -1)%Z by lia; rewrite bpow_plus; change (bp (-1)) with (/ 2); ring.
  + apply Rlt_le_trans with (1 := l), bpow_le; lia.
Qed.
Lemma sub_err_r x y : format x -> format y -> Rabs (x - y - RN (x - y)) <= u * Rabs (RN (x - y)).
Proof.
intros fx fy; assert (h := add_err emin prec _ x (- y) fx (generic_format_opp _ _ _ fy)).
replace (x + - y) with (x - y) in h by ring; rewrite Rabs_minus_sym in h.
set (z := x - y) in *; set (r := RN z) in *; assert (up : 0 < u) by apply bpow_gt_0.
assert (t := Rabs_triang r (z - r)); replace (r + (z - r)) with z in t by ring.
assert (e : u / (1 + u) * (1 + u) = u) by (field; lra).
assert (a := Rabs_pos (z - r)); set (w := u / (1 + u)) in *; assert (0 < w) by (unfold w; apply Rdiv_lt_0_compat; lra).
assert (ww : w * Rabs z <= w * Rabs r + w * Rabs (z - r)) by nra.
assert ((1 - w) * Rabs (z - r) <= w * Rabs r) by lra.
assert (e2 : w = u * (1 - w)) by nra. rewrite e2 in H0 at 2.
assert (w1 : 0 < 1 - w) by nra. apply (Rmult_le_reg_l (1 - w)); [exact w1|]; lra.
Qed.

Lemma fdiv_inv x y : fin (fdiv x y) = true -> fin y = true -> fin x = true /\ val y <> 0 /\ val (fdiv x y) = RN (val x / val y).
Proof.
intros f fy.
assert (y0 : val y <> 0).
{ intro e; destruct y as [s|s| |s m ex b]; try discriminate.
  - destruct x as [?|?| |? ? ? ?]; simpl in f; discriminate.
  - simpl in e; destruct s; cbn [cond_Zopp] in e; unfold F2R in e; cbn [Fnum Fexp] in e; apply Rmult_integral in e;
      (destruct e as [e|e]; [apply eq_IZR in e; discriminate|generalize (bpow_gt_0 radix2 ex); simpl in e; lra]). }
assert (fx : fin x = true).
{ destruct x as [?|?| |? ? ? ?], y as [?|?| |? ? ? ?]; try reflexivity; try discriminate; simpl in f; discriminate. }
split; [exact fx|split; [exact y0|]].
generalize (Bdiv_correct prec emax prec_gt_0_ prec_lt_emax_ mode_NE x y y0).
destruct (Rlt_bool _ _); [intros [h _]; exact h|intro h; exfalso].
apply not_finite_overflow in h; unfold M_Float.fdiv in f; congruence.
Qed.
Lemma fdiv_fin x y : fin x = true -> val y <> 0 -> Rabs (RN (val x / val y)) < bp emax ->
  fin (fdiv x y) = true /\ val (fdiv x y) = RN (val x / val y).
Proof.
intros fx y0 h; generalize (Bdiv_correct prec emax prec_gt_0_ prec_lt_emax_ mode_NE x y y0); rewrite Rlt_bool_true by exact h.
intros [h1 [h2 _]]; unfold M_Float.fdiv; rewrite h2; auto.
Qed.
Lemma fdiv_err x y : fin (fdiv x y) = true -> fin y = true ->
  Rabs (val x - val y * val (fdiv x y)) <= u * Rabs (val y * val (fdiv x y)) + eps * Rabs (val y).
Proof.
intros f fy; destruct (fdiv_inv x y f fy) as [fx [y0 e]]; rewrite e; assert (h := RN_err_r (val x / val y)); set (q := RN (val x / val y)) in *.
replace (val x - val y * q) with (val y * (val x / val y - q)) by (field; exact y0); rewrite !Rabs_mult; assert (a := Rabs_pos (val y)); nra.
Qed.
Lemma fdiv_zero x y : fin x = true -> val x = 0 -> val y <> 0 -> fin (fdiv x y) = true /\ val (fdiv x y) = 0.
Proof.
intros fx ex y0; destruct (fdiv_fin x y fx y0) as [h1 h2]; rewrite ex in *; unfold Rdiv in *; rewrite Rmult_0_l, round_0 in * by auto with typeclass_instances.
- rewrite Rabs_R0; apply bpow_gt_0.
- auto.
Qed.

Lemma val_opp x : val (Bopp x) = - val x. Proof. apply B2R_Bopp. Qed.
Lemma fmsub_inv fused a x y : fin (fmsub fused a x y) = true -> fin a = true /\ fin x = true /\ fin y = true.
Proof.
unfold M_FloatLU.fmsub; destruct fused; intro f.
- apply ffma_inv in f; rewrite is_finite_Bopp in f; tauto.
- apply fsub_inv in f; destruct f as [fa f]; apply fmul_inv in f; tauto.
Qed.
Lemma fmsub_err fused a x y : fin (fmsub fused a x y) = true ->
  Rabs (val a - val x * val y - val (fmsub fused a x y)) <= u * Rabs (val (fmsub fused a x y)) + u * Rabs (val x * val y) + eps.
Proof.
assert (up : 0 < u) by apply bpow_gt_0; unfold M_FloatLU.fmsub; destruct fused; intro f.
- rewrite (ffma_val _ _ _ _ _ _ _ f), val_opp; replace (- val x * val y + val a) with (val a - val x * val y) by ring.
  assert (h := RN_err_r (val a - val x * val y)); assert (p := Rabs_pos (val x * val y)); nra.
- destruct (fsub_inv _ _ _ _ _ _ f) as [_ f']; rewrite (fsub_val _ _ _ _ _ _ f), (fmul_val _ _ _ _ _ _ f').
  assert (h1 := sub_err_r (val a) (RN (val x * val y)) (format_val _ _ a) (generic_format_round _ _ _ _)).
  assert (h2 := RN_err prec emax _ (val x * val y)); rewrite Rabs_minus_sym in h2.
  set (p := RN (val x * val y)) in *; set (r := RN (val a - p)) in *.
  replace (val a - val x * val y - r) with ((val a - p - r) - (val x * val y - p)) by ring.
  apply Rle_trans with (Rabs (val a - p - r) + Rabs (val x * val y - p)); [|lra].
  unfold Rminus at 1; rewrite <- (Rabs_Ropp (val x * val y - p)); apply Rabs_triang.
Qed.
Lemma RN_val x : RN (val x) = val x.
Proof. apply round_generic; [auto with typeclass_instances|apply format_val]. Qed.
Lemma fmsub_zero fused a x y : fin a = true -> fin x = true -> fin y = true -> val x * val y = 0 ->
  fin (fmsub fused a x y) = true /\ val (fmsub fused a x y) = val a.
Proof.
intros fa fx fy e; unfold M_FloatLU.fmsub; destruct fused.
- assert (f : fin (ffma (Bopp x) y a) = true).
  { apply ffma_fin; try assumption; [rewrite is_finite_Bopp; exact fx|]; rewrite val_opp; replace (- val x * val y + val a) with (val a) by lra.
    rewrite RN_val; apply val_lt. }
  split; [exact f|]; rewrite (ffma_val _ _ _ _ _ _ _ f), val_opp; replace (- val x * val y + val a) with (val a) by lra; apply RN_val.
- assert (f : fin (fmul x y) = true).
  { apply fmul_fin; try assumption; rewrite e, round_0, Rabs_R0 by auto with typeclass_instances; apply bpow_gt_0. }
  assert (e' : val (fmul x y) = 0) by (rewrite (fmul_val _ _ _ _ _ _ f), e; apply round_0; auto with typeclass_instances).
  assert (f' : fin (fsub a (fmul x y)) = true).
  { apply fsub_fin; try assumption; rewrite e', Rminus_0_r, RN_val; apply val_lt. }
  split; [exact f'|]; rewrite (fsub_val _ _ _ _ _ _ f'), e', Rminus_0_r; apply RN_val.
Qed.

(** * Subtracting products one after the other *)
Definition chain (k : nat) (c S T s : R) : Prop :=
  Rabs (c - S - s) <= ((1 + u) ^ k - 1) * (T + Rabs s) + (1 + u) ^ k * (INR k * eps).
Lemma pow1u k : 1 <= (1 + u) ^ k.
Proof. apply pow_R1_Rle; generalize (bpow_gt_0 radix2 (- prec)); lra. Qed.
Lemma chain0 c : chain 0 c 0 0 c.
Proof. unfold chain; simpl; replace (c - 0 - c) with 0 by ring; rewrite Rabs_R0; lra. Qed.
Lemma chain_step k c S T s q s' : 0 <= T -> chain k c S T s -> Rabs (s - q - s') <= u * Rabs s' + u * Rabs q + eps ->
  chain (Datatypes.S k) c (S + q) (T + Rabs q) s'.
Proof.
unfold chain; intros t0 h l; assert (g := pow1u k); rewrite S_INR; cbn [pow]; set (w := (1 + u) ^ k) in *.
assert (up : 0 < u) by apply bpow_gt_0; assert (ep : 0 < eps) by apply bpow_gt_0; assert (kp := pos_INR k).
assert (ls : Rabs s <= (1 + u) * Rabs s' + (1 + u) * Rabs q + eps).
{ replace s with (s' + q + (s - q - s')) by ring.
  apply Rle_trans with (1 := Rabs_triang _ _); generalize (Rabs_triang s' q); lra. }
replace (c - (S + q) - s') with ((c - S - s) + (s - q - s')) by ring; apply Rle_trans with (1 := Rabs_triang _ _).
assert (a1 := Rabs_pos s'); assert (a2 := Rabs_pos q); assert (a3 := Rabs_pos s).
assert (m : (w - 1) * Rabs s <= (w - 1) * ((1 + u) * Rabs s' + (1 + u) * Rabs q + eps)) by (apply Rmult_le_compat_l; lra).
assert (0 <= u * w * T) by (repeat apply Rmult_le_pos; lra).
assert (0 <= u * w * ((INR k + 1) * eps)) by (repeat apply Rmult_le_pos; lra).
assert (0 <= w * INR k * eps) by (repeat apply Rmult_le_pos; lra).
nra.
Qed.
Lemma chain_div k c S T s q e : 0 <= T -> 0 <= e -> chain k c S T s -> Rabs (s - q) <= u * Rabs q + eps * e ->
  Rabs (c - (S + q)) <= ((1 + u) ^ Datatypes.S k - 1) * (T + Rabs q) + (1 + u) ^ k * ((INR k + e) * eps).
Proof.
unfold chain; intros t0 e0 h l; assert (g := pow1u k); cbn [pow]; set (w := (1 + u) ^ k) in *.
assert (up : 0 < u) by apply bpow_gt_0; assert (ep : 0 < eps) by apply bpow_gt_0; assert (kp := pos_INR k).
assert (ls : Rabs s <= (1 + u) * Rabs q + eps * e).
{ replace s with (q + (s - q)) by ring; apply Rle_trans with (1 := Rabs_triang _ _); lra. }
replace (c - (S + q)) with ((c - S - s) + (s - q)) by ring; apply Rle_trans with (1 := Rabs_triang _ _).
assert (m : (w - 1) * Rabs s <= (w - 1) * ((1 + u) * Rabs q + eps * e)) by (apply Rmult_le_compat_l; lra).
assert (0 <= u * w * T) by (repeat apply Rmult_le_pos; lra).
nra.
Qed.
(* the bound of a residual: [k] operations, a term [e] for underflow in a division *)
Definition bound (k : nat) (T e : R) : R := ((1 + u) ^ k - 1) * T + (1 + u) ^ k * ((INR k + e) * eps).
Lemma bound_mono k k' T T' e e' : (k <= k')%nat -> 0 <= T <= T' -> 0 <= e <= e' -> bound k T e <= bound k' T' e'.
Proof.
intros hk hT he; unfold bound; assert (p : (1 + u) ^ k <= (1 + u) ^ k') by (apply Rle_pow; [generalize (bpow_gt_0 radix2 (- prec)); lra|exact hk]).
assert (g := pow1u k); assert (ep : 0 < eps) by apply bpow_gt_0; assert (kp := pos_INR k); assert (hk' := le_INR _ _ hk).
apply Rplus_le_compat; apply Rmult_le_compat; try lra.
- apply Rmult_le_pos; lra.
- apply Rmult_le_compat_r; lra.
Qed.
Lemma chain_bound k c S T s : 0 <= T -> chain k c S T s -> Rabs (c - (S + s)) <= bound k (T + Rabs s) 0.
Proof. unfold chain, bound; intros t h; rewrite Rplus_0_r; replace (c - (S + s)) with (c - S - s) by ring; exact h. Qed.
Lemma div_bound k c S T s q e : 0 <= T -> 0 <= e -> chain k c S T s -> Rabs (s - q) <= u * Rabs q + eps * e ->
  Rabs (c - (S + q)) <= bound (Datatypes.S k) (T + Rabs q) e.
Proof.
intros t e0 h l; apply Rle_trans with (1 := chain_div _ _ _ _ _ _ _ t e0 h l); unfold bound; apply Rplus_le_compat_l.
assert (g := pow1u k); assert (up : 0 < u) by apply bpow_gt_0; assert (ep : 0 < eps) by apply bpow_gt_0; assert (kp := pos_INR k).
rewrite S_INR; cbn [pow]; apply Rmult_le_compat; [lra|apply Rmult_le_pos; lra|nra|apply Rmult_le_compat_r; lra].
Qed.
End FloatLUP.
