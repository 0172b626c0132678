(* Lemmas about the floating point algorithms of M_Float.v *)
From Coq Require Import ZArith List Reals Lia Lra.
From Flocq Require Import Core Plus_error Mult_error Relative Pff2Flocq IEEE754.BinarySingleNaN.
From Verif Require Import M_Float.
Import ListNotations.
Local Open Scope R_scope.

Section FloatP.
Variables prec emax : Z.
Context (prec_gt_0_ : Prec_gt_0 prec) (prec_lt_emax_ : Prec_lt_emax prec emax).
Hypothesis prec1 : (1 < prec)%Z.
Notation float := (binary_float prec emax).
Notation emin := (SpecFloat.emin prec emax).
Notation fexp := (FLT_exp emin prec).
Notation RN := (round radix2 fexp ZnearestE).
Notation format := (generic_format radix2 fexp).
Notation bp := (bpow radix2).
Notation u := (bpow radix2 (- prec)).
Notation val := (@B2R prec emax).
Notation fin := (@is_finite prec emax).
Notation "x + y" := (fadd prec emax prec_gt_0_ prec_lt_emax_ x y) : float_scope.
Notation "x - y" := (fsub prec emax prec_gt_0_ prec_lt_emax_ x y) : float_scope.
Notation "x * y" := (fmul prec emax prec_gt_0_ prec_lt_emax_ x y) : float_scope.
Delimit Scope float_scope with F.

Lemma emin_neg : (emin <= 0)%Z.
Proof. unfold SpecFloat.emin; generalize (prec_lt_emax prec emax); lia. Qed.
Lemma choice_sym (x : Z) : negb (Z.even x) = negb (negb (Z.even (- (x + 1)))).
Proof. rewrite Z.even_opp, Z.even_add; simpl; destruct (Z.even x); reflexivity. Qed.
Instance fexp_valid : Valid_exp fexp.
Proof. apply FLT_exp_valid; exact prec_gt_0_. Qed.

Lemma format_val x : format (val x).
Proof. exact (generic_format_B2R prec emax x). Qed.
Lemma val_lt x : Rabs (val x) < bp emax.
Proof. apply abs_B2R_lt_emax. Qed.

(* rounding stays below a bound in the format *)
Lemma RN_le x y : format y -> Rabs x <= Rabs y -> Rabs (RN x) <= Rabs y.
Proof. intros fy h; apply abs_round_le_generic; auto with typeclass_instances; apply generic_format_abs; exact fy. Qed.

Lemma not_finite_overflow (x : float) s : B2SF x = binary_overflow prec emax mode_NE s -> fin x = false.
Proof. intro h; rewrite <- is_finite_SF_B2SF, h; reflexivity. Qed.

Lemma fadd_inv x y : fin (x + y)%F = true -> fin x = true /\ fin y = true.
Proof. unfold fadd; destruct x as [?|?| |? ? ? ?], y as [?|?| |? ? ? ?]; simpl; try (split; reflexivity); try discriminate; destruct (Bool.eqb s s0); discriminate. Qed.
Lemma fsub_inv x y : fin (x - y)%F = true -> fin x = true /\ fin y = true.
Proof. unfold fsub; destruct x as [?|?| |? ? ? ?], y as [?|?| |? ? ? ?]; simpl; try (split; reflexivity); try discriminate; destruct (Bool.eqb s _); discriminate. Qed.
Lemma fmul_inv x y : fin (x * y)%F = true -> fin x = true /\ fin y = true.
Proof. unfold fmul; destruct x as [?|?| |? ? ? ?], y as [?|?| |? ? ? ?]; simpl; try (split; reflexivity); discriminate. Qed.
Lemma ffma_inv x y z : fin (ffma prec emax prec_gt_0_ prec_lt_emax_ x y z) = true -> fin x = true /\ fin y = true /\ fin z = true.
Proof.
unfold ffma; destruct x as [?|?| |? ? ? ?], y as [?|?| |? ? ? ?], z as [?|?| |? ? ? ?]; simpl; try (repeat split; reflexivity);
  try discriminate; destruct (Bool.eqb _ _); discriminate.
Qed.

Lemma fadd_val x y : fin (x + y)%F = true -> val (x + y)%F = RN (val x + val y).
Proof.
intro h; destruct (fadd_inv _ _ h) as [hx hy]; generalize (Bplus_correct prec emax _ _ mode_NE x y hx hy).
destruct (Rlt_bool_spec (Rabs (round radix2 (SpecFloat.fexp prec emax) (round_mode mode_NE) (val x + val y))) (bp emax)) as [l|l]; [tauto|].
intros [h1 _]; apply not_finite_overflow in h1; unfold fadd in h; congruence.
Qed.
Lemma fsub_val x y : fin (x - y)%F = true -> val (x - y)%F = RN (val x - val y).
Proof.
intro h; destruct (fsub_inv _ _ h) as [hx hy]; generalize (Bminus_correct prec emax _ _ mode_NE x y hx hy).
destruct (Rlt_bool_spec (Rabs (round radix2 (SpecFloat.fexp prec emax) (round_mode mode_NE) (val x - val y))) (bp emax)) as [l|l]; [tauto|].
intros [h1 _]; apply not_finite_overflow in h1; unfold fsub in h; congruence.
Qed.
Lemma fmul_val x y : fin (x * y)%F = true -> val (x * y)%F = RN (val x * val y).
Proof.
intro h; generalize (Bmult_correct prec emax _ _ mode_NE x y).
destruct (Rlt_bool_spec (Rabs (round radix2 (SpecFloat.fexp prec emax) (round_mode mode_NE) (val x * val y))) (bp emax)) as [l|l]; [tauto|].
intro h1; apply not_finite_overflow in h1; unfold fmul in h; congruence.
Qed.
Lemma ffma_val x y z : let r := ffma prec emax prec_gt_0_ prec_lt_emax_ x y z in fin r = true -> val r = RN (val x * val y + val z).
Proof.
intros r h; destruct (ffma_inv _ _ _ h) as [hx [hy hz]]; generalize (Bfma_correct prec emax _ _ mode_NE x y z hx hy hz); cbv zeta.
destruct (Rlt_bool_spec (Rabs (round radix2 (SpecFloat.fexp prec emax) (round_mode mode_NE) (val x * val y + val z))) (bp emax)) as [l|l]; [tauto|].
intro h1; apply not_finite_overflow in h1; unfold r, ffma in h; congruence.
Qed.
Lemma fadd_fin x y : fin x = true -> fin y = true -> Rabs (RN (val x + val y)) < bp emax -> fin (x + y)%F = true.
Proof.
intros hx hy h; generalize (Bplus_correct prec emax _ _ mode_NE x y hx hy).
rewrite Rlt_bool_true by exact h; tauto.
Qed.
Lemma fsub_fin x y : fin x = true -> fin y = true -> Rabs (RN (val x - val y)) < bp emax -> fin (x - y)%F = true.
Proof.
intros hx hy h; generalize (Bminus_correct prec emax _ _ mode_NE x y hx hy).
rewrite Rlt_bool_true by exact h; tauto.
Qed.
Lemma ffma_fin x y z : fin x = true -> fin y = true -> fin z = true -> Rabs (RN (val x * val y + val z)) < bp emax ->
  fin (ffma prec emax prec_gt_0_ prec_lt_emax_ x y z) = true.
Proof.
intros hx hy hz h; generalize (Bfma_correct prec emax _ _ mode_NE x y z hx hy hz); cbv zeta.
rewrite Rlt_bool_true by exact h; tauto.
Qed.
Lemma fmul_fin x y : fin x = true -> fin y = true -> Rabs (RN (val x * val y)) < bp emax -> fin (x * y)%F = true.
Proof.
intros hx hy h; generalize (Bmult_correct prec emax _ _ mode_NE x y).
rewrite Rlt_bool_true by exact h; rewrite hx, hy; tauto.
Qed.

(** * Error-free addition *)
Lemma RN_opp x : RN (- x) = - RN x.
Proof. apply round_NE_opp. Qed.
(* rounding errors of additions *)
Lemma add_error x y : format x -> format y -> Rabs (RN (x + y) - (x + y)) <= u * Rabs (x + y).
Proof.
intros fx fy; destruct (FLT_plus_error_N_ex radix2 emin prec (fun t => negb (Z.even t)) x y fx fy) as [eps [h ->]].
replace ((x + y) * (1 + eps) - (x + y)) with (eps * (x + y)) by ring; rewrite Rabs_mult; apply Rmult_le_compat_r; [apply Rabs_pos|].
apply Rle_trans with (1 := h); assert (p := bpow_gt_0 radix2 (- prec)).
replace (u_ro radix2 prec) with u; [apply (Rmult_le_reg_r (1 + u)); [lra|]; unfold Rdiv; rewrite Rmult_assoc, Rinv_l; nra|].
unfold u_ro; rewrite bpow_plus; simpl (bp 1); lra.
Qed.

Lemma fast2sum_R x y : format x -> format y -> Rabs y <= Rabs x ->
  let s := RN (x + y) in
  Rabs (RN (s - x)) <= Rmax (Rabs x) (Rabs s) /\ RN (y - RN (s - x)) = x + y - s.
Proof.
intros fx fy h s; split.
- assert (fs : format s) by (apply generic_format_round; auto with typeclass_instances).
  destruct (Rle_or_lt 0 x) as [hx|hx].
  + assert (s0 : 0 <= s).
    { apply round_ge_generic; auto with typeclass_instances; [apply generic_format_0|].
      generalize (Rle_abs (- y)); rewrite Rabs_Ropp, (Rabs_pos_eq x hx) in *; lra. }
    destruct (Rle_or_lt x s) as [l|l].
    * apply Rle_trans with (2 := Rmax_r _ _); apply RN_le; [exact fs|]; rewrite !Rabs_pos_eq; lra.
    * apply Rle_trans with (2 := Rmax_l _ _); apply RN_le; [exact fx|]; rewrite Rabs_left1, Rabs_pos_eq; lra.
  + assert (s0 : s <= 0).
    { apply round_le_generic; auto with typeclass_instances; [apply generic_format_0|].
      generalize (Rle_abs y); rewrite (Rabs_left x hx) in *; lra. }
    destruct (Rle_or_lt x s) as [l|l].
    * apply Rle_trans with (2 := Rmax_l _ _); apply RN_le; [exact fx|]; rewrite Rabs_pos_eq, Rabs_left; lra.
    * apply Rle_trans with (2 := Rmax_r _ _); apply RN_le; [exact fs|]; rewrite !Rabs_left1; lra.
- generalize (Fast2Sum_correct emin prec (fun t => negb (Z.even t)) prec1 emin_neg choice_sym x y fx fy h); fold s.
  replace (s - x) with (- (x - s)) by ring; rewrite RN_opp.
  replace (y - - RN (x - s)) with (y + RN (x - s)) by ring; intro e; apply (Rplus_eq_reg_l s); rewrite e; ring.
Qed.

(* the error of a floating point addition, computed as Fast2Sum and SumCompensated do *)
Lemma fast2sum_ok (x y : float) : Rabs (val y) <= Rabs (val x) -> fin (x + y)%F = true ->
  fin (y - ((x + y) - x))%F = true /\ val (y - ((x + y) - x))%F = val x + val y - val (x + y)%F.
Proof.
intros h hs; destruct (fadd_inv _ _ hs) as [hx hy]; assert (es := fadd_val _ _ hs).
destruct (fast2sum_R _ _ (format_val x) (format_val y) h) as [h1 h2]; rewrite <- es in *.
assert (hz : fin ((x + y) - x)%F = true).
{ apply fsub_fin; [exact hs|exact hx|]; apply Rle_lt_trans with (1 := h1); apply Rmax_lub_lt; apply val_lt. }
assert (hc : fin (y - ((x + y) - x))%F = true).
{ apply fsub_fin; [exact hy|exact hz|]; rewrite (fsub_val _ _ hz), h2.
  apply Rle_lt_trans with (2 := val_lt y); rewrite es.
  replace (val x + val y - RN (val x + val y)) with (- (RN (val x + val y) - (val x + val y))) by ring; rewrite Rabs_Ropp.
  apply plus_error_le_r; auto with typeclass_instances; apply format_val. }
split; [exact hc|]; rewrite (fsub_val _ _ hc), (fsub_val _ _ hz); exact h2.
Qed.
Lemma neumaier_ok (x y : float) : Rabs (val y) <= Rabs (val x) -> fin (x + y)%F = true ->
  fin ((x - (x + y)) + y)%F = true /\ val ((x - (x + y)) + y)%F = val x + val y - val (x + y)%F.
Proof.
intros h hs; destruct (fadd_inv _ _ hs) as [hx hy]; assert (es := fadd_val _ _ hs).
destruct (fast2sum_R _ _ (format_val x) (format_val y) h) as [h1 h2]; rewrite <- es in *.
assert (e : RN (val x - val (x + y)%F) = - RN (val (x + y)%F - val x)) by (rewrite <- RN_opp; f_equal; ring).
assert (hz : fin (x - (x + y))%F = true).
{ apply fsub_fin; [exact hx|exact hs|]; rewrite e, Rabs_Ropp.
  apply Rle_lt_trans with (1 := h1); apply Rmax_lub_lt; apply val_lt. }
assert (e2 : RN (val (x - (x + y))%F + val y) = val x + val y - val (x + y)%F).
{ rewrite (fsub_val _ _ hz), e, Rplus_comm; exact h2. }
assert (hc : fin ((x - (x + y)) + y)%F = true).
{ apply fadd_fin; [exact hz|exact hy|]; rewrite e2.
  apply Rle_lt_trans with (2 := val_lt y); rewrite es.
  replace (val x + val y - RN (val x + val y)) with (- (RN (val x + val y) - (val x + val y))) by ring; rewrite Rabs_Ropp.
  apply plus_error_le_r; auto with typeclass_instances; apply format_val. }
split; [exact hc|]; rewrite (fadd_val _ _ hc); exact e2.
Qed.
Lemma fadd_comm (x y : float) : fin (x + y)%F = true -> fin (y + x)%F = true /\ val (y + x)%F = val (x + y)%F.
Proof.
intro h; destruct (fadd_inv _ _ h) as [hx hy].
assert (h' : fin (y + x)%F = true).
{ apply fadd_fin; [exact hy|exact hx|]; rewrite Rplus_comm, <- (fadd_val _ _ h); apply val_lt. }
split; [exact h'|]; rewrite (fadd_val _ _ h), (fadd_val _ _ h'), Rplus_comm; reflexivity.
Qed.
Lemma fgt_abs (x y : float) : fin x = true -> fin y = true ->
  fgt prec emax (fabs prec emax x) (fabs prec emax y) = true <-> Rabs (val y) < Rabs (val x).
Proof.
intros hx hy; unfold fgt, fabs; rewrite Bcompare_correct by (rewrite is_finite_Babs; assumption).
rewrite !B2R_Babs; case Rcompare_spec; intuition (try discriminate; lra).
Qed.
End FloatP.
