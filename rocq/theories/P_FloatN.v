(* Lemmas about the floating point lengths of M_FloatN.v *)
From Coq Require Import ZArith List Reals Lia Lra.
From Flocq Require Import Core Plus_error Mult_error Relative IEEE754.BinarySingleNaN.
From Verif Require Import M_Float P_Float P_FloatD M_FloatN.
Import ListNotations.
Local Open Scope R_scope.

Section FloatNP.
Variables prec emax : Z.
Context (prec_gt_0_ : Prec_gt_0 prec) (prec_lt_emax_ : Prec_lt_emax prec emax).
Hypothesis prec1 : (1 < prec)%Z.
Notation float := (binary_float prec emax).
Notation emin := (SpecFloat.emin prec emax).
Notation fexp := (FLT_exp emin prec).
Notation RN := (round radix2 fexp ZnearestE).
Notation format := (generic_format radix2 fexp).
Notation bp := (bpow radix2).
Notation u := (bpow radix2 (- prec)).
Notation val := (@B2R prec emax).
Notation fin := (@is_finite prec emax).
Notation fadd := (fadd prec emax prec_gt_0_ prec_lt_emax_).
Notation fmul := (fmul prec emax prec_gt_0_ prec_lt_emax_).
Notation fdiv := (fdiv prec emax prec_gt_0_ prec_lt_emax_).
Notation fzero := (fzero prec emax).
Notation fsqrt := (fsqrt prec emax prec_gt_0_ prec_lt_emax_).
Notation rsum := (rsum prec emax).
(* half the smallest subnormal number *)
Notation eps := (bpow radix2 (emin - 1)).

Instance fexp_valid2 : Valid_exp fexp.
Proof. apply FLT_exp_valid; exact prec_gt_0_. Qed.

Lemma up : 0 < u. Proof. apply bpow_gt_0. Qed.
Lemma u4 : u <= / 4.
Proof. replace (/ 4) with (bp (-2)) by (simpl; lra); apply bpow_le; lia. Qed.
Lemma ep : 0 < eps. Proof. apply bpow_gt_0. Qed.

Lemma RN_err t : Rabs (RN t - t) <= u * Rabs t + eps.
Proof.
destruct (error_N_FLT radix2 emin prec prec_gt_0_ (fun t => negb (Z.even t)) t) as [d [h [h1 [h2 [_ h3]]]]].
rewrite h3; replace (t * (1 + d) + h - t) with (d * t + h) by ring.
apply Rle_trans with (1 := Rabs_triang _ _); rewrite Rabs_mult; apply Rplus_le_compat.
- apply Rmult_le_compat_r; [apply Rabs_pos|]; apply Rle_trans with (1 := h1); rewrite bpow_plus; simpl (bp 1); lra.
- apply Rle_trans with (1 := h2); unfold Zminus; rewrite bpow_plus; simpl (bp (- (1))); lra.
Qed.
(* no underflow *)
Lemma RN_rel t : bp (emin + prec - 1) <= Rabs t -> Rabs (RN t - t) <= u * Rabs t.
Proof.
intro h; generalize (relative_error_N_FLT radix2 emin prec prec_gt_0_ (fun t => negb (Z.even t)) t h).
rewrite bpow_plus; change (bp 1) with 2; lra.
Qed.
Lemma RN_ge a t : format a -> a <= t -> a <= RN t.
Proof. intros; apply round_ge_generic; auto with typeclass_instances. Qed.
Lemma RN_le' a t : format a -> t <= a -> RN t <= a.
Proof. intros; apply round_le_generic; auto with typeclass_instances. Qed.
Lemma format_INR n : INR n <= bp prec -> format (INR n).
Proof.
intro h; rewrite INR_IZR_INZ in *; replace (IZR (Z.of_nat n)) with (IZR (Z.of_nat n) * bp 0) by (simpl; ring).
apply format_multiple; [exact prec1|apply emin_neg; assumption|].
simpl (bp 0); rewrite Rmult_1_r, Z.add_0_r, Rabs_pos_eq; [exact h|apply IZR_le; lia].
Qed.
Lemma bp_prec_emax : bp prec < bp emax.
Proof. apply bpow_lt; exact prec_lt_emax_. Qed.
Lemma format1 : format 1.
Proof. apply (format_INR 1); simpl; replace 1 with (bp 0) by reflexivity; apply bpow_le; lia. Qed.

(** * Sums of nonnegative numbers *)
Lemma rsum_app s1 s2 : rsum (s1 ++ s2) = rsum s1 + rsum s2.
Proof. unfold rsum; induction s1 as [|x s1 IH]; simpl; [ring|rewrite IH; ring]. Qed.
Lemma rsum_pos s : Forall (fun p => fin p = true /\ 0 <= val p <= 1) s -> 0 <= rsum s.
Proof. unfold rsum; induction 1 as [|x s [_ hx] _ IH]; simpl; lra. Qed.
Lemma pow_mono1 x (m n : nat) : 1 <= x -> (m <= n)%nat -> x ^ m <= x ^ n.
Proof. intros; apply Rle_pow; lra || lia. Qed.
Lemma pow_mono0 x (m n : nat) : 0 <= x <= 1 -> (m <= n)%nat -> x ^ n <= x ^ m.
Proof.
intros hx h; induction h as [|k h IH]; [lra|]; simpl; assert (p := pow_le x k (proj1 hx)); nra.
Qed.

Lemma sumP lanes r : freduce prec emax fadd lanes r -> Forall (fun p => fin p = true /\ 0 <= val p <= 1) lanes ->
  INR (length lanes) <= bp prec ->
  (0 < length lanes)%nat /\ fin r = true /\ 0 <= val r <= INR (length lanes) /\ (forall p, In p lanes -> val p <= val r) /\
  rsum lanes * (1 - u) ^ length lanes <= val r <= rsum lanes * (1 + u) ^ length lanes.
Proof.
assert (pu := up); assert (lu := u4).
intro H; induction H as [x|s1 s2 a b H1 IH1 H2 IH2|s1 s2 a H IH]; intros hF hN.
- inversion hF as [|? ? [hx [h0 h1]] _]; subst; simpl length; simpl INR; unfold P_FloatD.rsum; simpl fold_right; split; [lia|].
  split; [exact hx|]; split; [lra|]; split; [|simpl; nra].
  intros p [->|[]]; lra.
- rewrite Forall_app in hF; destruct hF as [hF1 hF2]; rewrite app_length, plus_INR in hN.
  assert (n1 := pos_INR (length s1)); assert (n2 := pos_INR (length s2)).
  destruct (IH1 hF1) as [l1 [f1 [b1 [m1 e1]]]]; [lra|]; destruct (IH2 hF2) as [l2 [f2 [b2 [m2 e2]]]]; [lra|].
  rewrite app_length, plus_INR, rsum_app.
  assert (hr : RN (val a + val b) <= INR (length s1) + INR (length s2)).
  { rewrite <- plus_INR; apply RN_le'; [apply format_INR; rewrite plus_INR; exact hN|rewrite plus_INR; lra]. }
  assert (h0 : 0 <= RN (val a + val b)) by (apply RN_ge; [apply generic_format_0|lra]).
  assert (hf : fin (fadd a b) = true).
  { apply fadd_fin; [exact f1|exact f2|]; rewrite Rabs_pos_eq by exact h0; apply Rle_lt_trans with (2 := bp_prec_emax); lra. }
  assert (ev := fadd_val _ _ _ _ _ _ hf); cbv beta in ev.
  split; [lia|]; split; [exact hf|]; rewrite ev; split; [lra|]; split.
  + intros p hp; apply in_app_or in hp; destruct hp as [hp|hp].
    * apply RN_ge; [apply format_val|]; generalize (m1 p hp); lra.
    * apply RN_ge; [apply format_val|]; generalize (m2 p hp); lra.
  + assert (er := add_error prec emax _ _ _ (format_val prec emax a) (format_val prec emax b)).
    rewrite (Rabs_pos_eq (val a + val b)) in er by lra; apply Rabs_le_inv in er.
    assert (s1p := rsum_pos _ hF1); assert (s2p := rsum_pos _ hF2).
    assert (k1 : (length s1 + 1 <= length s1 + length s2)%nat) by lia.
    assert (k2 : (length s2 + 1 <= length s1 + length s2)%nat) by lia.
    assert (up1 := pow_mono1 (1 + u) _ _ ltac:(lra) k1); assert (up2 := pow_mono1 (1 + u) _ _ ltac:(lra) k2).
    assert (lo1 := pow_mono0 (1 - u) _ _ ltac:(lra) k1); assert (lo2 := pow_mono0 (1 - u) _ _ ltac:(lra) k2).
    rewrite (pow_add _ _ 1), pow_1 in up1; rewrite (pow_add _ _ 1), pow_1 in up2.
    rewrite (pow_add _ _ 1), pow_1 in lo1; rewrite (pow_add _ _ 1), pow_1 in lo2.
    split.
    * apply Rle_trans with ((val a + val b) * (1 - u)); [|lra].
      assert (rsum s1 * (1 - u) ^ (length s1 + length s2) <= val a * (1 - u)).
      { apply Rle_trans with (rsum s1 * ((1 - u) ^ length s1 * (1 - u))); [apply Rmult_le_compat_l; lra|].
        rewrite <- Rmult_assoc; apply Rmult_le_compat_r; lra. }
      assert (rsum s2 * (1 - u) ^ (length s1 + length s2) <= val b * (1 - u)).
      { apply Rle_trans with (rsum s2 * ((1 - u) ^ length s2 * (1 - u))); [apply Rmult_le_compat_l; lra|].
        rewrite <- Rmult_assoc; apply Rmult_le_compat_r; lra. }
      lra.
    * apply Rle_trans with ((val a + val b) * (1 + u)); [lra|].
      assert (val a * (1 + u) <= rsum s1 * (1 + u) ^ (length s1 + length s2)).
      { apply Rle_trans with (rsum s1 * ((1 + u) ^ length s1 * (1 + u))); [|apply Rmult_le_compat_l; lra].
        rewrite <- Rmult_assoc; apply Rmult_le_compat_r; lra. }
      assert (val b * (1 + u) <= rsum s2 * (1 + u) ^ (length s1 + length s2)).
      { apply Rle_trans with (rsum s2 * ((1 + u) ^ length s2 * (1 + u))); [|apply Rmult_le_compat_l; lra].
        rewrite <- Rmult_assoc; apply Rmult_le_compat_r; lra. }
      lra.
- assert (hF' : Forall (fun p => fin p = true /\ 0 <= val p <= 1) (s1 ++ s2)) by (rewrite Forall_app in *; tauto).
  assert (el : length (s2 ++ s1) = length (s1 ++ s2)) by (rewrite !app_length; lia).
  rewrite el in *; destruct (IH hF' hN) as [l1 [f1 [b1 [m1 e1]]]].
  split; [exact l1|]; split; [exact f1|]; split; [exact b1|]; split.
  + intros p hp; apply m1; apply in_app_or in hp; apply in_or_app; tauto.
  + rewrite rsum_app in *; rewrite (Rplus_comm (rsum s2)); exact e1.
Qed.

(** * Single operations *)
Lemma fabs_val x : val (fabs prec emax x) = Rabs (val x).
Proof. apply B2R_Babs. Qed.
Lemma fabs_fin x : fin (fabs prec emax x) = fin x.
Proof. apply is_finite_Babs. Qed.

Lemma fsqrt_fin q : fin q = true -> 0 <= val q -> fin (fsqrt q) = true /\ val (fsqrt q) = RN (sqrt (val q)).
Proof.
intros f h; destruct (Bsqrt_correct prec emax prec_gt_0_ prec_lt_emax_ mode_NE q) as [h1 [h2 _]]; split; [|exact h1].
unfold M_FloatN.fsqrt; rewrite h2; destruct q as [sx|sx| |[|] m e b]; try discriminate; try reflexivity.
exfalso; revert h; apply Rlt_not_le; simpl; apply F2R_lt_0; reflexivity.
Qed.

Lemma quot_le1 x y : 0 < y -> Rabs x <= y -> Rabs (x / y) <= 1.
Proof.
intros hy h; unfold Rdiv; rewrite Rabs_mult, (Rabs_pos_eq (/ y)) by (apply Rlt_le, Rinv_0_lt_compat, hy).
apply (Rmult_le_reg_r y); [exact hy|]; rewrite Rmult_assoc, Rinv_l by lra; lra.
Qed.
Lemma fdiv_small x y : fin x = true -> 0 < val y -> Rabs (val x) <= val y ->
  fin (fdiv x y) = true /\ val (fdiv x y) = RN (val x / val y) /\ Rabs (val (fdiv x y)) <= 1.
Proof.
intros fx hy h; assert (y0 : val y <> 0) by lra.
assert (l : Rabs (RN (val x / val y)) <= 1).
{ rewrite <- (Rabs_pos_eq 1) by lra; apply RN_le; [exact prec_gt_0_|exact format1|rewrite (Rabs_pos_eq 1) by lra; apply quot_le1; assumption]. }
generalize (Bdiv_correct prec emax prec_gt_0_ prec_lt_emax_ mode_NE x y y0); rewrite Rlt_bool_true.
- unfold M_Float.fdiv; intros [h1 [h2 _]]; rewrite h1, h2; repeat split; [exact fx|exact l].
- apply Rle_lt_trans with (1 := l); replace 1 with (bp 0) by reflexivity; apply bpow_lt; generalize (prec_lt_emax prec emax); lia.
Qed.
Lemma fsquare x : fin x = true -> Rabs (val x) <= 1 ->
  fin (fmul x x) = true /\ val (fmul x x) = RN (val x * val x) /\ 0 <= val (fmul x x) <= 1.
Proof.
intros fx h; apply Rabs_le_inv in h.
assert (l : 0 <= RN (val x * val x) <= 1).
{ split; [apply RN_ge; [apply generic_format_0|nra]|apply RN_le'; [exact format1|nra]]. }
assert (f : fin (fmul x x) = true).
{ apply fmul_fin; [exact fx|exact fx|]; rewrite Rabs_pos_eq by lra; apply Rle_lt_trans with (1 := proj2 l).
  replace 1 with (bp 0) by reflexivity; apply bpow_lt; generalize (prec_lt_emax prec emax); lia. }
assert (e := fmul_val _ _ _ _ _ _ f); cbv beta in e; rewrite e; auto.
Qed.

(** * Errors of one scaled and squared element *)
Lemma eps8 : eps <= / 8.
Proof.
replace (/ 8) with (bp (-3)) by (simpl; lra); apply bpow_le; unfold SpecFloat.emin; generalize (prec_lt_emax prec emax); lia.
Qed.
Lemma square_err t : Rabs t <= 1 -> let x := RN t in let p := RN (x * x) in
  (1 - u) ^ 3 * t ^ 2 - 3 * eps <= p <= (1 + u) ^ 3 * t ^ 2 + 5 * eps.
Proof.
intros ht x p; assert (pu := up); assert (lu := u4); assert (pe := ep); assert (le := eps8).
assert (ex := RN_err t); fold x in ex.
assert (ep := RN_err (x * x)); fold p in ep; rewrite (Rabs_pos_eq (x * x)) in ep by nra; apply Rabs_le_inv in ep.
set (a := Rabs t) in *; assert (a0 : 0 <= a) by apply Rabs_pos.
assert (ta : t ^ 2 = a ^ 2) by (unfold a; rewrite pow2_abs; reflexivity).
set (b := Rabs x); assert (xb : x * x = b ^ 2) by (unfold b; rewrite pow2_abs; ring); assert (b0 : 0 <= b) by apply Rabs_pos.
assert (ub : b <= a * (1 + u) + eps).
{ unfold b; replace x with (t + (x - t)) by ring; apply Rle_trans with (1 := Rabs_triang _ _); fold a; lra. }
assert (lb : a * (1 - u) - eps <= b).
{ assert (a <= b + Rabs (x - t)) by (unfold a, b; replace (Rabs t) with (Rabs (x - (x - t))) by (f_equal; ring); apply Rle_trans with (1 := Rabs_triang _ _); rewrite Rabs_Ropp; lra). lra. }
rewrite ta, xb in *; clearbody a b p; clear ex xb ta x t; clear - ep ub lb ht a0 b0 pu lu pe le.
set (w := u) in *; set (e := bp (emin - 1)) in *; clearbody w e.
assert (U : b ^ 2 <= a ^ 2 * (1 + w) ^ 2 + 3 * e).
{ apply Rle_trans with ((a * (1 + w) + e) ^ 2); [apply pow_incr; lra|].
  assert (a * (1 + w) * e <= 5 / 4 * e) by (apply Rmult_le_compat_r; nra). nra. }
assert (L : a ^ 2 * (1 - w) ^ 2 - 2 * e <= b ^ 2).
{ destruct (Rle_or_lt (a * (1 - w)) e) as [h|h].
  - assert ((a * (1 - w)) ^ 2 <= e ^ 2) by (apply pow_incr; split; [apply Rmult_le_pos; lra|lra]). nra.
  - apply Rle_trans with ((a * (1 - w) - e) ^ 2); [|apply pow_incr; lra].
    assert (a * (1 - w) * e <= 1 * e) by (apply Rmult_le_compat_r; nra). nra. }
split.
- apply Rle_trans with (b ^ 2 * (1 - w) - e); [|lra].
  replace ((1 - w) ^ 3 * a ^ 2 - 3 * e) with (a ^ 2 * (1 - w) ^ 2 * (1 - w) - 3 * e) by ring.
  assert ((a ^ 2 * (1 - w) ^ 2 - 2 * e) * (1 - w) <= b ^ 2 * (1 - w)) by (apply Rmult_le_compat_r; lra). nra.
- apply Rle_trans with (b ^ 2 * (1 + w) + e); [lra|].
  replace ((1 + w) ^ 3 * a ^ 2) with (a ^ 2 * (1 + w) ^ 2 * (1 + w)) by ring.
  assert (b ^ 2 * (1 + w) <= (a ^ 2 * (1 + w) ^ 2 + 3 * e) * (1 + w)) by (apply Rmult_le_compat_r; lra). nra.
Qed.

(** * The largest element *)
Lemma flt_val x y : fin x = true -> fin y = true -> flt prec emax x y = true <-> val x < val y.
Proof.
intros hx hy; unfold flt; rewrite (Bcompare_correct prec emax x y hx hy).
destruct (Rcompare_spec (val x) (val y)); split; intro; try discriminate; try reflexivity; lra.
Qed.
Section Max.
Variable fmax : float -> float -> float.
Hypothesis fmaxP : forall x y : float, is_nan x = false -> is_nan y = false -> fmax x y = if flt prec emax x y then y else x.
Lemma fin_nan (x : float) : fin x = true -> is_nan x = false.
Proof. destruct x; try reflexivity; discriminate. Qed.
Lemma maxP lanes r : freduce prec emax fmax lanes r -> Forall (fun p => fin p = true) lanes ->
  In r lanes /\ forall p, In p lanes -> val p <= val r.
Proof.
intro H; induction H as [x|s1 s2 a b H1 IH1 H2 IH2|s1 s2 a H IH]; intros hF.
- split; [left; reflexivity|]; intros p [->|[]]; lra.
- rewrite Forall_app in hF; destruct hF as [hF1 hF2].
  destruct (IH1 hF1) as [i1 m1]; destruct (IH2 hF2) as [i2 m2].
  assert (fa := proj1 (Forall_forall _ _) hF1 a i1); assert (fb := proj1 (Forall_forall _ _) hF2 b i2); cbv beta in fa, fb.
  rewrite fmaxP by (apply fin_nan; assumption).
  assert (c := flt_val a b fa fb); destruct (flt prec emax a b).
  + assert (l := proj1 c eq_refl); split; [apply in_or_app; right; exact i2|].
    intros p hp; apply in_app_or in hp; destruct hp as [hp|hp]; [generalize (m1 p hp); lra|apply m2; exact hp].
  + assert (l : val b <= val a) by (apply Rnot_lt_le; intro l; apply c in l; discriminate).
    split; [apply in_or_app; left; exact i1|].
    intros p hp; apply in_app_or in hp; destruct hp as [hp|hp]; [apply m1; exact hp|generalize (m2 p hp); lra].
- destruct IH as [i m]; [rewrite Forall_app in *; tauto|]; split.
  + apply in_app_or in i; apply in_or_app; tauto.
  + intros p hp; apply m; apply in_app_or in hp; apply in_or_app; tauto.
Qed.
Lemma scaleP pm v s : fscale prec emax fmax pm v s -> Forall (fun x => fin x = true) v -> v <> [] ->
  fin s = true /\ (exists x, In x v /\ Rabs (val x) = val s) /\ forall x, In x v -> Rabs (val x) <= val s.
Proof.
intros H hF nv; unfold fscale, fmaximum in H.
set (l := map (fabs prec emax) v) in H.
assert (hl : Forall (fun p => fin p = true) l) by (unfold l; rewrite Forall_map; apply Forall_impl with (2 := hF); intros a h; rewrite fabs_fin; exact h).
assert (hd_in : In (hd fzero l) l) by (unfold l; destruct v; [congruence|left; reflexivity]).
assert (hr : forall p, In p (repeat (hd fzero l) pm) -> In p l) by (intros p hp; apply repeat_spec in hp; rewrite hp; exact hd_in).
destruct (maxP _ _ H) as [hi hm].
{ apply Forall_forall; intros p hp; apply in_app_or in hp; rewrite Forall_forall in hl; apply hl; destruct hp; auto. }
assert (hi' : In s l) by (apply in_app_or in hi; destruct hi; auto).
split; [rewrite Forall_forall in hl; apply hl; exact hi'|]; split.
- unfold l in hi'; apply in_map_iff in hi'; destruct hi' as [x [e hx]]; exists x; split; [exact hx|]; rewrite <- e; symmetry; apply fabs_val.
- intros x hx; rewrite <- fabs_val; apply hm; apply in_or_app; left; apply in_map; exact hx.
Qed.
End Max.

(** * Sums of squares *)
(* the squared length of the vector divided by s, exactly *)
Definition ssq (v : list float) (s : R) : R := fold_right (fun x r => (val x / s) ^ 2 + r) 0 v.
Lemma ssq_pos v s : 0 <= ssq v s.
Proof. induction v as [|x v IH]; simpl; [lra|]; generalize (pow2_ge_0 (val x / s)); simpl; lra. Qed.
Lemma ssq_ge v s x : In x v -> (val x / s) ^ 2 <= ssq v s.
Proof.
induction v as [|y v IH]; simpl; [tauto|]; intros [->|h].
- generalize (ssq_pos v s); lra.
- generalize (IH h) (pow2_ge_0 (val y / s)); simpl; lra.
Qed.
Lemma rsum_zeros n : rsum (repeat fzero n) = 0.
Proof. unfold P_FloatD.rsum; induction n as [|n IH]; simpl; [reflexivity|rewrite IH; ring]. Qed.

Lemma lanes_ok v s pad : Forall (fun x => fin x = true) v -> 0 < val s -> (forall x, In x v -> Rabs (val x) <= val s) ->
  Forall (fun p => fin p = true /\ 0 <= val p <= 1) (map (fun x => fmul x x) (fdivs prec emax prec_gt_0_ prec_lt_emax_ v s) ++ repeat fzero pad).
Proof.
intros hF hs hm; apply Forall_app; split.
- unfold fdivs; rewrite map_map, Forall_map, Forall_forall in *; intros x hx.
  destruct (fdiv_small x s (hF x hx) hs (hm x hx)) as [f [_ l]]; destruct (fsquare _ f l) as [f' [_ l']]; auto.
- apply Forall_forall; intros p hp; apply repeat_spec in hp; rewrite hp; simpl; split; [reflexivity|lra].
Qed.

Lemma squares_err v s : Forall (fun x => fin x = true) v -> 0 < val s -> (forall x, In x v -> Rabs (val x) <= val s) ->
  let P := rsum (map (fun x => fmul x x) (fdivs prec emax prec_gt_0_ prec_lt_emax_ v s)) in
  let S := ssq v (val s) in let n := INR (length v) in
  (1 - u) ^ 3 * S - n * (3 * eps) <= P <= (1 + u) ^ 3 * S + n * (5 * eps).
Proof.
intros hF hs hm; cbv zeta; induction hF as [|x v hx _ IH].
- simpl; lra.
- assert (hmx : Rabs (val x) <= val s) by (apply hm; left; reflexivity).
  destruct (fdiv_small x s hx hs hmx) as [f [e l]]; destruct (fsquare _ f l) as [f' [e' l']].
  assert (q := square_err (val x / val s) (quot_le1 _ _ hs hmx)); cbv zeta in q; rewrite <- e, <- e' in q.
  destruct IH as [IH1 IH2]; [intros y hy; apply hm; right; exact hy|].
  cbn [map fdivs length ssq fold_right]; rewrite S_INR; unfold P_FloatD.rsum in *; cbn [fold_right fdivs map] in *.
  unfold fdivs in *; cbn [fold_right map] in *; fold (ssq v (val s)).
  set (a := val (fmul _ _)) in *; set (b := fold_right _ 0 _) in *; set (t := (val x / val s) ^ 2) in *; lra.
Qed.

(* from the sum of the squares to the length: K roundings in the sum *)
Lemma sqrt_err S q (k : nat) : 0 <= S -> 0 <= q -> (q = 0 \/ bp (emin + prec - 1) <= sqrt q) ->
  S * (1 - u) ^ (2 * k) <= q <= S * (1 + u) ^ (2 * k) ->
  sqrt S * (1 - u) ^ (k + 1) <= RN (sqrt q) <= sqrt S * (1 + u) ^ (k + 1).
Proof.
intros hS hq hn [h1 h2]; assert (pu := up); assert (lu := u4).
assert (e : Rabs (RN (sqrt q) - sqrt q) <= u * sqrt q).
{ assert (s0 := sqrt_pos q); destruct hn as [->|hn].
  - rewrite sqrt_0, round_0, Rminus_0_r, Rabs_R0; [lra|auto with typeclass_instances].
  - rewrite <- (Rabs_pos_eq (sqrt q)) at 3 by exact s0; apply RN_rel; rewrite Rabs_pos_eq by exact s0; exact hn. }
apply Rabs_le_inv in e.
assert (P : forall x, 0 <= x -> sqrt (S * x ^ (2 * k)) = sqrt S * x ^ k).
{ intros x hx; rewrite sqrt_mult; [|exact hS|apply pow_le; exact hx]; f_equal; replace (2 * k)%nat with (k * 2)%nat by lia; rewrite pow_mult.
  apply sqrt_pow2, pow_le; exact hx. }
apply sqrt_le_1_alt in h1; apply sqrt_le_1_alt in h2; rewrite P in h1, h2 by lra; rewrite !pow_add, !pow_1.
split.
- apply Rle_trans with (sqrt q * (1 - u)); [|lra]; rewrite <- Rmult_assoc; apply Rmult_le_compat_r; lra.
- apply Rle_trans with (sqrt q * (1 + u)); [lra|]; rewrite <- Rmult_assoc; apply Rmult_le_compat_r; lra.
Qed.

(** * The length of a scaled vector *)
Notation flength := (flength prec emax prec_gt_0_ prec_lt_emax_).
Notation fdivs := (fdivs prec emax prec_gt_0_ prec_lt_emax_).
(* the scale is the smallest normal number: every step before the sum is exact or does not underflow *)
Lemma format_emin x : format x -> exists m, x = IZR m * bp emin.
Proof.
intro f; destruct (format_mant emin prec prec1 x f) as [n [e _]].
set (c := cexp radix2 fexp x) in *; assert (hc : (emin <= c)%Z) by (unfold c, cexp, FLT_exp; lia).
exists (n * 2 ^ (c - emin))%Z; rewrite mult_IZR, e; change 2%Z with (radix_val radix2); rewrite IZR_Zpower by lia.
rewrite Rmult_assoc, <- bpow_plus; do 2 f_equal; lia.
Qed.
Lemma tiny_element (s x : float) (hs : 0 < val s) : (2 * prec <= emax)%Z -> val s = bp (2 - emax) -> fin x = true -> Rabs (val x) <= val s ->
  let p := val (fmul (fdiv x s) (fdiv x s)) in let t := val x / val s in
  Rabs (p - t ^ 2) <= u * t ^ 2 /\ (t <> 0 -> bp (2 - 2 * prec) <= p).
Proof.
intros E es fx hx; cbv zeta.
destruct (fdiv_small x s fx hs hx) as [f [e l]]; destruct (fsquare _ f l) as [_ [e' _]].
destruct (format_emin (val x) (format_val _ _ x)) as [m em].
assert (et : val x / val s = IZR m * bp (1 - prec)).
{ rewrite em, es; unfold Rdiv; rewrite <- bpow_opp, Rmult_assoc, <- bpow_plus; do 2 f_equal; unfold SpecFloat.emin; lia. }
assert (ft : format (val x / val s)).
{ rewrite et; apply format_multiple; [exact prec1|unfold SpecFloat.emin; lia|]; rewrite <- et.
  apply Rle_trans with (1 := quot_le1 _ _ hs hx); change 1 with (bp 0); apply bpow_le; lia. }
rewrite (round_generic radix2 fexp ZnearestE _ ft) in e; rewrite e', e.
set (t := val x / val s) in *.
replace (t ^ 2) with (t * t) by ring.
assert (B : t <> 0 -> bp (2 - 2 * prec) <= t * t).
{ intro nt; assert (m0 : m <> 0%Z) by (intro h; apply nt; rewrite et, h; ring).
  assert (m1 : 1 <= IZR m * IZR m) by (rewrite <- mult_IZR; apply IZR_le; nia).
  rewrite et; replace (IZR m * bp (1 - prec) * (IZR m * bp (1 - prec))) with (IZR m * IZR m * (bp (1 - prec) * bp (1 - prec))) by ring.
  rewrite <- bpow_plus; replace (1 - prec + (1 - prec))%Z with (2 - 2 * prec)%Z by lia.
  rewrite <- (Rmult_1_l (bp _)) at 1; apply Rmult_le_compat_r; [apply bpow_ge_0|exact m1]. }
assert (t2 : 0 <= t * t) by nra; split.
- destruct (Req_dec t 0) as [->|nt]; [rewrite Rmult_0_l, round_0; [rewrite Rminus_0_r, Rabs_R0; lra|auto with typeclass_instances]|].
  rewrite <- (Rabs_pos_eq (t * t)) at 3 by exact t2; apply RN_rel; rewrite Rabs_pos_eq by exact t2.
  apply Rle_trans with (2 := B nt); apply bpow_le; unfold SpecFloat.emin; lia.
- intro nt; apply RN_ge; [|apply B; exact nt]; apply generic_format_bpow; unfold FLT_exp, SpecFloat.emin; lia.
Qed.
Section Len.
Variables (v : list float) (s len : float) (ps : nat).
Hypothesis hF : Forall (fun x => fin x = true) v.
Hypothesis hs : 0 < val s.
Hypothesis hm : forall x, In x v -> Rabs (val x) <= val s.
Hypothesis hN : INR (length v + ps) <= bp prec.
Hypothesis hl : flength ps (fdivs v s) len.
Let N := (length v + ps)%nat.
Let S := ssq v (val s).

Lemma half_N : (N + 4 <= 2 * (N / 2 + 3))%nat.
Proof. generalize (Nat.div_mod N 2) (Nat.mod_upper_bound N 2); lia. Qed.

Lemma len_sum : exists q, fin q = true /\ 0 <= val q <= INR N /\ (0 < N)%nat /\ len = fsqrt q /\
  (forall x, In x v -> val (fmul (fdiv x s) (fdiv x s)) <= val q) /\
  let P := rsum (map (fun x => fmul x x) (fdivs v s)) in P * (1 - u) ^ N <= val q <= P * (1 + u) ^ N.
Proof.
destruct hl as [q [h e]]; exists q; unfold flength_squared, fsum in h.
assert (lN : length (map (fun x => fmul x x) (fdivs v s) ++ repeat fzero ps) = N).
{ rewrite app_length, repeat_length; unfold M_FloatN.fdivs; rewrite !map_length; reflexivity. }
destruct (sumP _ _ h (lanes_ok v s ps hF hs hm)) as [h0 [h1 [h2 [h3 h4]]]]; rewrite lN in *; [exact hN|].
rewrite rsum_app, rsum_zeros, Rplus_0_r in h4.
split; [exact h1|]; split; [exact h2|]; split; [exact h0|]; split; [exact e|]; split; [|exact h4].
intros x hx; apply h3; apply in_or_app; left; apply in_map_iff; exists (fdiv x s); split; [reflexivity|].
unfold M_FloatN.fdivs; apply in_map_iff; exists x; auto.
Qed.

Lemma pow_split (x : R) (a b : nat) : x ^ (a + b) = x ^ a * x ^ b.
Proof. apply pow_add. Qed.

(* the largest element is one after scaling *)
Lemma len_unit : (prec + 7 <= emax)%Z -> (exists x, In x v /\ Rabs (val x) = val s) ->
  fin len = true /\ 1 <= val len <= INR N /\
  sqrt S * (1 - u) ^ (N / 2 + 4) <= val len <= sqrt S * (1 + u) ^ (N / 2 + 4).
Proof.
intros E [x [hx ex]]; assert (pu := up); assert (lu := u4); assert (pe := ep).
destruct len_sum as [q [fq [bq [N0 [el [hq eq]]]]]]; cbv zeta in eq.
assert (q1 : 1 <= val q).
{ assert (l := hm x hx); apply Rle_trans with (2 := hq x hx).
  assert (fx := proj1 (Forall_forall _ _) hF x hx); cbv beta in fx.
  destruct (fdiv_small x s fx hs l) as [f [e l']]; destruct (fsquare _ f l') as [_ [e' _]]; rewrite e'.
  assert (a : val (fdiv x s) = 1 \/ val (fdiv x s) = -1).
  { rewrite e; revert ex; unfold Rabs; destruct (Rcase_abs (val x)); intro ex; [right|left].
    - replace (val x / val s) with (- (1)) by (rewrite <- ex; field; lra); rewrite round_NE_opp, round_generic; [lra|auto with typeclass_instances|exact format1].
    - replace (val x / val s) with 1 by (rewrite <- ex; field; lra); apply round_generic; [auto with typeclass_instances|exact format1]. }
  apply RN_ge; [exact format1|]; destruct a as [-> | ->]; lra. }
assert (S1 : 1 <= S).
{ apply Rle_trans with (2 := ssq_ge v (val s) x hx); rewrite <- pow2_abs; unfold Rdiv; rewrite Rabs_mult, ex, Rabs_pos_eq by (apply Rlt_le, Rinv_0_lt_compat, hs).
  rewrite Rinv_r by lra; lra. }
destruct (squares_err v s hF hs hm) as [p1 p2]; fold S in p1, p2.
set (P := rsum _) in *.
assert (ne : INR (length v) * (5 * eps) <= u / 4).
{ assert (INR (length v) <= bp prec) by (apply Rle_trans with (2 := hN); apply le_INR; lia).
  apply Rle_trans with (bp prec * (8 * eps)); [apply Rmult_le_compat; try lra; apply pos_INR|].
  change 8 with (bp 3); rewrite <- !bpow_plus; replace (u / 4) with (bp (- prec + -2)) by (rewrite bpow_plus; simpl; lra).
  apply bpow_le; unfold SpecFloat.emin; lia. }
assert (n0 := pos_INR (length v)).
assert (P1 : (1 - u) ^ 4 * S <= P).
{ assert (27 / 64 <= (1 - u) ^ 3) by (replace (27 / 64) with ((3 / 4) ^ 3) by field; apply pow_incr; lra).
  assert (u * 1 <= u * S) by (apply Rmult_le_compat_l; lra).
  assert (27 / 64 * (u * S) <= (1 - u) ^ 3 * (u * S)) by (apply Rmult_le_compat_r; lra).
  replace ((1 - u) ^ 4 * S) with ((1 - u) ^ 3 * S - (1 - u) ^ 3 * (u * S)) by ring; lra. }
assert (P2 : P <= (1 + u) ^ 4 * S).
{ assert (1 <= (1 + u) ^ 3) by (apply pow_R1_Rle; lra).
  assert (u * 1 <= u * S) by (apply Rmult_le_compat_l; lra).
  assert (1 * (u * S) <= (1 + u) ^ 3 * (u * S)) by (apply Rmult_le_compat_r; lra).
  replace ((1 + u) ^ 4 * S) with ((1 + u) ^ 3 * S + (1 + u) ^ 3 * (u * S)) by ring; lra. }
assert (k := half_N).
destruct (fsqrt_fin q fq) as [fl vl]; [lra|]; rewrite el, vl.
assert (sq : 1 <= sqrt (val q)) by (rewrite <- sqrt_1; apply sqrt_le_1_alt; exact q1).
split; [exact fl|]; split.
- split; [apply RN_ge; [exact format1|exact sq]|].
  apply RN_le'; [apply format_INR; exact hN|].
  assert (sqrt (val q) * 1 <= sqrt (val q) * sqrt (val q)) by (apply Rmult_le_compat_l; lra).
  rewrite sqrt_sqrt in H by lra; lra.
- replace (N / 2 + 4)%nat with ((N / 2 + 3) + 1)%nat by lia; apply sqrt_err; [lra|lra| |].
  + right; apply Rle_trans with (2 := sq); change 1 with (bp 0); apply bpow_le; unfold SpecFloat.emin; generalize (prec_lt_emax prec emax); lia.
  + assert (a1 := pow_mono1 (1 + u) _ _ ltac:(lra) k); assert (a0 := pow_mono0 (1 - u) _ _ ltac:(lra) k); rewrite pow_split in a0, a1.
    assert (g0 : 0 <= (1 - u) ^ N) by (apply pow_le; lra); assert (g1 : 0 <= (1 + u) ^ N) by (apply pow_le; lra).
    split.
    * apply Rle_trans with (2 := proj1 eq); apply Rle_trans with (S * ((1 - u) ^ N * (1 - u) ^ 4)); [apply Rmult_le_compat_l; lra|].
      replace (S * ((1 - u) ^ N * (1 - u) ^ 4)) with ((1 - u) ^ 4 * S * (1 - u) ^ N) by ring; apply Rmult_le_compat_r; lra.
    * apply Rle_trans with (1 := proj2 eq); apply Rle_trans with (S * ((1 + u) ^ N * (1 + u) ^ 4)); [|apply Rmult_le_compat_l; lra].
      replace (S * ((1 + u) ^ N * (1 + u) ^ 4)) with ((1 + u) ^ 4 * S * (1 + u) ^ N) by ring; apply Rmult_le_compat_r; lra.
Qed.

Lemma len_tiny : (2 * prec <= emax)%Z -> val s = bp (2 - emax) ->
  fin len = true /\ 0 <= val len /\
  sqrt S * (1 - u) ^ (N / 2 + 4) <= val len <= sqrt S * (1 + u) ^ (N / 2 + 4).
Proof.
intros E es; assert (pu := up); assert (lu := u4).
destruct len_sum as [q [fq [bq [N0 [el [hq eq]]]]]]; cbv zeta in eq.
assert (PS : S * (1 - u) <= rsum (map (fun x => fmul x x) (fdivs v s)) <= S * (1 + u)).
{ unfold S; generalize hF hm; clear - prec1 es E hs; induction v as [|x l IH]; intros hF hm.
  - simpl; lra.
  - inversion hF as [|? ? fx fl]; subst.
    destruct (tiny_element s x hs E es fx (hm x (or_introl eq_refl))) as [h _]; cbv zeta in h; apply Rabs_le_inv in h.
    assert (IH' := IH fl (fun y hy => hm y (or_intror hy))).
    unfold P_FloatD.rsum, M_FloatN.fdivs in *; cbn [map fold_right ssq] in *; fold (ssq l (val s)).
    set (a := val (fmul _ _)) in *; set (b := fold_right _ 0 _) in *; set (t := (val x / val s) ^ 2) in *; lra. }
set (P := rsum _) in *; assert (S0 := ssq_pos v (val s)); fold S in S0.
assert (k := half_N).
destruct (fsqrt_fin q fq) as [fl vl]; [lra|]; rewrite el, vl.
split; [exact fl|]; split; [apply RN_ge; [apply generic_format_0|apply sqrt_pos]|].
assert (k1 : (N + 1 <= 2 * (N / 2 + 3))%nat) by lia.
assert (a1 := pow_mono1 (1 + u) _ _ ltac:(lra) k1); assert (a0 := pow_mono0 (1 - u) _ _ ltac:(lra) k1); rewrite pow_split, pow_1 in a0, a1.
assert (g0 : 0 <= (1 - u) ^ N) by (apply pow_le; lra); assert (g1 : 0 <= (1 + u) ^ N) by (apply pow_le; lra).
assert (Q1 : val q <= S * (1 + u) ^ (2 * (N / 2 + 3))).
{ apply Rle_trans with (1 := proj2 eq); apply Rle_trans with (S * ((1 + u) ^ N * (1 + u))); [|apply Rmult_le_compat_l; lra].
  replace (S * ((1 + u) ^ N * (1 + u))) with (S * (1 + u) * (1 + u) ^ N) by ring; apply Rmult_le_compat_r; lra. }
replace (N / 2 + 4)%nat with ((N / 2 + 3) + 1)%nat by lia; apply sqrt_err; [exact S0|lra| |].
- destruct (Req_dec S 0) as [e0|n0]; [left; rewrite e0 in Q1; lra|right].
  assert (X : exists x, In x v /\ val x / val s <> 0).
  { clear - n0 hs; unfold S in *; induction v as [|x l IH]; [simpl in n0; lra|].
    destruct (Req_dec (val x / val s) 0) as [e|e]; [|exists x; split; [left; reflexivity|exact e]].
    destruct IH as [y [hy ny]]; [|exists y; split; [right; exact hy|exact ny]].
    intro h; apply n0; cbn [ssq fold_right]; fold (ssq l (val s)); rewrite h, e; ring. }
  destruct X as [x [hx nx]].
  assert (fx := proj1 (Forall_forall _ _) hF x hx); cbv beta in fx.
  destruct (tiny_element s x hs E es fx (hm x hx)) as [_ h]; cbv zeta in h.
  assert (h' := Rle_trans _ _ _ (h nx) (hq x hx)); apply sqrt_le_1_alt in h'.
  assert (e2 : bp (2 - 2 * prec) = bp (1 - prec) ^ 2).
  { unfold pow; rewrite Rmult_1_r, <- bpow_plus; apply (f_equal bp); lia. }
  rewrite e2 in h'.
  rewrite sqrt_pow2 in h' by apply bpow_ge_0; apply Rle_trans with (2 := h'); apply bpow_le; unfold SpecFloat.emin; lia.
- split; [|exact Q1].
  apply Rle_trans with (2 := proj1 eq); apply Rle_trans with (S * ((1 - u) ^ N * (1 - u))); [apply Rmult_le_compat_l; lra|].
  replace (S * ((1 - u) ^ N * (1 - u))) with (S * (1 - u) * (1 - u) ^ N) by ring; apply Rmult_le_compat_r; lra.
Qed.
End Len.
End FloatNP.
