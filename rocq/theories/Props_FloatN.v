(* Property C78: lengths and normalisation of vectors of floating point numbers. *)
From Coq Require Import ZArith List Bool Reals Lia Lra.
From Flocq Require Import Core IEEE754.BinarySingleNaN.
From Verif Require Import M_Float P_Float P_FloatD M_FloatN P_FloatN Props_Float.
Import ListNotations.
Local Open Scope R_scope.

Section C78.
Variables prec emax : Z.
Context (p0 : Prec_gt_0 prec) (pe : Prec_lt_emax prec emax).
Hypothesis prec1 : (1 < prec)%Z.
(* the range is large enough: true of float, double, the x87 and the quadruple long double *)
Hypothesis range1 : (2 * prec <= emax)%Z.
Hypothesis range2 : (prec + 7 <= emax)%Z.
Notation float := (binary_float prec emax).
Notation val := (@B2R prec emax).
Notation fin := (@is_finite prec emax).
Notation u := (u prec).
Notation eta := (eta prec emax).
(* the maximum of two numbers; nothing is assumed if one of them is a NaN *)
Variable fmax : float -> float -> float.
Hypothesis fmaxP : forall x y : float, is_nan x = false -> is_nan y = false -> fmax x y = if flt prec emax x y then y else x.

(* the Euclidean length *)
Definition norm (v : list float) : R := sqrt (Rsum (map (fun x => val x ^ 2) v)).

Lemma norm_ssq v s : 0 < s -> norm v = sqrt (ssq prec emax v s) * s.
Proof.
intro hs; rewrite <- (sqrt_pow2 s) at 2 by lra; rewrite <- sqrt_mult; [|apply ssq_pos|apply pow2_ge_0].
unfold norm; f_equal; induction v as [|x v IH]; simpl; [ring|]; unfold Rsum in *; simpl in IH; rewrite IH; field; lra.
Qed.
Lemma epsE : bpow radix2 (SpecFloat.emin prec emax - 1) = / 2 * eta.
Proof.
unfold Props_Float.eta; replace (SpecFloat.emin prec emax - 1)%Z with (3 - emax - prec + -1)%Z by (unfold SpecFloat.emin; lia).
rewrite bpow_plus; change (bpow radix2 (-1)) with (/ 2); ring.
Qed.
Lemma min_val : val (fmin_normal prec emax p0 pe) = bpow radix2 (2 - emax) /\ fin (fmin_normal prec emax p0 pe) = true.
Proof.
generalize (binary_normalize_correct prec emax p0 pe mode_NE 1 (2 - emax) false); cbv zeta.
assert (e : F2R (Float radix2 1 (2 - emax)) = bpow radix2 (2 - emax)) by (unfold F2R; simpl; ring).
rewrite e, round_generic; [|auto with typeclass_instances|].
- rewrite Rlt_bool_true; [unfold fmin_normal; tauto|].
  rewrite Rabs_pos_eq by apply bpow_ge_0; apply bpow_lt; generalize (prec_lt_emax prec emax); lia.
- apply generic_format_bpow; unfold SpecFloat.fexp, SpecFloat.emin; generalize (prec_lt_emax prec emax); lia.
Qed.
Lemma max_val : val (fmax_value prec emax p0 pe) = bpow radix2 emax - bpow radix2 (emax - prec) /\ fin (fmax_value prec emax p0 pe) = true.
Proof.
unfold fmax_value, Bmax_float; rewrite B2R_SF2B, is_finite_SF2B; split; [|reflexivity].
unfold SF2R, F2R; simpl Fnum; simpl Fexp; simpl cond_Zopp.
assert (h : (Z.pos (shift_pos (Z.to_pos prec) 1) = 2 ^ prec)%Z) by (rewrite shift_pos_correct, Z.mul_1_r, Z.pow_pos_fold, Z2Pos.id by lia; reflexivity).
rewrite Pos2Z.inj_sub by (assert (1 < 2 ^ prec)%Z by (apply Z.pow_gt_1; lia); lia).
rewrite h, minus_IZR; change (2 ^ prec)%Z with (radix2 ^ prec)%Z; rewrite IZR_Zpower by lia.
rewrite Rmult_minus_distr_r, <- bpow_plus; simpl (IZR 1); rewrite Rmult_1_l; f_equal; f_equal; lia.
Qed.
Lemma le_max (x : float) : val x <= val (fmax_value prec emax p0 pe).
Proof. rewrite (proj1 max_val); apply Rle_trans with (1 := Rle_abs _); apply abs_B2R_le_emax_minus_prec; exact p0. Qed.
Lemma pos_sign (x : float) : 0 < val x -> Bsign x = false.
Proof.
destruct x as [s|s| |[|] m e b]; simpl; try reflexivity; try lra.
intro h; exfalso; revert h; apply Rle_not_lt, Rlt_le, F2R_lt_0; reflexivity.
Qed.

(* LengthPrecise of any vector of finite numbers, of at most 2^prec lanes: no intermediate result overflows or underflows harmfully.
   The only error beyond the usual roundings is half of the smallest subnormal number, when the result itself is subnormal. *)
Theorem C78_length_precise (v : list float) (pm ps : nat) (r : float) :
  v <> [] -> Forall (fun x => fin x = true) v -> INR (length v + ps) <= bpow radix2 prec ->
  flength_precise prec emax p0 pe fmax pm ps v r ->
  let K := ((length v + ps) / 2 + 5)%nat in
  (fin r = true /\ norm v * (1 - u) ^ K - / 2 * eta <= val r <= norm v * (1 + u) ^ K + / 2 * eta) \/
  (r = B754_infinity false /\ val (fmax_value prec emax p0 pe) < norm v * (1 + u) ^ K).
Proof.
intros nv hF hN [s0 [len [hs [hl ->]]]]; cbv zeta.
destruct (scaleP prec emax fmax fmaxP pm v s0 hs hF nv) as [f0 [h1 h2]].
destruct min_val as [mv mf]; destruct max_val as [xv xf].
set (s := fclamp prec emax s0 _ _) in *.
assert (H : 0 < val s /\ fin len = true /\ 0 <= val len /\
  sqrt (ssq prec emax v (val s)) * (1 - u) ^ ((length v + ps) / 2 + 4) <= val len <= sqrt (ssq prec emax v (val s)) * (1 + u) ^ ((length v + ps) / 2 + 4) /\ fin s = true).
{ assert (c := flt_val prec emax s0 _ f0 mf); assert (c' := flt_val prec emax _ s0 xf f0).
  unfold s, fclamp in *; destruct (flt prec emax s0 (fmin_normal _ _ _ _)).
  - assert (l := proj1 c eq_refl); assert (sp : 0 < val (fmin_normal prec emax p0 pe)) by (rewrite mv; apply bpow_gt_0).
    assert (hm : forall x, In x v -> Rabs (val x) <= val (fmin_normal prec emax p0 pe)) by (intros x hx; generalize (h2 x hx); lra).
    destruct (len_tiny prec emax p0 pe prec1 v _ len ps hF sp hm hN hl range1 mv) as [a1 [a2 a3]]; auto.
  - assert (l : val (fmin_normal prec emax p0 pe) <= val s0) by (apply Rnot_lt_le; intro l; apply c in l; discriminate).
    destruct (flt prec emax (fmax_value _ _ _ _) s0); [assert (l' := proj1 c' eq_refl); generalize (le_max s0); lra|].
    assert (sp : 0 < val s0) by (apply Rlt_le_trans with (2 := l); rewrite mv; apply bpow_gt_0).
    destruct (len_unit prec emax p0 pe prec1 v s0 len ps hF sp h2 hN hl range2 h1) as [a1 [a2 a3]].
    split; [exact sp|]; split; [exact a1|]; split; [lra|]; split; [exact a3|exact f0]. }
clear mv mf xv xf h1 h2 hs hl; clearbody s; destruct H as [sp [fl [l0 [hb fs]]]].
rewrite (norm_ssq v (val s) sp); set (q := sqrt _) in *; assert (q0 : 0 <= q) by apply sqrt_pos.
assert (pu : 0 < u) by apply bpow_gt_0.
assert (lu : u <= / 4) by apply (u4 prec prec1).
replace ((length v + ps) / 2 + 5)%nat with ((length v + ps) / 2 + 4 + 1)%nat by lia.
set (k := ((length v + ps) / 2 + 4)%nat) in *; clearbody k; rewrite !pow_add, !pow_1; set (A := (1 - u) ^ k) in *; set (B := (1 + u) ^ k) in *.
assert (e := RN_err prec emax p0 (val len * val s)).
set (t := val len * val s) in *; assert (t0 : 0 <= t) by (apply Rmult_le_pos; lra).
assert (tb : q * val s * A <= t <= q * val s * B).
{ unfold t; split; [replace (q * val s * A) with (q * A * val s) by ring|replace (q * val s * B) with (q * B * val s) by ring]; apply Rmult_le_compat_r; lra. }
rewrite (Rabs_pos_eq t t0), epsE in e; change (bpow radix2 (- prec)) with u in e; apply Rabs_le_inv in e.
generalize (Bmult_correct prec emax p0 pe mode_NE len s); fold t.
change (round radix2 (SpecFloat.fexp prec emax) (round_mode mode_NE) t) with (round radix2 (FLT_exp (SpecFloat.emin prec emax) prec) ZnearestE t).
set (RT := round _ _ _ t) in *.
destruct (Rlt_bool_spec (Rabs RT) (bpow radix2 emax)) as [l|l]; intro H.
- left; destruct H as [H1 [H2 _]]; unfold fmul; rewrite H1, H2, fl, fs; split; [reflexivity|].
  assert (a1 : t * (1 - u) <= RT + / 2 * eta) by lra; assert (a2 : RT - / 2 * eta <= t * (1 + u)) by lra.
  assert (b1 : q * val s * A * (1 - u) <= t * (1 - u)) by (apply Rmult_le_compat_r; lra).
  assert (b2 : t * (1 + u) <= q * val s * B * (1 + u)) by (apply Rmult_le_compat_r; lra).
  split; lra.
- right.
  assert (lt : val (fmax_value prec emax p0 pe) < t).
  { apply Rnot_le_lt; intro h; apply Rle_not_lt in l; apply l.
    apply Rle_lt_trans with (Rabs (val (fmax_value prec emax p0 pe))); [|apply val_lt].
    apply RN_le; [exact p0|apply format_val|]; rewrite !Rabs_pos_eq; lra. }
  assert (len0 : 0 < val len).
  { destruct (Rle_lt_or_eq_dec _ _ l0) as [h|h]; [exact h|]; exfalso; unfold t in lt; rewrite <- h, Rmult_0_l in lt.
    rewrite (proj1 max_val) in lt; assert (bpow radix2 (emax - prec) < bpow radix2 emax) by (apply bpow_lt; lia); lra. }
  split.
  + rewrite (pos_sign len len0), (pos_sign s sp) in H; unfold fmul; simpl in H.
    destruct (Bmult mode_NE len s) as [sx|sx| |sx m ex b]; try discriminate; inversion H; reflexivity.
  + apply Rlt_le_trans with (1 := lt); apply Rle_trans with (1 := proj2 tb).
    rewrite <- (Rmult_1_r (q * val s * B)) at 1; rewrite <- Rmult_assoc; apply Rmult_le_compat_l; [|lra].
    apply Rmult_le_pos; [apply Rmult_le_pos; lra|]; unfold B; apply pow_le; lra.
Qed.

(* a sum with a NaN is NaN *)
Lemma sum_nan lanes r : freduce prec emax (fadd prec emax p0 pe) lanes r -> In (@B754_nan prec emax) lanes -> r = B754_nan.
Proof.
intro H; induction H as [x|s1 s2 a b H1 IH1 H2 IH2|s1 s2 a H IH]; intro h.
- destruct h as [h|[]]; exact h.
- apply in_app_or in h; destruct h as [h|h]; [rewrite (IH1 h); destruct b; reflexivity|rewrite (IH2 h); destruct a as [[|]|[|]| |]; reflexivity].
- apply IH, in_or_app; apply in_app_or in h; tauto.
Qed.
Lemma length_nan v ps len : In (@B754_nan prec emax) v -> flength prec emax p0 pe ps v len -> len = B754_nan.
Proof.
intros h [q [H ->]]; unfold flength_squared, fsum in H.
rewrite (sum_nan _ _ H); [reflexivity|]; apply in_or_app; left.
apply in_map_iff; exists B754_nan; split; [reflexivity|exact h].
Qed.
Lemma div_nan v s : In (@B754_nan prec emax) v -> In (@B754_nan prec emax) (fdivs prec emax p0 pe v s).
Proof. intro h; unfold fdivs; apply in_map_iff; exists B754_nan; split; [destruct s; reflexivity|exact h]. Qed.

(* the maximum of absolute values one of which is infinite *)
Lemma max_inf lanes r : freduce prec emax fmax lanes r -> Forall (fun x => is_nan x = false /\ x <> B754_infinity true) lanes ->
  (is_nan r = false /\ r <> B754_infinity true) /\ (In (B754_infinity false) lanes -> r = B754_infinity false).
Proof.
intro H; induction H as [x|s1 s2 a b H1 IH1 H2 IH2|s1 s2 a H IH]; intro h.
- split; [inversion h; assumption|]; intros [e|[]]; exact e.
- apply Forall_app in h; destruct h as [h1 h2]; destruct (IH1 h1) as [[n1 m1] i1]; destruct (IH2 h2) as [[n2 m2] i2].
  rewrite fmaxP by assumption; split; [destruct (flt prec emax a b); split; assumption|].
  intro h; apply in_app_or in h; destruct h as [h|h].
  + rewrite (i1 h); destruct b as [sb|[|]| |sb mb eb bb]; try reflexivity; discriminate.
  + rewrite (i2 h); destruct a as [sa|[|]| |sa ma ea ba]; try reflexivity; try discriminate; contradiction m1; reflexivity.
- apply Forall_app in h; destruct IH as [IH1 IH2]; [apply Forall_app; tauto|]; split; [exact IH1|].
  intro h'; apply IH2, in_or_app; apply in_app_or in h'; tauto.
Qed.
Lemma scale_inf pm v s : fscale prec emax fmax pm v s -> Forall (fun x => is_nan x = false) v ->
  (exists b, In (B754_infinity b) v) -> s = B754_infinity false.
Proof.
intros H hF [b hb]; unfold fscale, fmaximum in H.
assert (hA : Forall (fun x => is_nan x = false /\ x <> B754_infinity true) (map (fabs prec emax) v)).
{ apply Forall_map; rewrite Forall_forall in *; intros x hx; specialize (hF x hx).
  destruct x; try discriminate; split; try reflexivity; discriminate. }
apply (max_inf _ _ H).
- apply Forall_app; split; [exact hA|]; rewrite Forall_forall; intros x hx; apply repeat_spec in hx; subst x.
  destruct v as [|y v]; [destruct hb|]; inversion hA; assumption.
- apply in_or_app; left; apply in_map_iff; exists (B754_infinity b); split; [reflexivity|exact hb].
Qed.

(* LengthPrecise of a vector with a NaN is NaN; without a NaN but with an infinity it is infinite *)
Theorem C78_length_nan (v : list float) (pm ps : nat) (r : float) :
  In B754_nan v -> flength_precise prec emax p0 pe fmax pm ps v r -> r = B754_nan.
Proof.
intros h [s [len [_ [hl ->]]]]; rewrite (length_nan _ _ _ (div_nan _ _ h) hl); reflexivity.
Qed.
Lemma sum_inf lanes r : freduce prec emax (fadd prec emax p0 pe) lanes r -> Forall (fun x => is_nan x = false /\ Bsign x = false) lanes ->
  (is_nan r = false /\ Bsign r = false) /\ (In (B754_infinity false) lanes -> r = B754_infinity false).
Proof.
intro H; induction H as [x|s1 s2 a b H1 IH1 H2 IH2|s1 s2 a H IH]; intro h.
- split; [inversion h; assumption|]; intros [e|[]]; exact e.
- apply Forall_app in h; destruct h as [h1 h2]; destruct (IH1 h1) as [[n1 m1] i1]; destruct (IH2 h2) as [[n2 m2] i2]; split.
  + generalize (Bplus_correct prec emax p0 pe mode_NE a b).
    destruct a as [[|]|[|]| |[|] ma ea ba]; destruct b as [[|]|[|]| |[|] mb eb bb]; try discriminate; intro K; try (split; reflexivity).
    specialize (K eq_refl eq_refl); unfold fadd.
    set (x := Bplus _ _ _) in *; destruct (Rlt_bool _ _).
    * destruct K as [_ [K1 K2]]; split; [destruct x; try discriminate; reflexivity|].
      rewrite K2; destruct (Rcompare_spec (val (B754_finite false ma ea ba) + val (B754_finite false mb eb bb)) 0) as [l|l|l]; try reflexivity.
      exfalso; revert l; apply Rle_not_lt, Rplus_le_le_0_compat; simpl; apply F2R_ge_0; simpl; lia.
    * destruct K as [K _]; destruct x as [sx|sx| |sx mx ex bx]; try discriminate; inversion K; split; reflexivity.
  + intro h; apply in_app_or in h; destruct h as [h|h].
    * rewrite (i1 h); destruct b as [sb|[|]| |sb mb eb bb]; try reflexivity; discriminate.
    * rewrite (i2 h); destruct a as [sa|[|]| |sa ma ea ba]; try reflexivity; discriminate.
- apply Forall_app in h; destruct IH as [IH1 IH2]; [apply Forall_app; tauto|]; split; [exact IH1|].
  intro h'; apply IH2, in_or_app; apply in_app_or in h'; tauto.
Qed.
Theorem C78_length_infinite (v : list float) (pm ps : nat) (r : float) :
  Forall (fun x => is_nan x = false) v -> (exists b, In (B754_infinity b) v) ->
  flength_precise prec emax p0 pe fmax pm ps v r -> r = B754_infinity false.
Proof.
intros hF hi [s [len [hs [hl ->]]]]; rewrite (scale_inf pm v s hs hF hi) in hl |- *.
assert (c : fclamp prec emax (B754_infinity false) (fmin_normal prec emax p0 pe) (fmax_value prec emax p0 pe) = fmax_value prec emax p0 pe).
{ unfold fclamp; generalize (proj2 min_val); destruct (fmin_normal prec emax p0 pe); try discriminate; reflexivity. }
cbv zeta in hl; rewrite c in hl |- *; clear c.
destruct hl as [q [hq ->]]; unfold flength_squared, fsum in hq.
destruct (sum_inf _ _ hq) as [_ e].
- apply Forall_app; split.
  + unfold fdivs; rewrite map_map, Forall_map; rewrite Forall_forall in *; intros x hx; specialize (hF x hx).
    assert (n : is_nan (fdiv prec emax p0 pe x (fmax_value prec emax p0 pe)) = false).
    { assert (xp : 0 < val (fmax_value prec emax p0 pe)).
      { rewrite (proj1 max_val); assert (bpow radix2 (emax - prec) < bpow radix2 emax) by (apply bpow_lt; lia); lra. }
      destruct x as [sx|sx| |sx mx ex bx]; try discriminate; try reflexivity.
      set (x := B754_finite sx mx ex bx); assert (fx : fin x = true) by reflexivity.
      apply fin_nan, (fdiv_small prec emax p0 pe prec1 x _ fx xp).
      rewrite <- (fabs_val prec emax x); apply le_max. }
    set (y := fdiv _ _ _ _ x _) in *; clearbody y.
    assert (S : is_nan (fmul prec emax p0 pe y y) = false).
    { destruct y as [sy|sy| |sy my ey by_]; try discriminate; try reflexivity.
      generalize (Bmult_correct prec emax p0 pe mode_NE (B754_finite sy my ey by_) (B754_finite sy my ey by_)); unfold fmul.
      set (z := Bmult _ _ _); destruct (Rlt_bool _ _); [intros [_ [K _]]; destruct z; try discriminate; reflexivity|].
      intro K; destruct z; try discriminate; reflexivity. }
    split; [exact S|].
    generalize (Bmult_correct prec emax p0 pe mode_NE y y); fold (fmul prec emax p0 pe y y); unfold fmul in *.
    destruct (Rlt_bool _ _).
    * intros [_ [_ K]]; rewrite (K S); apply xorb_nilpotent.
    * rewrite xorb_nilpotent; destruct (Bmult mode_NE y y); intro K; try discriminate; inversion K; reflexivity.
  + rewrite Forall_forall; intros x hx; apply repeat_spec in hx; subst x; split; reflexivity.
- rewrite e; [|apply in_or_app; left].
  + generalize (proj2 max_val); assert (sg : Bsign (fmax_value prec emax p0 pe) = false).
    { apply pos_sign; rewrite (proj1 max_val); assert (bpow radix2 (emax - prec) < bpow radix2 emax) by (apply bpow_lt; lia); lra. }
    revert sg; unfold fmax_value, Bmax_float; simpl; reflexivity.
  + destruct hi as [b hi]; unfold fdivs; rewrite map_map; apply in_map_iff; exists (B754_infinity b); split; [|exact hi].
    unfold fmax_value, Bmax_float; destruct b; reflexivity.
Qed.

(* NormalizePrecise returns the vector given for null vectors if there is nothing to normalise *)
Theorem C78_normalize_degenerate (v degenerate r : list float) (pm ps : nat) :
  v <> [] -> Forall (fun x => fin x = true /\ val x = 0) v \/ Exists (fun x => fin x = false) v ->
  fnormalize_precise prec emax p0 pe fmax pm ps v degenerate r -> r = degenerate.
Proof.
intros nv h [s [len [hs [hl ->]]]].
cut (In B754_nan (fdivs prec emax p0 pe v s)); [intro H; rewrite (length_nan _ _ _ H hl); reflexivity|]; clear hl.
destruct h as [h|h].
- assert (hF : Forall (fun x => fin x = true) v) by (revert h; apply Forall_impl; tauto).
  destruct (scaleP prec emax fmax fmaxP pm v s hs hF nv) as [f0 [[x [hx ex]] _]].
  rewrite Forall_forall in h; destruct (h x hx) as [fx zx]; rewrite zx, Rabs_R0 in ex.
  assert (Z : forall y : float, fin y = true -> val y = 0 -> exists b, y = B754_zero b).
  { intros [sy|sy| |[|] my ey by_] fy zy; try discriminate; [exists sy; reflexivity| |]; exfalso; revert zy; simpl.
    - apply Rlt_not_eq, F2R_lt_0; reflexivity.
    - apply Rgt_not_eq, F2R_gt_0; reflexivity. }
  destruct (Z x fx zx) as [b1 ->]; destruct (Z s f0 (eq_sym ex)) as [b2 ->].
  unfold fdivs; apply in_map_iff; exists (B754_zero b1); split; [reflexivity|exact hx].
- destruct (existsb (fun x => is_nan x) v) eqn:E.
  + apply existsb_exists in E; destruct E as [x [hx nx]]; destruct x; try discriminate; apply div_nan; exact hx.
  + assert (hF : Forall (fun x => is_nan x = false) v).
    { rewrite Forall_forall; intros x hx; destruct (is_nan x) eqn:n; [|reflexivity].
      rewrite <- E; symmetry; apply existsb_exists; exists x; tauto. }
    assert (hi : exists b, In (B754_infinity b) v).
    { apply Exists_exists in h; destruct h as [x [hx fx]]; rewrite Forall_forall in hF; specialize (hF x hx).
      destruct x as [sx|sx| |sx mx ex bx]; try discriminate; exists sx; exact hx. }
    rewrite (scale_inf pm v s hs hF hi); destruct hi as [b hi].
    unfold fdivs; apply in_map_iff; exists (B754_infinity b); split; [reflexivity|exact hi].
Qed.

(* all other vectors: no overflow; the elements are those of the unit vector up to rounding and at most one in magnitude *)
Theorem C78_normalize_precise (v degenerate r : list float) (pm ps : nat) :
  Forall (fun x => fin x = true) v -> Exists (fun x => val x <> 0) v -> INR (length v + ps) <= bpow radix2 prec ->
  fnormalize_precise prec emax p0 pe fmax pm ps v degenerate r ->
  let K := ((length v + ps) / 2 + 4)%nat in
  Forall2 (fun x y => fin y = true /\ Rabs (val y) <= 1 /\ 0 <= val x * val y /\
    Rabs (val x) / norm v * ((1 - u) ^ 2 / (1 + u) ^ K) - 3 / 2 * eta <= Rabs (val y) <=
    Rabs (val x) / norm v * ((1 + u) ^ 2 / (1 - u) ^ K) + 3 / 2 * eta) v r.
Proof.
intros hF hE hN [s [len [hs [hl ->]]]]; cbv zeta.
assert (nv : v <> []) by (intros ->; inversion hE).
destruct (scaleP prec emax fmax fmaxP pm v s hs hF nv) as [f0 [h1 h2]].
assert (sp : 0 < val s).
{ apply Exists_exists in hE; destruct hE as [x [hx nx]]; apply Rlt_le_trans with (Rabs (val x)); [apply Rabs_pos_lt, nx|apply h2, hx]. }
destruct (len_unit prec emax p0 pe prec1 v s len ps hF sp h2 hN hl range2 h1) as [a1 [a2 a3]].
change (bpow radix2 (- prec)) with u in a3.
assert (nz : fneq prec emax len (fzero prec emax) = true).
{ unfold fneq; rewrite Bcompare_correct by (assumption || reflexivity); simpl; rewrite Rcompare_Gt by lra; reflexivity. }
rewrite a1, nz; cbn [andb]; clear nz.
rewrite (norm_ssq v (val s) sp); set (q := sqrt _) in *.
set (k := ((length v + ps) / 2 + 4)%nat) in *.
assert (pu : 0 < u) by apply bpow_gt_0.
assert (lu : u <= / 4) by apply (u4 prec prec1).
assert (A0 : 0 < (1 - u) ^ k) by (apply pow_lt; lra); assert (B0 : 0 < (1 + u) ^ k) by (apply pow_lt; lra).
set (A := (1 - u) ^ k) in *; set (B := (1 + u) ^ k) in *.
assert (q0 : 0 < q).
{ destruct (Rle_lt_or_eq_dec 0 q (sqrt_pos _)) as [h|h]; [exact h|]; rewrite <- h in a3; lra. }
assert (E0 : 0 < eta) by apply bpow_gt_0.
assert (L : / (q * B) <= / val len <= / (q * A)).
{ assert (0 < q * A) by (apply Rmult_lt_0_compat; lra); split; apply Rinv_le_contravar; lra. }
assert (L1 : 0 < / val len <= 1) by (split; [apply Rinv_0_lt_compat; lra|rewrite <- Rinv_1; apply Rinv_le; lra]).
assert (a4 := proj1 a2); clear a2 h1 hE hs hl hN nv; clearbody A B q; clear k; unfold fdivs; rewrite map_map.
induction v as [|x v IH]; cbn [map]; [apply Forall2_nil|]; apply Forall2_cons; [clear IH|inversion hF; apply IH; [assumption|intros; apply h2; right; assumption]].
assert (fx : fin x = true) by (inversion hF; assumption).
assert (lx := h2 x (or_introl eq_refl)).
destruct (fdiv_small prec emax p0 pe prec1 x s fx sp lx) as [b1 [b2 b3]].
set (w := fdiv prec emax p0 pe x s) in *.
destruct (fdiv_small prec emax p0 pe prec1 w len b1 ltac:(lra) ltac:(lra)) as [c1 [c2 c3]].
set (y := fdiv prec emax p0 pe w len) in *.
split; [exact c1|]; split; [exact c3|].
set (t := val x / val s) in *; set (z := val w / val len) in *.
assert (T : Rabs (val x) / (q * val s) = Rabs t / q).
{ unfold t, Rdiv; rewrite Rabs_mult, (Rabs_pos_eq (/ val s)) by (apply Rlt_le, Rinv_0_lt_compat, sp); field; lra. }
assert (e1 := RN_err prec emax p0 t); rewrite <- b2, epsE in e1; change (bpow radix2 (- prec)) with u in e1.
assert (e2 := RN_err prec emax p0 z); rewrite <- c2, epsE in e2; change (bpow radix2 (- prec)) with u in e2.
assert (f1 := Rabs_triang_inv2 (val w) t); assert (f2 := Rabs_triang_inv2 (val y) z).
assert (W : Rabs z = Rabs (val w) * / val len) by (unfold z, Rdiv; rewrite Rabs_mult, (Rabs_pos_eq (/ val len)); lra).
assert (tp := Rabs_pos t); assert (wp := Rabs_pos (val w)); assert (zp := Rabs_pos z).
assert (g1 : Rabs (Rabs (val w) - Rabs t) <= u * Rabs t + / 2 * eta) by lra.
assert (g2 : Rabs (Rabs (val y) - Rabs z) <= u * Rabs z + / 2 * eta) by lra.
apply Rabs_le_inv in g1; apply Rabs_le_inv in g2.
split.
- clear - b2 c2 sp L1 p0 prec1.
  assert (P : forall a, 0 <= a -> 0 <= round radix2 (FLT_exp (SpecFloat.emin prec emax) prec) ZnearestE a).
  { intros a h; apply RN_ge; [exact p0|apply generic_format_0|exact h]. }
  assert (Q : forall a, a <= 0 -> round radix2 (FLT_exp (SpecFloat.emin prec emax) prec) ZnearestE a <= 0).
  { intros a h; apply RN_le'; [exact p0|apply generic_format_0|exact h]. }
  assert (is0 : 0 < / val s) by (apply Rinv_0_lt_compat, sp).
  destruct (Rle_or_lt 0 (val x)) as [h|h].
  + assert (0 <= val w) by (rewrite b2; apply P; unfold t; apply Rmult_le_pos; lra).
    assert (0 <= val y) by (rewrite c2; apply P; unfold z; apply Rmult_le_pos; lra).
    apply Rmult_le_pos; assumption.
  + assert (val w <= 0) by (rewrite b2; apply Q; unfold t, Rdiv; assert (H := Rmult_le_pos (- val x) (/ val s) ltac:(lra) ltac:(lra)); lra).
    assert (val y <= 0) by (rewrite c2; apply Q; unfold z, Rdiv; assert (H' := Rmult_le_pos (- val w) (/ val len) ltac:(lra) ltac:(lra)); lra).
    rewrite <- Rmult_opp_opp; apply Rmult_le_pos; lra.
- rewrite T; clear T; rewrite W in *; clear W b2 c2 b3 c3 e1 e2 f1 f2 fx lx.
  set (a := Rabs t) in *; set (b := Rabs (val w)) in *; set (c := Rabs (val y)) in *; set (l := / val len) in *.
  clearbody a b c l.
  replace (a / q * ((1 - u) ^ 2 / B)) with (a * (1 - u) * / (q * B) * (1 - u)) by (field; lra).
  replace (a / q * ((1 + u) ^ 2 / A)) with (a * (1 + u) * / (q * A) * (1 + u)) by (field; lra).
  split.
  + assert (h1 : a * (1 - u) * / (q * B) <= a * (1 - u) * l) by (apply Rmult_le_compat_l; [apply Rmult_le_pos|]; lra).
    assert (h3 : a * (1 - u) * l <= (b + / 2 * eta) * l) by (apply Rmult_le_compat_r; lra).
    assert (h4 : / 2 * eta * l <= / 2 * eta) by nra.
    assert (h5 : a * (1 - u) * / (q * B) * (1 - u) <= (b * l + / 2 * eta) * (1 - u)) by (apply Rmult_le_compat_r; lra).
    assert (h6 : / 2 * eta * (1 - u) <= / 2 * eta) by nra.
    lra.
  + assert (h1 : a * (1 + u) * l <= a * (1 + u) * / (q * A)) by (apply Rmult_le_compat_l; [apply Rmult_le_pos|]; lra).
    assert (h3 : (b - / 2 * eta) * l <= a * (1 + u) * l) by (apply Rmult_le_compat_r; lra).
    assert (h4 : / 2 * eta * l <= / 2 * eta) by nra.
    assert (h5 : (b * l - / 2 * eta) * (1 + u) <= a * (1 + u) * / (q * A) * (1 + u)) by (apply Rmult_le_compat_r; lra).
    assert (h6 : / 2 * eta * (1 + u) <= eta) by nra.
    lra.
Qed.

(* so its length is one up to rounding *)
Lemma unit_sum (v r : list float) (n lo hi c : R) : 0 < n -> 0 <= lo -> 0 <= hi -> 0 <= c ->
  Forall (fun x => Rabs (val x) <= n) v ->
  Forall2 (fun x y => Rabs (val x) / n * lo - c <= Rabs (val y) <= Rabs (val x) / n * hi + c) v r ->
  lo ^ 2 * (Rsum (map (fun x => val x ^ 2) v) / n ^ 2) - INR (length v) * (2 * c * lo) <= Rsum (map (fun y => val y ^ 2) r) <=
  hi ^ 2 * (Rsum (map (fun x => val x ^ 2) v) / n ^ 2) + INR (length v) * (2 * c * hi + c ^ 2).
Proof.
intros n0 l0 h0 c0 hv H; induction H as [|x y v r hxy H IH].
- unfold Rsum; simpl; lra.
- inversion hv as [|? ? hx hv']; subst; specialize (IH hv'); cbn [map length]; rewrite S_INR; unfold Rsum in *; cbn [fold_right].
  set (S := fold_right Rplus 0 (map (fun x => val x ^ 2) v)) in *; set (T := fold_right Rplus 0 (map (fun x => val x ^ 2) r)) in *; set (m := INR (length v)) in *.
  replace ((val x ^ 2 + S) / n ^ 2) with ((Rabs (val x) / n) ^ 2 + S / n ^ 2) by (rewrite <- (pow2_abs (val x)); field; lra).
  rewrite <- (pow2_abs (val y)).
  assert (a0 : 0 <= Rabs (val x) / n <= 1).
  { split; [apply Rmult_le_pos; [apply Rabs_pos|apply Rlt_le, Rinv_0_lt_compat, n0]|].
    apply (Rmult_le_reg_r n); [exact n0|]; unfold Rdiv; rewrite Rmult_assoc, Rinv_l by lra; lra. }
  assert (y0 := Rabs_pos (val y)); set (a := Rabs (val x) / n) in *; set (b := Rabs (val y)) in *; clearbody a b m; set (S' := S / n ^ 2) in *; clearbody S' T.
  assert (e1 : (a * lo) ^ 2 - 2 * c * lo <= b ^ 2).
  { assert (0 <= a * lo <= lo) by nra.
    destruct (Rle_or_lt (a * lo) c) as [h|h].
    - apply Rle_trans with 0; [|apply pow2_ge_0]; nra.
    - assert (0 <= (b - (a * lo - c)) * (b + (a * lo - c))) by (apply Rmult_le_pos; lra).
      assert (c * (a * lo) <= c * lo) by (apply Rmult_le_compat_l; lra).
      nra. }
  assert (e2 : b ^ 2 <= (a * hi) ^ 2 + (2 * c * hi + c ^ 2)).
  { assert (0 <= a * hi <= hi) by nra.
    assert (0 <= ((a * hi + c) - b) * ((a * hi + c) + b)) by (apply Rmult_le_pos; lra).
    assert (c * (a * hi) <= c * hi) by (apply Rmult_le_compat_l; lra).
    nra. }
  split; lra.
Qed.
Theorem C78_normalize_unit (v degenerate r : list float) (pm ps : nat) :
  Forall (fun x => fin x = true) v -> Exists (fun x => val x <> 0) v -> INR (length v + ps) <= bpow radix2 prec ->
  fnormalize_precise prec emax p0 pe fmax pm ps v degenerate r ->
  let K := ((length v + ps) / 2 + 4)%nat in
  (1 - u) ^ 2 / (1 + u) ^ K - 3 * INR (length v) * eta <= norm r <= (1 + u) ^ 2 / (1 - u) ^ K + 3 / 2 * INR (length v) * eta.
Proof.
intros hF hE hN hr K; assert (H := C78_normalize_precise v degenerate r pm ps hF hE hN hr); cbv zeta in H; fold K in H.
assert (le : forall x, In x v -> val x ^ 2 <= Rsum (map (fun x => val x ^ 2) v)).
{ clear; induction v as [|y v IH]; [intros x []|]; unfold Rsum in *; cbn [map fold_right]; intros x [->|h].
  - assert (0 <= fold_right Rplus 0 (map (fun x => val x ^ 2) v)); [|lra].
    clear; induction v as [|y v IH]; cbn [map fold_right]; [lra|]; generalize (pow2_ge_0 (val y)); lra.
  - generalize (IH x h) (pow2_ge_0 (val y)); lra. }
apply Exists_exists in hE; destruct hE as [x0 [hx0 nx0]].
assert (S0 : 0 < Rsum (map (fun x => val x ^ 2) v)).
{ apply Rlt_le_trans with (2 := le x0 hx0); rewrite <- pow2_abs; apply pow_lt, Rabs_pos_lt, nx0. }
assert (n0 : 0 < norm v) by (apply sqrt_lt_R0, S0).
assert (nn : norm v ^ 2 = Rsum (map (fun x => val x ^ 2) v)) by (unfold norm; rewrite pow2_sqrt; lra).
assert (pu : 0 < u) by apply bpow_gt_0.
assert (lu : u <= / 4) by apply (u4 prec prec1).
assert (E0 : 0 < eta) by apply bpow_gt_0.
assert (A0 : 0 < (1 - u) ^ K) by (apply pow_lt; lra); assert (B0 : 0 < (1 + u) ^ K) by (apply pow_lt; lra).
assert (lo0 : 0 < (1 - u) ^ 2 / (1 + u) ^ K) by (apply Rdiv_lt_0_compat; [apply pow_lt; lra|exact B0]).
assert (hi0 : 0 < (1 + u) ^ 2 / (1 - u) ^ K) by (apply Rdiv_lt_0_compat; [apply pow_lt; lra|exact A0]).
set (lo := (1 - u) ^ 2 / (1 + u) ^ K) in *; set (hi := (1 + u) ^ 2 / (1 - u) ^ K) in *.
destruct (unit_sum v r (norm v) lo hi (3 / 2 * eta)) as [s1 s2]; try lra.
- rewrite Forall_forall; intros x hx; rewrite <- (sqrt_Rsqr_abs (val x)); unfold norm; apply sqrt_le_1_alt.
  generalize (le x hx); unfold Rsqr; simpl; lra.
- generalize (norm v) H; clearbody lo hi; clear; intros n H; induction H; constructor; tauto.
- rewrite nn in s1, s2; unfold Rdiv in s1, s2 at 1; rewrite Rinv_r in s1, s2 by lra; rewrite Rmult_1_r in s1, s2.
  unfold norm at 1 2; assert (m0 : 1 <= INR (length v)) by (destruct v; [destruct hx0|cbn [length]; rewrite S_INR; generalize (pos_INR (length v)); lra]); set (m := INR (length v)) in *; set (T := Rsum (map (fun y => val y ^ 2) r)) in *.
  clearbody m T lo hi; set (e := eta) in *; clearbody e; clear - s1 s2 m0 lo0 hi0 E0; split.
  + destruct (Rle_or_lt (lo - 3 * m * e) 0) as [h|h]; [apply Rle_trans with (1 := h), sqrt_pos|].
    rewrite <- (sqrt_pow2 (lo - 3 * m * e)) by lra; apply sqrt_le_1_alt.
    assert (0 <= m * e) by (apply Rmult_le_pos; lra).
    apply Rle_trans with (2 := s1); nra.
  + assert (0 <= m * e) by (apply Rmult_le_pos; lra).
    rewrite <- (sqrt_pow2 (hi + 3 / 2 * m * e)) by lra; apply sqrt_le_1_alt.
    apply Rle_trans with (1 := s2).
    assert (m <= m ^ 2) by nra; assert (0 <= e ^ 2) by apply pow2_ge_0.
    assert (m * e ^ 2 <= m ^ 2 * e ^ 2) by (apply Rmult_le_compat_r; assumption).
    nra.
Qed.
End C78.
Print Assumptions C78_length_precise.
Print Assumptions C78_length_nan.
Print Assumptions C78_length_infinite.
Print Assumptions C78_normalize_degenerate.
Print Assumptions C78_normalize_precise.
Print Assumptions C78_normalize_unit.

(* every vector has a length and a normalised vector: the relations of the model are not empty *)
Lemma freduce_total prec emax (op : binary_float prec emax -> binary_float prec emax -> binary_float prec emax) v :
  v <> [] -> exists r, freduce prec emax op v r.
Proof.
induction v as [|x v IH]; [tauto|]; intros _; destruct v as [|y v]; [exists x; constructor|].
destruct IH as [r h]; [discriminate|]; exists (op x r); apply (fred_app _ _ op [x]); [constructor|exact h].
Qed.
Theorem C78_total prec emax (p0 : Prec_gt_0 prec) (pe : Prec_lt_emax prec emax) (fmax : binary_float prec emax -> binary_float prec emax -> binary_float prec emax)
  (v degenerate : list (binary_float prec emax)) (pm ps : nat) : v <> [] ->
  (exists r, flength_precise prec emax p0 pe fmax pm ps v r) /\ (exists r, fnormalize_precise prec emax p0 pe fmax pm ps v degenerate r).
Proof.
intro nv.
assert (N : forall (A : Type) (l m : list A), l <> [] -> l ++ m <> []) by (intros A [|a l] m h; [tauto|discriminate]).
assert (M : forall f, map f v <> [] :> list (binary_float prec emax)) by (intro f; destruct v; [tauto|discriminate]).
assert (S : exists s, fscale prec emax fmax pm v s) by (apply freduce_total, N, M).
destruct S as [s hs].
assert (L : forall s, exists l, flength prec emax p0 pe ps (fdivs prec emax p0 pe v s) l).
{ intro s'; destruct (freduce_total prec emax (fadd prec emax p0 pe)
    (map (fun x => fmul prec emax p0 pe x x) (fdivs prec emax p0 pe v s') ++ repeat (fzero prec emax) ps)) as [q hq].
  - apply N; unfold fdivs; rewrite map_map; apply M.
  - exists (fsqrt prec emax p0 pe q), q; split; [exact hq|reflexivity]. }
split.
- destruct (L (fclamp prec emax s (fmin_normal prec emax p0 pe) (fmax_value prec emax p0 pe))) as [l hl].
  eexists; exists s, l; split; [exact hs|]; split; [exact hl|reflexivity].
- destruct (L s) as [l hl]; eexists; exists s, l; split; [exact hs|]; split; [exact hl|reflexivity].
Qed.
Print Assumptions C78_total.

(** * Concrete cases in double precision *)
Definition dmax (x y : binary_float 53 1024) := if flt 53 1024 x y then y else x.
(* the hypotheses on the format and on the maximum are met *)
Example C78_double : (1 < 53)%Z /\ (2 * 53 <= 1024)%Z /\ (53 + 7 <= 1024)%Z /\
  forall x y, is_nan x = false -> is_nan y = false -> dmax x y = if flt 53 1024 x y then y else x.
Proof. repeat split; discriminate. Qed.
Example C78_single : (1 < 24)%Z /\ (2 * 24 <= 128)%Z /\ (24 + 7 <= 128)%Z.
Proof. repeat split; discriminate. Qed.

Ltac red2 := cbv zeta; unfold fscale, fmaximum, flength_squared, fsum, fdivs; cbn [map app repeat hd]; match goal with
  | |- freduce _ _ ?op [?x; ?y] _ => exact (fred_app 53 1024 op [x] [y] x y (fred_one 53 1024 op x) (fred_one 53 1024 op y)) end.
(* (3, 4) 2^600: its length is 5 2^600 although the squares overflow, and (3, 4) 2^-600, whose squares underflow *)
Example C78_example :
  let v k := [dbl 3 k; dbl 4 k] in
  (exists r, flength_precise 53 1024 eq_refl eq_refl dmax 0 0 (v 600%Z) r /\ B2SF r = B2SF (dbl 5 600)) /\
  (exists r, flength_precise 53 1024 eq_refl eq_refl dmax 0 0 (v (-600)%Z) r /\ B2SF r = B2SF (dbl 5 (-600))) /\
  (exists r, flength 53 1024 eq_refl eq_refl 0 (v 600%Z) r /\ r = B754_infinity false) /\
  (exists r, flength 53 1024 eq_refl eq_refl 0 (v (-600)%Z) r /\ r = B754_zero false) /\
  (exists r, fnormalize_precise 53 1024 eq_refl eq_refl dmax 0 0 (v 600%Z) [] r /\ map B2SF r = map B2SF [dbl 5404319552844595 (-53); dbl 3602879701896397 (-52)]) /\
  (exists r, fnormalize 53 1024 eq_refl eq_refl 0 (v 600%Z) r /\ r = [B754_zero false; B754_zero false]).
Proof.
cbv zeta; repeat match goal with |- _ /\ _ => split end.
- eexists; split; [eexists; eexists; split; [red2|]; split; [eexists; split; [red2|reflexivity]|reflexivity]|vm_compute; reflexivity].
- eexists; split; [eexists; eexists; split; [red2|]; split; [eexists; split; [red2|reflexivity]|reflexivity]|vm_compute; reflexivity].
- eexists; split; [eexists; split; [red2|reflexivity]|vm_compute; reflexivity].
- eexists; split; [eexists; split; [red2|reflexivity]|vm_compute; reflexivity].
- eexists; split; [eexists; eexists; split; [red2|]; split; [eexists; split; [red2|reflexivity]|reflexivity]|vm_compute; reflexivity].
- eexists; split; [eexists; split; [eexists; split; [red2|reflexivity]|reflexivity]|vm_compute; reflexivity].
Qed.
(* the plain Length and Normalize are no substitute *)
Theorem C78_plain : exists (v : list (binary_float 53 1024)) len r,
  flength 53 1024 eq_refl eq_refl 0 v len /\ fnormalize 53 1024 eq_refl eq_refl 0 v r /\ v = [dbl 1 600] /\
  len = B754_infinity false /\ r = [B754_zero false].
Proof.
exists [dbl 1 600]; eexists; eexists; split; [eexists; split; [constructor|reflexivity]|]; split; [eexists; split; [eexists; split; [constructor|reflexivity]|reflexivity]|].
split; [reflexivity|]; split; vm_compute; reflexivity.
Qed.
Print Assumptions C78_plain.
