(* Property C80: normalisation of scalars in floating point. *)
From Coq Require Import ZArith Reals Lia Lra Psatz.
From Flocq Require Import Core IEEE754.BinarySingleNaN.
From Verif Require Import M_Float P_Float P_FloatD M_FloatN P_FloatN M_FloatC Props_Float.
Local Open Scope R_scope.

(* errors, over the real numbers *)
Section Core.
Variables (u eps A B x y s t q g : R).
Hypothesis (hu : 0 < u <= / 128) (he : 0 < eps <= u / 128).
Hypothesis (hA : Rabs A <= 1 + 4 * u) (hB : Rabs B <= 1 + 4 * u) (hm : 1 - 4 * u <= Rabs A \/ 1 - 4 * u <= Rabs B).
Hypothesis (hx : Rabs (x - A) <= u * Rabs A + eps) (hy : Rabs (y - B) <= u * Rabs B + eps).
Hypothesis (hs : Rabs (s - x * x) <= u * Rabs (x * x) + eps) (ht : Rabs (t - y * y) <= u * Rabs (y * y) + eps).
Hypothesis (hq : Rabs (q - (s + t)) <= u * Rabs (s + t) + eps).
Hypothesis (hg : Rabs (g - sqrt q) <= u * Rabs (sqrt q) + eps).

Lemma part_err A' x' : Rabs A' <= 1 + 4 * u -> Rabs (x' - A') <= u * Rabs A' + eps -> Rabs (x' - A') <= 1.05 * u.
Proof.
intros h1 h2; assert (0 <= Rabs A') by apply Rabs_pos; assert (u * Rabs A' <= u * 1.04) by (apply Rmult_le_compat_l; lra); lra.
Qed.
Lemma square_err' A' x' s' : Rabs A' <= 1 + 4 * u -> Rabs (x' - A') <= u * Rabs A' + eps -> Rabs (s' - x' * x') <= u * Rabs (x' * x') + eps ->
  Rabs (s' - A' * A') <= 3.4 * u.
Proof.
intros h1 h2 h3; assert (h4 := part_err _ _ h1 h2); rewrite (Rabs_pos_eq (x' * x')) in h3 by nra.
apply Rabs_le_inv in h1; apply Rabs_le_inv in h3; apply Rabs_le_inv in h4; clear h2.
set (d := x' - A') in *; replace x' with (A' + d) in * by (unfold d; ring); clearbody d.
assert (a1 : -1.04 <= A' <= 1.04) by lra; assert (d1 : -0.01 <= d <= 0.01) by lra.
assert (e : -(1.05 * u) * 1.04 <= A' * d <= 1.05 * u * 1.04) by (clear - hu h4 a1; nra).
assert (e2 : 0 <= d * d <= 1.05 * u * 0.01) by (clear - hu h4 d1; nra).
assert (e3 : 0 <= A' * A' <= 1.09) by (clear - a1; nra).
assert (e4 : 0 <= u * ((A' + d) * (A' + d)) <= u * 1.12).
{ split; [apply Rmult_le_pos; [lra|apply Rle_0_sqr]|apply Rmult_le_compat_l; lra]. }
apply Rabs_le; split; lra.
Qed.
Definition S := A * A + B * B.
Lemma S_bounds : 0.93 <= S <= 2.14.
Proof.
assert (hA0 := hA); assert (hB0 := hB); unfold S; apply Rabs_le_inv in hA; apply Rabs_le_inv in hB; clear hx hy hs ht hq hg; split; [|assert (-1.034 <= A <= 1.034) by lra; assert (-1.034 <= B <= 1.034) by lra; clear - H H0; nra].
assert (hA' : Rabs A * Rabs A = A * A) by (rewrite <- Rabs_mult; apply Rabs_pos_eq; nra).
assert (hB' : Rabs B * Rabs B = B * B) by (rewrite <- Rabs_mult; apply Rabs_pos_eq; nra).
assert (hm' : 0.965 <= Rabs A \/ 0.965 <= Rabs B) by (destruct hm; lra); clear - hm' hA' hB'; destruct hm'; nra.
Qed.
Lemma q_err : Rabs (q - S) <= 9.2 * u.
Proof.
assert (h1 := square_err' _ _ _ hA hx hs); assert (h2 := square_err' _ _ _ hB hy ht); assert (h3 := S_bounds); unfold S in *.
apply Rabs_le_inv in h1; apply Rabs_le_inv in h2.
rewrite (Rabs_pos_eq (s + t)) in hq by lra; apply Rabs_le_inv in hq.
assert (u * (s + t) <= u * 2.22) by (apply Rmult_le_compat_l; lra); assert (0 <= u * (s + t)) by (apply Rmult_le_pos; lra).
apply Rabs_le; split; lra.
Qed.
Lemma q_bounds : 0.85 <= q <= 2.22.
Proof. assert (h := q_err); assert (h3 := S_bounds); apply Rabs_le_inv in h; lra. Qed.
Lemma root_S : 0.96 <= sqrt S <= 1.47.
Proof.
assert (h := S_bounds); assert (r := sqrt_def S ltac:(lra)); assert (p := sqrt_pos S); clear - h r p; nra.
Qed.
Lemma g_err : Rabs (g - sqrt S) <= 6.6 * u.
Proof.
assert (h := q_err); assert (hb := q_bounds); assert (h3 := S_bounds); assert (h4 := root_S).
assert (r := sqrt_def S ltac:(lra)); assert (r' := sqrt_def q ltac:(lra)); assert (p' := sqrt_pos q).
rewrite (Rabs_pos_eq (sqrt q)) in hg by exact p'; set (a := sqrt S) in *; set (b := sqrt q) in *.
assert (b0 : 0.92 <= b <= 1.49) by (clear - r' p' hb; nra).
assert (e : Rabs (b - a) <= 4.9 * u).
{ assert (E : (b - a) * (b + a) = q - S) by lra.
  apply (Rmult_le_reg_r (b + a)); [lra|]; rewrite <- (Rabs_pos_eq (b + a)) at 1 by lra; rewrite <- Rabs_mult, E; apply Rle_trans with (1 := h); assert (1.88 <= b + a) by lra; assert (4.9 * u * 1.88 <= 4.9 * u * (b + a)) by (apply Rmult_le_compat_l; lra); lra. }
replace (g - a) with ((g - b) + (b - a)) by ring; apply Rle_trans with (1 := Rabs_triang _ _).
assert (u * b <= u * 1.49) by (apply Rmult_le_compat_l; lra); lra.
Qed.
Lemma g_bounds : 0.9 <= g <= 1.53.
Proof. assert (h := g_err); assert (h3 := root_S); apply Rabs_le_inv in h; lra. Qed.
Lemma quot_err A' x' : Rabs A' <= sqrt S -> Rabs (x' - A') <= 1.05 * u -> Rabs (x' / g - A' / sqrt S) <= 8.6 * u /\ Rabs (x' / g) <= 1.08.
Proof.
intros h1 h2; assert (h3 := g_err); assert (h4 := root_S); assert (h5 := g_bounds).
assert (e : x' / g - A' / sqrt S = (x' - A') / g + (A' / sqrt S) * ((sqrt S - g) / g)) by (field; lra).
assert (l1 : Rabs ((x' - A') / g) <= 1.17 * u).
{ unfold Rdiv; rewrite Rabs_mult, (Rabs_pos_eq (/ g)) by (apply Rlt_le, Rinv_0_lt_compat; lra).
  apply (Rmult_le_reg_r g); [lra|]; rewrite Rmult_assoc, Rinv_l by lra; assert (1.17 * u * 0.9 <= 1.17 * u * g) by (apply Rmult_le_compat_l; lra); lra. }
assert (l2 : Rabs ((sqrt S - g) / g) <= 7.4 * u).
{ rewrite Rabs_minus_sym in h3; unfold Rdiv; rewrite Rabs_mult, (Rabs_pos_eq (/ g)) by (apply Rlt_le, Rinv_0_lt_compat; lra).
  apply (Rmult_le_reg_r g); [lra|]; rewrite Rmult_assoc, Rinv_l by lra; assert (7.4 * u * 0.9 <= 7.4 * u * g) by (apply Rmult_le_compat_l; lra); lra. }
assert (l3 : Rabs (A' / sqrt S) <= 1) by (apply quot_le1; lra).
assert (l : Rabs (x' / g - A' / sqrt S) <= 8.6 * u).
{ rewrite e; apply Rle_trans with (1 := Rabs_triang _ _); rewrite (Rabs_mult (A' / sqrt S)).
  assert (Rabs (A' / sqrt S) * Rabs ((sqrt S - g) / g) <= 1 * (7.4 * u)) by (apply Rmult_le_compat; try apply Rabs_pos; assumption); lra. }
split; [exact l|]; replace (x' / g) with ((x' / g - A' / sqrt S) + A' / sqrt S) by ring; apply Rle_trans with (1 := Rabs_triang _ _); lra.
Qed.
End Core.

Section C80.
Variables prec emax : Z.
Context (p0 : Prec_gt_0 prec) (pe : Prec_lt_emax prec emax).
Hypothesis prec8 : (8 <= prec)%Z.
Notation float := (binary_float prec emax).
Notation val := (@B2R prec emax).
Notation fin := (@is_finite prec emax).
Notation u := (u prec).
Notation eps := (bpow radix2 (SpecFloat.emin prec emax - 1)).
Notation RN := (round radix2 (FLT_exp (SpecFloat.emin prec emax) prec) ZnearestE).
Notation fadd := (fadd prec emax p0 pe).
Notation fmul := (fmul prec emax p0 pe).
Notation fdiv := (fdiv prec emax p0 pe).
Notation fsqrt := (fsqrt prec emax p0 pe).
Notation fone := (fone prec emax p0 pe).
Notation fzero := (fzero prec emax).
Notation normalize_complex := (normalize_complex prec emax p0 pe).

Lemma u_small : 0 < u <= / 128.
Proof. split; [apply bpow_gt_0|]; replace (/ 128) with (bpow radix2 (-7)) by (simpl; lra); apply bpow_le; lia. Qed.
Lemma eps_small : 0 < eps <= u / 128.
Proof.
split; [apply bpow_gt_0|]; unfold Rdiv, Props_Float.u; replace (/ 128) with (bpow radix2 (-7)) by (simpl; lra); rewrite <- bpow_plus.
apply bpow_le; unfold SpecFloat.emin; unfold Prec_lt_emax in pe; lia.
Qed.
Lemma val_one : val fone = 1. Proof. apply Bone_correct. Qed.
Lemma fin_one : fin fone = true. Proof. apply is_finite_Bone. Qed.
Lemma big4 t : Rabs t <= 4 -> Rabs (RN t) < bpow radix2 emax.
Proof.
intro h; apply Rle_lt_trans with 4.
- rewrite <- (Rabs_pos_eq 4) by lra; apply RN_le; [exact p0| |rewrite (Rabs_pos_eq 4) by lra; exact h].
  replace 4 with (bpow radix2 2) by (simpl; lra); apply generic_format_bpow; unfold FLT_exp, SpecFloat.emin; unfold Prec_lt_emax in pe; lia.
- replace 4 with (bpow radix2 2) by (simpl; lra); apply bpow_lt; unfold Prec_lt_emax in pe; lia.
Qed.
Lemma mul4 x y : fin x = true -> fin y = true -> Rabs (val x * val y) <= 4 ->
  fin (fmul x y) = true /\ val (fmul x y) = RN (val x * val y) /\ Rabs (val (fmul x y) - val x * val y) <= u * Rabs (val x * val y) + eps.
Proof.
intros fx fy h; assert (f : fin (fmul x y) = true) by (apply fmul_fin; [exact fx|exact fy|apply big4, h]).
assert (e := fmul_val _ _ _ _ _ _ f); split; [exact f|]; split; [exact e|]; rewrite e; apply RN_err; exact p0.
Qed.
Lemma add4 x y : fin x = true -> fin y = true -> Rabs (val x + val y) <= 4 ->
  fin (fadd x y) = true /\ Rabs (val (fadd x y) - (val x + val y)) <= u * Rabs (val x + val y) + eps.
Proof.
intros fx fy h; assert (f : fin (fadd x y) = true) by (apply fadd_fin; [exact fx|exact fy|apply big4, h]).
split; [exact f|]; rewrite (fadd_val _ _ _ _ _ _ f); apply RN_err; exact p0.
Qed.
Lemma div4 x y : fin x = true -> val y <> 0 -> Rabs (val x / val y) <= 4 ->
  fin (fdiv x y) = true /\ Rabs (val (fdiv x y) - val x / val y) <= u * Rabs (val x / val y) + eps.
Proof.
intros fx hy h; generalize (Bdiv_correct prec emax p0 pe mode_NE x y hy); rewrite Rlt_bool_true by apply big4, h.
unfold M_Float.fdiv; intros [h1 [h2 _]]; rewrite h1, h2; split; [exact fx|]; apply RN_err; exact p0.
Qed.

(* the larger part *)
Definition larger (z : float * float) : R := Rmax (Rabs (val (fst z))) (Rabs (val (snd z))).
Lemma max_val a b : fin a = true -> fin b = true ->
  fin (std_max prec emax (fabs prec emax a) (fabs prec emax b)) = true /\
  val (std_max prec emax (fabs prec emax a) (fabs prec emax b)) = Rmax (Rabs (val a)) (Rabs (val b)).
Proof.
intros fa fb; unfold std_max.
assert (F := flt_val prec emax (fabs prec emax a) (fabs prec emax b)); rewrite !fabs_fin, !fabs_val in F; specialize (F fa fb).
destruct (flt _ _ _ _); rewrite fabs_fin, fabs_val; (split; [assumption|]).
- rewrite Rmax_right; [reflexivity|]; apply Rlt_le, F; reflexivity.
- rewrite Rmax_left; [reflexivity|]; apply Rnot_lt_le; intro h; apply F in h; discriminate.
Qed.
(* the reciprocal of a number m > 2^-emax is finite, with an error of at most 4 u: it may be subnormal *)
Lemma recip (m : float) : fin m = true -> bpow radix2 (- emax) < val m ->
  fin (fdiv fone m) = true /\ Rabs (val (fdiv fone m) * val m - 1) <= 4 * u.
Proof.
intros fm hm; assert (m0 : 0 < val m) by (apply Rlt_trans with (2 := hm), bpow_gt_0).
assert (hM : val m < bpow radix2 emax) by (rewrite <- (Rabs_pos_eq (val m)) by lra; apply abs_B2R_lt_emax).
assert (i1 : bpow radix2 (- emax) < / val m).
{ rewrite bpow_opp; apply Rinv_lt_contravar; [apply Rmult_lt_0_compat; [exact m0|apply bpow_gt_0]|exact hM]. }
assert (l : RN (/ val m) < bpow radix2 emax).
{ (* val m is at least 2^-emax + 2^emin *)
  assert (gr : bpow radix2 (- emax) + bpow radix2 (SpecFloat.emin prec emax) <= val m).
  { destruct (format_emin prec emax ltac:(lia) (val m) (format_val prec emax m)) as [k ek].
    assert (e : bpow radix2 (- emax) = IZR (2 ^ (prec - 3)) * bpow radix2 (SpecFloat.emin prec emax)).
    { change (2 ^ (prec - 3))%Z with (Zpower radix2 (prec - 3)); rewrite IZR_Zpower by lia; rewrite <- bpow_plus; f_equal; unfold SpecFloat.emin; lia. }
    assert (b := bpow_gt_0 radix2 (SpecFloat.emin prec emax)).
    rewrite e, ek in hm |- *; apply Rmult_lt_reg_r in hm; [|exact b]; apply lt_IZR in hm.
    assert (IZR (2 ^ (prec - 3) + 1) <= IZR k) by (apply IZR_le; lia); rewrite plus_IZR in H; nra. }
  assert (W : / val m <= (1 - u) * bpow radix2 emax).
  { assert (u1 := u_small); set (E := bpow radix2 emax) in *; assert (E0 : 0 < E) by apply bpow_gt_0.
    assert (ee : bpow radix2 (- emax) = / E) by (unfold E; rewrite bpow_opp; reflexivity).
    assert (e2 : bpow radix2 (SpecFloat.emin prec emax) = 8 * u * / E).
    { unfold E, Props_Float.u; rewrite <- bpow_opp; change 8 with (bpow radix2 3); rewrite <- !bpow_plus; f_equal; unfold SpecFloat.emin; lia. }
    rewrite ee, e2 in gr; apply (Rmult_le_reg_r (val m)); [exact m0|]; rewrite Rinv_l by lra.
    assert (e3 : (1 - u) * E * (/ E + 8 * u * / E) = (1 - u) * (1 + 8 * u)) by (field; lra).
    assert (0 <= (1 - u) * E) by nra; assert ((1 - u) * E * (/ E + 8 * u * / E) <= (1 - u) * E * val m) by (apply Rmult_le_compat_l; assumption).
    rewrite e3 in H0; nra. }
  apply Rle_lt_trans with ((1 - u) * bpow radix2 emax).
  - apply RN_le'; [exact p0| |exact W].
    replace ((1 - u) * bpow radix2 emax) with (IZR (2 ^ prec - 1) * bpow radix2 (emax - prec)).
    + apply format_multiple; [lia|unfold SpecFloat.emin; unfold Prec_lt_emax in pe; lia|].
      rewrite Rabs_mult, (Rabs_pos_eq (bpow _ _)) by apply bpow_ge_0; rewrite bpow_plus; apply Rmult_le_compat_r; [apply bpow_ge_0|].
      rewrite <- abs_IZR, <- (IZR_Zpower radix2) by lia; apply IZR_le; change (Zpower radix2 prec) with (2 ^ prec)%Z.
      assert (0 < 2 ^ prec)%Z by (apply Z.pow_pos_nonneg; lia); lia.
    + rewrite minus_IZR; change (2 ^ prec)%Z with (Zpower radix2 prec); rewrite IZR_Zpower by lia; unfold Props_Float.u.
      rewrite !Rmult_minus_distr_r, <- !bpow_plus, !Rmult_1_l; replace (prec + (emax - prec))%Z with emax by lia; replace (- prec + emax)%Z with (emax - prec)%Z by lia; reflexivity.
  - rewrite <- (Rmult_1_l (bpow radix2 emax)) at 2; apply Rmult_lt_compat_r; [apply bpow_gt_0|generalize u_small; lra]. }
assert (p1 : 0 <= RN (/ val m)) by (apply RN_ge; [exact p0|apply generic_format_0|apply Rlt_le, Rinv_0_lt_compat, m0]).
generalize (Bdiv_correct prec emax p0 pe mode_NE fone m ltac:(lra)).
change (round radix2 _ _ (B2R (Bone) / val m)) with (RN (val fone / val m)).
rewrite val_one; unfold Rdiv; rewrite Rmult_1_l, Rlt_bool_true by (rewrite Rabs_pos_eq by exact p1; exact l).
change (Bdiv mode_NE fone m) with (fdiv fone m); intros [h1 [h2 _]]; rewrite h2; split; [exact fin_one|].
rewrite h1; change (round radix2 _ (round_mode mode_NE) (/ val m)) with (RN (/ val m)).
assert (er : Rabs (RN (/ val m) - / val m) <= 4 * u * / val m).
{ destruct (Rle_or_lt (bpow radix2 (SpecFloat.emin prec emax + prec - 1)) (Rabs (/ val m))) as [n|n].
  - apply Rle_trans with (1 := RN_rel prec emax _ _ n); rewrite Rabs_pos_eq by (apply Rlt_le, Rinv_0_lt_compat, m0).
    change (bpow radix2 (- prec)) with u; generalize u_small (Rinv_0_lt_compat _ m0); nra.
  - apply Rle_trans with eps.
    + assert (uu := error_le_half_ulp radix2 (FLT_exp (SpecFloat.emin prec emax) prec) (fun t => negb (Z.even t)) (/ val m)).
      apply Rle_trans with (1 := uu); rewrite ulp_FLT_small by (try exact p0; apply Rlt_le_trans with (1 := n), bpow_le; lia).
      replace (SpecFloat.emin prec emax - 1)%Z with (-1 + SpecFloat.emin prec emax)%Z by lia; rewrite bpow_plus; simpl; lra.
    + apply Rle_trans with (4 * u * bpow radix2 (- emax)).
      * unfold Props_Float.u; change 4 with (bpow radix2 2); rewrite <- !bpow_plus; apply bpow_le; unfold SpecFloat.emin; lia.
      * apply Rmult_le_compat_l; [generalize u_small|]; lra. }
replace (RN (/ val m) * val m - 1) with ((RN (/ val m) - / val m) * val m) by (field; lra).
rewrite Rabs_mult, (Rabs_pos_eq (val m)) by lra; apply Rle_trans with (4 * u * / val m * val m); [apply Rmult_le_compat_r; lra|].
rewrite Rmult_assoc, Rinv_l by lra; lra.
Qed.

(* direction and modulus of the result *)
Theorem C80_precise (z : float * float) : fin (fst z) = true -> fin (snd z) = true -> bpow radix2 (- emax) < larger z ->
  let w := normalize_complex z in
  let a := val (fst z) in let b := val (snd z) in let r := sqrt (a * a + b * b) in
  fin (fst w) = true /\ fin (snd w) = true /\
  Rabs (val (fst w) - a / r) <= 10 * u /\ Rabs (val (snd w) - b / r) <= 10 * u /\
  Rabs (val (fst w) ^ 2 + val (snd w) ^ 2 - 1) <= 31 * u.
Proof.
destruct z as [za zb]; unfold larger; cbn [fst snd]; intros fa fb hm; cbv zeta.
destruct (max_val za zb fa fb) as [fm em]; set (m := std_max prec emax _ _) in *.
rewrite <- em in hm; destruct (recip m fm hm) as [fp hp].
assert (m0 : 0 < val m) by (apply Rlt_trans with (2 := hm), bpow_gt_0).
assert (us := u_small); assert (es := eps_small).
set (p := fdiv fone m) in *; set (a := val za) in *; set (b := val zb) in *.
assert (p1 : 0 < val p) by (apply Rabs_le_inv in hp; nra).
assert (la : Rabs a <= val m) by (rewrite em; apply Rmax_l); assert (lb : Rabs b <= val m) by (rewrite em; apply Rmax_r).
set (A := a * val p); set (B := b * val p).
assert (aA : Rabs A = Rabs a * val p) by (unfold A; rewrite Rabs_mult, (Rabs_pos_eq (val p)); lra).
assert (aB : Rabs B = Rabs b * val p) by (unfold B; rewrite Rabs_mult, (Rabs_pos_eq (val p)); lra).
apply Rabs_le_inv in hp.
assert (hA : Rabs A <= 1 + 4 * u) by (rewrite aA; apply Rle_trans with (val m * val p); [apply Rmult_le_compat_r|]; lra).
assert (hB : Rabs B <= 1 + 4 * u) by (rewrite aB; apply Rle_trans with (val m * val p); [apply Rmult_le_compat_r|]; lra).
assert (hM : 1 - 4 * u <= Rabs A \/ 1 - 4 * u <= Rabs B).
{ rewrite aA, aB; rewrite em in hp; unfold Rmax in hp; destruct (Rle_dec (Rabs a) (Rabs b)); [right|left]; lra. }
destruct (mul4 za p fa fp) as [fx [ex hx]]; [fold a A; lra|]; fold a A in ex, hx.
destruct (mul4 zb p fb fp) as [fy [ey hy]]; [fold b B; lra|]; fold b B in ey, hy.
unfold M_FloatC.normalize_complex; cbn [fst snd]; fold m p; unfold cmul_real, cnorm, cdiv_real; cbn [fst snd].
set (fx' := fmul za p) in *; set (fy' := fmul zb p) in *; set (x := val fx') in *; set (y := val fy') in *.
assert (px := part_err u eps us es A x hA hx); assert (py := part_err u eps us es B y hB hy).
assert (bx : Rabs x <= 1.05) by (replace x with ((x - A) + A) by ring; apply Rle_trans with (1 := Rabs_triang _ _); lra).
assert (by_ : Rabs y <= 1.05) by (replace y with ((y - B) + B) by ring; apply Rle_trans with (1 := Rabs_triang _ _); lra).
assert (xx : 0 <= x * x <= 1.11) by (clear - bx; apply Rabs_le_inv in bx; nra).
assert (yy : 0 <= y * y <= 1.11) by (clear - by_; apply Rabs_le_inv in by_; nra).
destruct (mul4 fx' fx' fx fx) as [fs [esq hs]]; [fold x; rewrite Rabs_pos_eq; lra|]; fold x in esq, hs.
destruct (mul4 fy' fy' fy fy) as [ft [etq ht]]; [fold y; rewrite Rabs_pos_eq; lra|]; fold y in etq, ht.
set (s' := fmul fx' fx') in *; set (t' := fmul fy' fy') in *; set (s := val s') in *; set (t := val t') in *.
assert (bs := square_err' u eps us es A x s hA hx hs); assert (bt := square_err' u eps us es B y t hB hy ht).
assert (SB := S_bounds u eps A B us es hA hB hM); unfold S in SB.
assert (b4 : Rabs (s + t) <= 4) by (clear - bs bt SB us; apply Rabs_le_inv in bs; apply Rabs_le_inv in bt; apply Rabs_le; lra).
destruct (add4 s' t' fs ft b4) as [fq hq]; fold s t in hq; set (q' := fadd s' t') in *; set (q := val q') in *.
assert (QB := q_bounds u eps A B x y s t q us es hA hB hM hx hy hs ht hq).
destruct (fsqrt_fin prec emax p0 pe q' fq) as [fg eg]; [fold q; lra|]; fold q in eg; rewrite fg.
assert (hg : Rabs (val (fsqrt q') - sqrt q) <= u * Rabs (sqrt q) + eps) by (rewrite eg; apply RN_err; exact p0).
set (g' := fsqrt q') in *; set (g := val g') in *.
assert (GB := g_bounds u eps A B x y s t q g us es hA hB hM hx hy hs ht hq hg).
assert (RS := root_S u eps A B us es hA hB hM).
assert (sA : Rabs A <= sqrt (S A B)) by (rewrite <- sqrt_Rsqr_abs; apply sqrt_le_1_alt; unfold Rsqr, S; clear; nra).
assert (sB : Rabs B <= sqrt (S A B)) by (rewrite <- sqrt_Rsqr_abs; apply sqrt_le_1_alt; unfold Rsqr, S; clear; nra).
destruct (quot_err u eps A B x y s t q g us es hA hB hM hx hy hs ht hq hg A x sA px) as [qx qx4].
destruct (quot_err u eps A B x y s t q g us es hA hB hM hx hy hs ht hq hg B y sB py) as [qy qy4].
assert (E : sqrt (S A B) = val p * sqrt (a * a + b * b)).
{ unfold S, A, B; replace (a * val p * (a * val p) + b * val p * (b * val p)) with ((val p * val p) * (a * a + b * b)) by ring.
  rewrite sqrt_mult_alt by (clear - p1; nra); rewrite sqrt_square by lra; reflexivity. }
set (r := sqrt (a * a + b * b)) in *; assert (r0 : 0 < r) by (clear - E RS p1; nra).
assert (EA : A / sqrt (S A B) = a / r) by (rewrite E; unfold A; field; lra).
assert (EB : B / sqrt (S A B) = b / r) by (rewrite E; unfold B; field; lra).
rewrite EA in qx; rewrite EB in qy.
destruct (div4 fx' g' fx) as [f1 d1]; [fold g; lra|fold x g; lra|]; destruct (div4 fy' g' fy) as [f2 d2]; [fold g; lra|fold y g; lra|].
cbn [fst snd]; fold x y g in d1, d2; set (w1 := val (fdiv fx' g')) in *; set (w2 := val (fdiv fy' g')) in *.
assert (D1 : Rabs (w1 - a / r) <= 10 * u).
{ replace (w1 - a / r) with ((w1 - x / g) + (x / g - a / r)) by ring; apply Rle_trans with (1 := Rabs_triang _ _).
  assert (u * Rabs (x / g) <= u * 1.08) by (apply Rmult_le_compat_l; lra); lra. }
assert (D2 : Rabs (w2 - b / r) <= 10 * u).
{ replace (w2 - b / r) with ((w2 - y / g) + (y / g - b / r)) by ring; apply Rle_trans with (1 := Rabs_triang _ _).
  assert (u * Rabs (y / g) <= u * 1.08) by (apply Rmult_le_compat_l; lra); lra. }
repeat split; [exact f1|exact f2|exact D1|exact D2|].
assert (one : (a / r) ^ 2 + (b / r) ^ 2 = 1).
{ assert (e := sqrt_def (a * a + b * b)); fold r in e; replace ((a / r) ^ 2 + (b / r) ^ 2) with ((a * a + b * b) / (r * r)) by (field; lra).
  rewrite e by (clear; nra); field; assert (0 < r * r) by (apply Rmult_lt_0_compat; exact r0); rewrite e in H by (clear; nra); lra. }
assert (us' : u <= / 256) by (replace (/ 256) with (bpow radix2 (-8)) by (simpl; lra); apply bpow_le; lia).
set (c := a / r) in *; set (d := b / r) in *; replace w1 with (c + (w1 - c)) by ring; replace w2 with (d + (w2 - d)) by ring.
set (e1 := w1 - c) in *; set (e2 := w2 - d) in *; clear - D1 D2 one us us'.
assert (cd : Rabs c + Rabs d <= 1.4143).
{ rewrite <- (pow2_abs c), <- (pow2_abs d) in one; assert (c0 := Rabs_pos c); assert (d0 := Rabs_pos d); set (c' := Rabs c) in *; set (d' := Rabs d) in *.
  assert (0 <= (c' - d') ^ 2) by apply pow2_ge_0; nra. }
replace ((c + e1) ^ 2 + (d + e2) ^ 2 - 1) with ((c * e1 + d * e2) * 2 + (e1 * e1 + e2 * e2) + ((c ^ 2 + d ^ 2) - 1)) by ring.
rewrite one; replace (1 - 1) with 0 by ring; rewrite Rplus_0_r.
assert (k1 : Rabs (c * e1) <= Rabs c * (10 * u)) by (rewrite Rabs_mult; apply Rmult_le_compat_l; [apply Rabs_pos|exact D1]).
assert (k2 : Rabs (d * e2) <= Rabs d * (10 * u)) by (rewrite Rabs_mult; apply Rmult_le_compat_l; [apply Rabs_pos|exact D2]).
assert (k3 : (Rabs c + Rabs d) * (10 * u) <= 1.4143 * (10 * u)) by (apply Rmult_le_compat_r; lra).
apply Rabs_le_inv in D1; apply Rabs_le_inv in D2; apply Rabs_le_inv in k1; apply Rabs_le_inv in k2.
assert (s1 : 0 <= e1 * e1 <= 10 * u * (10 * u)) by (clear - D1; nra); assert (s2 : 0 <= e2 * e2 <= 10 * u * (10 * u)) by (clear - D2; nra).
assert (s3 : 10 * u * (10 * u) <= 100 / 256 * u) by (clear - us us'; nra).
apply Rabs_le; split; lra.
Qed.

(* for all other numbers the result is exactly 1 *)
Lemma cnorm_nonfin x y : fin x = false \/ fin y = false -> fin (fsqrt (cnorm prec emax p0 pe (x, y))) = false.
Proof.
intro h; destruct (fin (fsqrt (cnorm prec emax p0 pe (x, y)))) eqn:E; [|reflexivity].
assert (q : fin (cnorm prec emax p0 pe (x, y)) = true).
{ revert E; destruct (cnorm prec emax p0 pe (x, y)) as [?|[|]| |? ? ? ?]; simpl; intro; reflexivity || discriminate. }
unfold cnorm in q; cbn [fst snd] in q; apply fadd_inv in q; destruct q as [q1 q2]; apply fmul_inv in q1; apply fmul_inv in q2.
destruct h as [h|h]; rewrite h in *; intuition discriminate.
Qed.
Lemma one_if z p : p = fdiv fone (std_max prec emax (fabs prec emax (fst z)) (fabs prec emax (snd z))) ->
  fin (fmul (fst z) p) = false \/ fin (fmul (snd z) p) = false -> normalize_complex z = (fone, fzero).
Proof. intros -> h; unfold M_FloatC.normalize_complex, cmul_real; rewrite cnorm_nonfin by exact h; reflexivity. Qed.
Theorem C80_one (z : float * float) : fin (fst z) = false \/ fin (snd z) = false \/ larger z <= bpow radix2 (- emax) ->
  normalize_complex z = (fone, fzero).
Proof.
destruct z as [a b]; unfold larger; cbn [fst snd]; intro h.
set (p := fdiv fone (std_max prec emax (fabs prec emax a) (fabs prec emax b))).
apply (one_if (a, b) p eq_refl); cbn [fst snd].
destruct (fin (fmul a p)) eqn:E1; [|left; reflexivity]; destruct (fin (fmul b p)) eqn:E2; [exfalso|right; reflexivity].
apply fmul_inv in E1; apply fmul_inv in E2; destruct E1 as [fa fp]; destruct E2 as [fb _].
destruct h as [h|[h|h]]; [congruence|congruence|].
destruct (max_val a b fa fb) as [fm em]; rewrite <- em in h; set (m := std_max prec emax _ _) in *.
assert (m0 : 0 <= val m) by (rewrite em; apply Rle_trans with (2 := Rmax_l _ _), Rabs_pos).
destruct (Req_dec (val m) 0) as [z|nz].
- revert fp; unfold p, M_Float.fdiv, M_Float.fone; destruct m as [s|s| |s mm ee bb] eqn:Em; try discriminate.
  + generalize (is_finite_strict_Bone prec emax p0 pe); destruct (@Bone prec emax p0 pe); simpl; discriminate.
  + exfalso; revert z; simpl; destruct s; intro z; apply eq_0_F2R in z; discriminate.
- assert (mp : 0 < val m) by lra; assert (i1 : bpow radix2 emax <= / val m).
  { rewrite <- (Rinv_inv (bpow radix2 emax)), <- bpow_opp; apply Rinv_le; assumption. }
  generalize (Bdiv_correct prec emax p0 pe mode_NE fone m nz); rewrite Rlt_bool_false.
  + change (Bdiv mode_NE fone m) with p; intro hp; revert fp hp; destruct p; simpl; try discriminate.
  + change (bpow radix2 emax <= Rabs (RN (val fone / val m))); rewrite val_one; unfold Rdiv; rewrite Rmult_1_l.
    apply Rle_trans with (2 := Rle_abs _); apply RN_ge; [exact p0| |exact i1].
    apply generic_format_bpow; unfold FLT_exp, SpecFloat.emin; unfold Prec_lt_emax in pe; lia.
Qed.

(* real numbers *)
Theorem C80_real (x : float) : is_nan x = false ->
  let r := normalize_real prec emax p0 pe x in
  fin r = true /\ Rabs (val r) = 1 /\ val x * val r = Rabs (val x) /\ Bsign r = Bsign x.
Proof.
intros nx r; unfold r, normalize_real; assert (s1 : Bsign fone = false) by apply Bsign_Bone.
destruct (Bsign x) eqn:E.
- rewrite is_finite_Bopp, B2R_Bopp, val_one, Rabs_Ropp, Rabs_R1; repeat split; [exact fin_one| |].
  + rewrite Rabs_left1; [ring|]; destruct x as [s|s| |s m e h]; simpl in *; try lra; subst s; apply F2R_le_0; simpl; lia.
  + rewrite Bsign_Bopp; [rewrite s1; reflexivity|apply fin_nan, fin_one].
- rewrite val_one, Rabs_R1; repeat split; [exact fin_one| |exact s1].
  rewrite Rabs_pos_eq; [ring|]; destruct x as [s|s| |s m e h]; simpl in *; try lra; subst s; apply F2R_ge_0; simpl; lia.
Qed.
End C80.
Print Assumptions C80_precise.
Print Assumptions C80_one.
Print Assumptions C80_real.

(** * In double precision *)
(* subnormal numbers below 2^-1024 get the direction of 1: z = 2^-1074 i *)
Theorem C80_direction_refuted : exists z : binary_float 53 1024 * binary_float 53 1024,
  is_finite (fst z) = true /\ is_finite (snd z) = true /\ B2R (fst z) = 0 /\ 0 < B2R (snd z) /\
  normalize_complex 53 1024 eq_refl eq_refl z = (fone 53 1024 eq_refl eq_refl, fzero 53 1024).
Proof.
exists (fzero 53 1024, dbl 1 (-1074)); cbn [fst snd]; repeat split; try reflexivity.
apply Rlt_le_trans with (bpow radix2 (-1074)); [apply bpow_gt_0|]; apply Req_le; symmetry.
rewrite <- SF2R_B2SF; change (B2SF (dbl 1 (-1074))) with (SpecFloat.S754_finite false 1 (-1074)).
unfold SF2R, F2R; cbn [Fnum Fexp cond_Zopp]; ring.
Qed.
Print Assumptions C80_direction_refuted.
(* a number that meets the hypotheses of C80_precise, with parts whose squares overflow *)
Example C80_example : let z := (dbl 3 1000, dbl (-4) 1000) in
  is_finite (fst z) = true /\ is_finite (snd z) = true /\ bpow radix2 (- 1024) < larger 53 1024 z /\
  is_finite (M_Float.fmul 53 1024 eq_refl eq_refl (fst z) (fst z)) = false.
Proof.
cbv zeta; cbn [fst snd]; repeat split; try (vm_compute; reflexivity).
unfold larger; cbn [fst snd]; apply Rlt_le_trans with (2 := Rmax_l _ _).
assert (e : B2R (dbl 3 1000) = IZR (3 * 2 ^ 1000)) by (dval; lra); rewrite e, <- abs_IZR.
apply Rlt_trans with (bpow radix2 0); [apply bpow_lt; lia|]; simpl bpow; apply IZR_lt; reflexivity.
Qed.
