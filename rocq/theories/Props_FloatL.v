(* Property C78, continued: the plain Length and Normalize in floating point, without overflow or underflow. *)
From Coq Require Import ZArith List Bool Reals Lia Lra.
From Flocq Require Import Core IEEE754.BinarySingleNaN.
From Verif Require Import M_Float P_Float P_FloatD M_FloatN P_FloatN Props_Float Props_FloatN Props_FloatS.
Import ListNotations.
Local Open Scope R_scope.

Section C78L.
Variables prec emax : Z.
Context (p0 : Prec_gt_0 prec) (pe : Prec_lt_emax prec emax).
Hypothesis prec1 : (1 < prec)%Z.
Notation float := (binary_float prec emax).
Notation emin := (SpecFloat.emin prec emax).
Notation val := (@B2R prec emax).
Notation fin := (@is_finite prec emax).
Notation u := (u prec).
Notation eta := (eta prec emax).
Notation bp := (bpow radix2).
Notation eps := (bpow radix2 (emin - 1)).
Notation RN := (round radix2 (FLT_exp emin prec) ZnearestE).
Notation fadd := (fadd prec emax p0 pe).
Notation fmul := (fmul prec emax p0 pe).
Notation fdiv := (fdiv prec emax p0 pe).
Notation rsum := (rsum prec emax).
Notation norm := (norm prec emax).

Lemma sum_nonneg lanes r : freduce prec emax fadd lanes r -> fin r = true -> Forall (fun p => 0 <= val p) lanes ->
  (0 < length lanes)%nat /\ Forall (fun p => fin p = true) lanes /\ 0 <= rsum lanes /\ 0 <= val r /\ (forall p, In p lanes -> val p <= val r) /\
  rsum lanes * (1 - u) ^ length lanes <= val r <= rsum lanes * (1 + u) ^ length lanes.
Proof.
assert (pu := up prec); assert (lu := u4 prec prec1); change (bp (- prec)) with u in *.
intro H; induction H as [x|s1 s2 a b H1 IH1 H2 IH2|s1 s2 a H IH]; intros f hF.
- inversion hF as [|? ? h0 _]; subst; simpl length; unfold P_FloatD.rsum; simpl fold_right; split; [lia|].
  split; [constructor; [exact f|constructor]|]; split; [lra|]; split; [lra|]; split; [intros p [->|[]]; lra|].
  simpl pow; rewrite !Rmult_1_r, Rplus_0_r; assert (val x * u >= 0) by (apply Rle_ge, Rmult_le_pos; lra); lra.
- rewrite Forall_app in hF; destruct hF as [hF1 hF2].
  destruct (fadd_inv _ _ _ _ _ _ f) as [fa fb].
  destruct (IH1 fa hF1) as [l1 [f1 [s1p [b1 [m1 e1]]]]]; destruct (IH2 fb hF2) as [l2 [f2 [s2p [b2 [m2 e2]]]]].
  rewrite app_length, (rsum_app prec emax).
  assert (h0 : 0 <= RN (val a + val b)) by (apply (RN_ge prec emax p0); [apply generic_format_0|lra]).
  assert (ev := fadd_val _ _ _ _ _ _ f); cbv beta in ev.
  split; [lia|]; split; [apply Forall_app; tauto|]; split; [lra|]; rewrite ev; split; [exact h0|]; split.
  + intros p hp; apply in_app_or in hp; destruct hp as [hp|hp].
    * apply (RN_ge prec emax p0); [apply format_val|]; generalize (m1 p hp); lra.
    * apply (RN_ge prec emax p0); [apply format_val|]; generalize (m2 p hp); lra.
  + assert (er := add_error prec emax _ _ _ (format_val prec emax a) (format_val prec emax b)).
    rewrite (Rabs_pos_eq (val a + val b)) in er by lra; apply Rabs_le_inv in er; change (bp (- prec)) with u in er.
    assert (k1 : (length s1 + 1 <= length s1 + length s2)%nat) by lia.
    assert (k2 : (length s2 + 1 <= length s1 + length s2)%nat) by lia.
    assert (up1 := pow_mono1 (1 + u) _ _ ltac:(lra) k1); assert (up2 := pow_mono1 (1 + u) _ _ ltac:(lra) k2).
    assert (lo1 := pow_mono0 (1 - u) _ _ ltac:(lra) k1); assert (lo2 := pow_mono0 (1 - u) _ _ ltac:(lra) k2).
    rewrite (pow_add _ _ 1), pow_1 in up1; rewrite (pow_add _ _ 1), pow_1 in up2.
    rewrite (pow_add _ _ 1), pow_1 in lo1; rewrite (pow_add _ _ 1), pow_1 in lo2.
    split.
    * apply Rle_trans with ((val a + val b) * (1 - u)); [|lra].
      assert (rsum s1 * (1 - u) ^ (length s1 + length s2) <= val a * (1 - u)).
      { apply Rle_trans with (rsum s1 * ((1 - u) ^ length s1 * (1 - u))); [apply Rmult_le_compat_l; lra|].
        rewrite <- Rmult_assoc; apply Rmult_le_compat_r; lra. }
      assert (rsum s2 * (1 - u) ^ (length s1 + length s2) <= val b * (1 - u)).
      { apply Rle_trans with (rsum s2 * ((1 - u) ^ length s2 * (1 - u))); [apply Rmult_le_compat_l; lra|].
        rewrite <- Rmult_assoc; apply Rmult_le_compat_r; lra. }
      lra.
    * apply Rle_trans with ((val a + val b) * (1 + u)); [lra|].
      assert (val a * (1 + u) <= rsum s1 * (1 + u) ^ (length s1 + length s2)).
      { apply Rle_trans with (rsum s1 * ((1 + u) ^ length s1 * (1 + u))); [|apply Rmult_le_compat_l; lra].
        rewrite <- Rmult_assoc; apply Rmult_le_compat_r; lra. }
      assert (val b * (1 + u) <= rsum s2 * (1 + u) ^ (length s1 + length s2)).
      { apply Rle_trans with (rsum s2 * ((1 + u) ^ length s2 * (1 + u))); [|apply Rmult_le_compat_l; lra].
        rewrite <- Rmult_assoc; apply Rmult_le_compat_r; lra. }
      lra.
- assert (hF' : Forall (fun p => 0 <= val p) (s1 ++ s2)) by (rewrite Forall_app in *; tauto).
  assert (el : length (s2 ++ s1) = length (s1 ++ s2)) by (rewrite !app_length; lia).
  destruct (IH f hF') as [h1 [h2 [h3 [h4 [h5 h6]]]]].
  rewrite el, (rsum_app prec emax), Rplus_comm, <- (rsum_app prec emax).
  split; [exact h1|]; split; [rewrite Forall_app in *; tauto|]; split; [exact h3|]; split; [exact h4|]; split; [|exact h6].
  intros p hp; apply h5; apply in_app_or in hp; apply in_or_app; tauto.
Qed.

Lemma square_nonneg (x : float) : 0 <= val (fmul x x).
Proof.
destruct (fin (fmul x x)) eqn:f.
- rewrite (fmul_val _ _ _ _ _ _ f); apply (RN_ge prec emax p0); [apply generic_format_0|]; apply Rle_0_sqr.
- destruct (fmul x x); try discriminate; simpl; lra.
Qed.
Lemma fsqrt_inv q : fin (fsqrt prec emax p0 pe q) = true -> fin q = true.
Proof. destruct q as [s|[|]| |s m e b]; try reflexivity; discriminate. Qed.

Notation ssq v := (Rsum (map (fun x => val x ^ 2) v)).

Lemma squares_sum (v : list float) : Forall (fun x => fin (fmul x x) = true) v ->
  Rabs (rsum (map (fun x => fmul x x) v) - ssq v) <= u * ssq v + INR (length v) * eps.
Proof.
unfold P_FloatD.rsum, Rsum; induction 1 as [|x v hx _ IH].
- simpl; rewrite Rminus_0_r, Rabs_R0, Rmult_0_r, Rmult_0_l; lra.
- cbn [map fold_right length]; rewrite S_INR; set (a := fold_right _ 0 (map (fun x => fmul x x) v)) in *; set (b := fold_right Rplus 0 _) in *.
  rewrite (fmul_val _ _ _ _ _ _ hx).
  assert (e := RN_err prec emax p0 (val x * val x)); rewrite (Rabs_pos_eq (val x * val x)) in e by apply Rle_0_sqr.
  change (bp (- prec)) with u in e.
  replace (RN (val x * val x) + a - (val x ^ 2 + b)) with ((RN (val x * val x) - val x * val x) + (a - b)) by ring.
  apply Rle_trans with (1 := Rabs_triang _ _); replace (val x ^ 2) with (val x * val x) by ring; lra.
Qed.
Lemma ssq_le (v : list float) x : In x v -> val x ^ 2 <= ssq v.
Proof.
assert (P : forall w : list float, 0 <= ssq w).
{ induction w as [|y w IH]; unfold Rsum in *; cbn [map fold_right]; [lra|]; generalize (pow2_ge_0 (val y)); lra. }
induction v as [|y v IH]; [intros []|]; intros [->|h]; unfold Rsum in *; cbn [map fold_right].
- generalize (P v); unfold Rsum; lra.
- generalize (IH h) (pow2_ge_0 (val y)); lra.
Qed.

(* some square is large enough for the underflow of the others not to matter *)
Definition large (v : list float) : Prop := Exists (fun x => bp (emin + 2 * prec - 1) <= val x ^ 2) v.

Lemma length_core (v : list float) (ps : nat) (r : float) :
  flength prec emax p0 pe ps v r -> fin r = true -> large v -> INR (length v) <= bp prec ->
  let K := ((length v + ps) / 2 + 3)%nat in
  0 < val r /\ norm v * (1 - u) ^ K <= val r <= norm v * (1 + u) ^ K /\
  (forall x, In x v -> fin x = true /\ Rabs (val x) <= 2 * val r).
Proof.
intros [q [hq e]] fr hl hN K; assert (pu := up prec); assert (lu := u4 prec prec1); change (bp (- prec)) with u in *.
assert (fq : fin q = true) by (rewrite e in fr; exact (fsqrt_inv q fr)).
unfold flength_squared, fsum in hq.
assert (hz : Forall (fun p => 0 <= val p) (map (fun x => fmul x x) v ++ repeat (fzero prec emax) ps)).
{ apply Forall_app; split.
  - apply Forall_map, Forall_forall; intros x _; apply square_nonneg.
  - apply Forall_forall; intros x hx; apply repeat_spec in hx; rewrite hx; simpl; lra. }
destruct (sum_nonneg _ _ hq fq hz) as [_ [hF [hP [q0 [hm hb]]]]].
rewrite app_length, map_length, repeat_length, (rsum_app prec emax) in *.
assert (z0 : rsum (repeat (fzero prec emax) ps) = 0).
{ unfold P_FloatD.rsum; clear; induction ps as [|n IH]; simpl in *; [reflexivity|rewrite IH; ring]. }
rewrite z0, Rplus_0_r in *.
set (N := (length v + ps)%nat) in *.
apply Forall_app in hF; destruct hF as [hF _]; rewrite Forall_map in hF.
assert (er := squares_sum v hF).
set (S := ssq v) in *; set (P := rsum _) in *.
apply Exists_exists in hl; destruct hl as [x0 [hx0 l0]].
assert (S0 := ssq_le v x0 hx0); fold S in S0.
assert (T0 : 0 < bp (emin + 2 * prec - 1)) by apply bpow_gt_0.
assert (ne : INR (length v) * eps <= u * S).
{ apply Rle_trans with (bp prec * eps); [apply Rmult_le_compat_r; [apply bpow_ge_0|exact hN]|].
  apply Rle_trans with (u * bp (emin + 2 * prec - 1)); [|apply Rmult_le_compat_l; lra].
  unfold Props_Float.u; rewrite <- !bpow_plus; apply bpow_le; lia. }
apply Rabs_le_inv in er.
assert (P1 : S * (1 - u) ^ 3 <= P).
{ assert (0 <= u * S) by (apply Rmult_le_pos; lra).
  apply Rle_trans with (S - 2 * (u * S)); [|lra].
  assert (h : 0 <= u * S * (1 - 3 * u + u ^ 2)) by (apply Rmult_le_pos; [lra|generalize (pow2_ge_0 u); lra]).
  replace (S * (1 - u) ^ 3) with (S - 2 * (u * S) - u * S * (1 - 3 * u + u ^ 2)) by ring; lra. }
assert (P2 : P <= S * (1 + u) ^ 3).
{ assert (0 <= u * S) by (apply Rmult_le_pos; lra).
  apply Rle_trans with (S + 2 * (u * S)); [lra|].
  assert (h : 0 <= u * S * (1 + 3 * u + u ^ 2)) by (apply Rmult_le_pos; [lra|generalize (pow2_ge_0 u); lra]).
  replace (S * (1 + u) ^ 3) with (S + 2 * (u * S) + u * S * (1 + 3 * u + u ^ 2)) by ring; lra. }
assert (B : S * (1 - u) ^ (2 * (N / 2 + 2)) <= val q <= S * (1 + u) ^ (2 * (N / 2 + 2))).
{ assert (k : (N + 3 <= 2 * (N / 2 + 2))%nat) by (generalize (Nat.div_mod N 2) (Nat.mod_upper_bound N 2); lia).
  assert (a1 := pow_mono1 (1 + u) _ _ ltac:(lra) k); assert (a0 := pow_mono0 (1 - u) _ _ ltac:(lra) k); rewrite pow_add in a0, a1.
  assert (g0 : 0 <= (1 - u) ^ N) by (apply pow_le; lra); assert (g1 : 0 <= (1 + u) ^ N) by (apply pow_le; lra).
  split.
  - apply Rle_trans with (2 := proj1 hb); apply Rle_trans with (S * ((1 - u) ^ N * (1 - u) ^ 3)); [apply Rmult_le_compat_l; lra|].
    replace (S * ((1 - u) ^ N * (1 - u) ^ 3)) with (S * (1 - u) ^ 3 * (1 - u) ^ N) by ring; apply Rmult_le_compat_r; lra.
  - apply Rle_trans with (1 := proj2 hb); apply Rle_trans with (S * ((1 + u) ^ N * (1 + u) ^ 3)); [|apply Rmult_le_compat_l; lra].
    replace (S * ((1 + u) ^ N * (1 + u) ^ 3)) with (S * (1 + u) ^ 3 * (1 + u) ^ N) by ring; apply Rmult_le_compat_r; lra. }
destruct (fsqrt_fin prec emax p0 pe q fq q0) as [_ vl].
assert (em : (emin <= 0)%Z) by (unfold SpecFloat.emin; generalize (prec_lt_emax prec emax); lia).
(* the squares above the threshold *)
assert (big : forall x, In x v -> bp (emin + 2 * prec - 1) <= val x ^ 2 -> val x ^ 2 * (1 - u) <= val q).
{ intros x hx hb'; apply Rle_trans with (val (fmul x x)); [|apply hm, in_or_app; left; apply (in_map (fun x => fmul x x)), hx].
  rewrite Forall_forall in hF; rewrite (fmul_val _ _ _ _ _ _ (hF x hx)).
  assert (h := RN_rel prec emax p0 (val x * val x)); rewrite Rabs_pos_eq in h by apply Rle_0_sqr.
  change (bp (- prec)) with u in h; replace (val x ^ 2) with (val x * val x) in * by ring.
  assert (h' := h ltac:(apply Rle_trans with (2 := hb'); apply bpow_le; lia)); apply Rabs_le_inv in h'; lra. }
assert (all : forall x, In x v -> val x ^ 2 * (1 - u) <= val q).
{ intros x hx; destruct (Rle_or_lt (bp (emin + 2 * prec - 1)) (val x ^ 2)) as [h|h]; [apply big; assumption|].
  apply Rle_trans with (2 := big x0 hx0 l0); apply Rmult_le_compat_r; lra. }
assert (q1 : bp (emin + 2 * prec - 2) <= val q).
{ apply Rle_trans with (2 := big x0 hx0 l0); apply Rle_trans with (bp (emin + 2 * prec - 1) * (1 - u)); [|apply Rmult_le_compat_r; lra].
  replace (emin + 2 * prec - 2)%Z with (emin + 2 * prec - 1 + -1)%Z by lia; rewrite (bpow_plus radix2 _ (-1)); apply Rmult_le_compat_l; [lra|].
  change (bp (-1)) with (/ 2); lra. }
assert (sq : bp (emin + prec - 1) <= sqrt (val q)).
{ rewrite <- (sqrt_pow2 (bp (emin + prec - 1))) by apply bpow_ge_0; apply sqrt_le_1_alt; apply Rle_trans with (2 := q1).
  simpl pow; rewrite Rmult_1_r, <- bpow_plus; apply bpow_le; lia. }
assert (T1 : 0 < bp (emin + prec - 1)) by apply bpow_gt_0.
assert (R1 := RN_rel prec emax p0 (sqrt (val q))); rewrite Rabs_pos_eq in R1 by lra; specialize (R1 sq).
change (bp (- prec)) with u in R1; apply Rabs_le_inv in R1; rewrite e, vl.
assert (rp : 3 / 4 * sqrt (val q) <= RN (sqrt (val q))).
{ assert (u * sqrt (val q) <= / 4 * sqrt (val q)) by (apply Rmult_le_compat_r; lra); lra. }
split; [lra|]; split.
- unfold K; replace (N / 2 + 3)%nat with ((N / 2 + 2) + 1)%nat by lia; unfold Props_FloatN.norm; fold S.
  apply (sqrt_err prec emax p0 prec1 S (val q)); [lra|exact q0|right; exact sq|exact B].
- intros x hx; split.
  + rewrite Forall_forall in hF; apply (fmul_inv prec emax p0 pe x x), hF, hx.
  + assert (h := all x hx).
    assert (h' : Rabs (val x) <= 3 / 2 * sqrt (val q)); [|lra].
    rewrite <- (sqrt_pow2 (Rabs (val x))) by apply Rabs_pos; rewrite pow2_abs.
    rewrite <- (sqrt_pow2 (3 / 2)) by lra; rewrite <- sqrt_mult by lra; apply sqrt_le_1_alt.
    assert (val x ^ 2 * (3 / 4) <= val x ^ 2 * (1 - u)) by (apply Rmult_le_compat_l; [apply pow2_ge_0|lra]); lra.
Qed.

(* Length, for every order of summation. If it is finite then the only errors are those of the roundings *)
Theorem C78_length (v : list float) (ps : nat) (r : float) :
  flength prec emax p0 pe ps v r -> fin r = true -> large v -> INR (length v) <= bp prec ->
  let K := ((length v + ps) / 2 + 3)%nat in norm v * (1 - u) ^ K <= val r <= norm v * (1 + u) ^ K.
Proof. intros H f l n; apply (length_core v ps r H f l n). Qed.

Theorem C78_normalize (v r : list float) (ps : nat) :
  fnormalize prec emax p0 pe ps v r -> (forall len, flength prec emax p0 pe ps v len -> fin len = true) ->
  large v -> INR (length v) <= bp prec ->
  let K := ((length v + ps) / 2 + 3)%nat in
  Forall2 (fun x y => fin y = true /\ 0 <= val x * val y /\
    Rabs (val x) / norm v * ((1 - u) / (1 + u) ^ K) - / 2 * eta <= Rabs (val y) <=
    Rabs (val x) / norm v * ((1 + u) / (1 - u) ^ K) + / 2 * eta) v r.
Proof.
intros [len [hl ->]] hf lg hN K.
destruct (length_core v ps len hl (hf len hl) lg hN) as [lp [hb hx]]; fold K in hb.
assert (pu := up prec); assert (lu := u4 prec prec1); change (bp (- prec)) with u in *.
assert (A0 : 0 < (1 - u) ^ K) by (apply pow_lt; lra); assert (B0 : 0 < (1 + u) ^ K) by (apply pow_lt; lra).
set (A := (1 - u) ^ K) in *; set (B := (1 + u) ^ K) in *; set (q := norm v) in *.
assert (q0 : 0 < q).
{ destruct (Rle_or_lt q 0) as [h|h]; [|exact h].
  assert (0 <= - q * B) by (apply Rmult_le_pos; lra); lra. }
assert (L : / (q * B) <= / val len <= / (q * A)).
{ assert (0 < q * A) by (apply Rmult_lt_0_compat; lra); split; apply Rinv_le_contravar; lra. }
assert (lf := hf len hl); assert (il : 0 < / val len) by (apply Rinv_0_lt_compat, lp).
clearbody A B q; clear - hx lp L il lf A0 B0 q0 prec1 pu lu.
unfold fdivs; induction v as [|x v IH]; cbn [map]; [apply Forall2_nil|]; apply Forall2_cons; [clear IH|apply IH; intros; apply hx; right; assumption].
destruct (hx x (or_introl eq_refl)) as [fx lx]; clear hx.
assert (nz : val len <> 0) by lra.
assert (lz : Rabs (val x / val len) <= 2).
{ unfold Rdiv; rewrite Rabs_mult, (Rabs_pos_eq (/ val len)) by lra; apply Rle_trans with (2 * val len * / val len); [apply Rmult_le_compat_r; lra|right; field; lra]. }
assert (f2 : generic_format radix2 (FLT_exp emin prec) 2).
{ change 2 with (bp 1); apply generic_format_bpow; unfold FLT_exp, SpecFloat.emin; generalize (prec_lt_emax prec emax); lia. }
assert (lr : Rabs (RN (val x / val len)) <= 2) by (apply abs_round_le_generic; auto with typeclass_instances; exact (fexp_valid2 prec emax p0)).
assert (be : 2 < bp emax) by (change 2 with (bp 1); apply bpow_lt; generalize (prec_lt_emax prec emax); lia).
generalize (Bdiv_correct prec emax p0 pe mode_NE x len nz); cbv zeta.
change (round radix2 (SpecFloat.fexp prec emax) (round_mode mode_NE) (val x / val len)) with (RN (val x / val len)).
rewrite Rlt_bool_true by lra; intros [e [f _]]; rewrite fx in f.
change (Bdiv mode_NE x len) with (fdiv x len) in *; set (y := fdiv x len) in *.
split; [exact f|]; set (z := val x / val len) in *; split.
- rewrite e; destruct (Rle_or_lt 0 (val x)) as [h|h].
  + apply Rmult_le_pos; [exact h|]; apply (RN_ge prec emax p0); [apply generic_format_0|]; unfold z; apply Rmult_le_pos; lra.
  + rewrite <- Rmult_opp_opp; apply Rmult_le_pos; [lra|]; assert (RN z <= 0); [|lra].
    apply (RN_le' prec emax p0); [apply generic_format_0|]; unfold z, Rdiv; assert (H := Rmult_le_pos (- val x) (/ val len) ltac:(lra) ltac:(lra)); lra.
- assert (er := RN_err prec emax p0 z); rewrite <- e, (Props_FloatN.epsE prec emax) in er; change (bp (- prec)) with u in er.
  assert (W : Rabs z = Rabs (val x) * / val len) by (unfold z, Rdiv; rewrite Rabs_mult, (Rabs_pos_eq (/ val len)); lra).
  assert (t := Rabs_triang_inv2 (val y) z); assert (g : Rabs (Rabs (val y) - Rabs z) <= u * Rabs z + / 2 * eta) by lra.
  apply Rabs_le_inv in g; rewrite W in g; clear - g L il A0 B0 q0 pu lu.
  set (a := Rabs (val x)) in *; assert (a0 : 0 <= a) by apply Rabs_pos; set (l := / val len) in *.
  replace (a / q * ((1 - u) / B)) with (a * / (q * B) * (1 - u)) by (field; lra).
  replace (a / q * ((1 + u) / A)) with (a * / (q * A) * (1 + u)) by (field; lra).
  assert (a * / (q * B) <= a * l <= a * / (q * A)) by (split; apply Rmult_le_compat_l; lra).
  assert (a * / (q * B) * (1 - u) <= a * l * (1 - u)) by (apply Rmult_le_compat_r; lra).
  assert (a * l * (1 + u) <= a * / (q * A) * (1 + u)) by (apply Rmult_le_compat_r; lra).
  lra.
Qed.

(* no overflow: the length is finite if the squares are well below the largest number *)
Theorem C78_length_finite (v : list float) (ps : nat) (r : float) :
  flength prec emax p0 pe ps v r -> Forall (fun x => fin x = true) v ->
  (1 + u) ^ (length v + ps) * ((1 + u) * Rsum (map (fun x => val x ^ 2) v) + INR (length v) * (/ 2 * eta)) < bp emax -> fin r = true.
Proof.
intros [q [hq ->]] hF hb; assert (pu := up prec); change (bp (- prec)) with u in *.
assert (ep := eta0 prec emax).
assert (n0 := pos_INR (length v)).
assert (k1 : 1 <= (1 + u) ^ (length v + ps)) by (apply pow_R1_Rle; lra).
assert (Sp : 0 <= ssq v).
{ unfold Rsum; clear; induction v as [|y w IH]; cbn [map fold_right]; [lra|]; generalize (pow2_ge_0 (val y)); lra. }
set (M := (1 + u) * ssq v + INR (length v) * (/ 2 * eta)) in *.
assert (M0 : 0 <= M) by (unfold M; assert (0 <= (1 + u) * ssq v) by (apply Rmult_le_pos; lra); assert (0 <= INR (length v) * (/ 2 * eta)) by (apply Rmult_le_pos; lra); lra).
assert (lM : M < bp emax).
{ apply Rle_lt_trans with (2 := hb); rewrite <- (Rmult_1_l M) at 1; apply Rmult_le_compat_r; lra. }
assert (F : Forall (fun x => fin (fmul x x) = true) v).
{ rewrite Forall_forall in *; intros x hx; apply fmul_fin; auto.
  apply Rle_lt_trans with (2 := lM); assert (e := RN_error prec emax p0 (val x * val x)).
  rewrite (Rabs_pos_eq (val x * val x)) in e by apply Rle_0_sqr.
  assert (s := ssq_le v x hx); replace (val x ^ 2) with (val x * val x) in s by ring.
  assert (1 <= INR (length v)) by (change 1 with (INR 1); apply le_INR; destruct v; [destruct hx|simpl; lia]).
  assert (1 * (/ 2 * eta) <= INR (length v) * (/ 2 * eta)) by (apply Rmult_le_compat_r; lra).
  assert ((1 + u) * (val x * val x) <= (1 + u) * ssq v) by (apply Rmult_le_compat_l; lra).
  replace (RN (val x * val x)) with ((RN (val x * val x) - val x * val x) + val x * val x) by ring.
  apply Rle_trans with (1 := Rabs_triang _ _); rewrite (Rabs_pos_eq (val x * val x)) by apply Rle_0_sqr; unfold M; lra. }
assert (P : Rabs (rsum (map (fun x => fmul x x) v) - ssq v) <= u * ssq v + INR (length v) * eps) by (apply squares_sum, F).
rewrite (Props_FloatN.epsE prec emax) in P; apply Rabs_le_inv in P.
assert (T : total_abs prec emax (map (fun x => fmul x x) v) = rsum (map (fun x => fmul x x) v)).
{ unfold total_abs, Rsum, P_FloatD.rsum; clear; induction v as [|x v IH]; cbn [map fold_right]; [reflexivity|].
  rewrite IH, Rabs_pos_eq by apply square_nonneg; reflexivity. }
assert (fq : fin q = true).
{ apply (C79_sum_finite prec emax p0 pe ps _ q hq); [apply Forall_map, F|].
  rewrite map_length, T; apply Rle_lt_trans with (2 := hb); apply Rmult_le_compat_l; [lra|]; unfold M; lra. }
apply (fsqrt_fin prec emax p0 pe q fq).
destruct (sum_nonneg _ _ hq fq) as [_ [_ [_ [h _]]]]; [|exact h].
apply Forall_app; split.
- apply Forall_map, Forall_forall; intros x _; apply square_nonneg.
- apply Forall_forall; intros x hx; apply repeat_spec in hx; rewrite hx; simpl; lra.
Qed.
End C78L.
Print Assumptions C78_length.
Print Assumptions C78_normalize.
Print Assumptions C78_length_finite.

(* (3, 4) in double precision, two lanes *)
Example C78_plain_example : let v := [dbl 3 0; dbl 4 0] in
  large 53 1024 v /\ INR (length v) <= bpow radix2 53 /\
  forall r, flength 53 1024 eq_refl eq_refl 0 v r -> is_finite r = true.
Proof.
assert (v3 : B2R (dbl 3 0) = 3) by (dval; lra); assert (v4 : B2R (dbl 4 0) = 4) by (dval; lra).
cbv zeta; split; [|split].
- apply Exists_cons_hd; rewrite v3; apply Rle_trans with (bpow radix2 0); [apply bpow_le; discriminate|simpl; lra].
- apply Rle_trans with (bpow radix2 1); [simpl; lra|apply bpow_le; discriminate].
- intros r h; apply (C78_length_finite 53 1024 eq_refl eq_refl eq_refl _ _ _ h); [repeat constructor; vm_compute; reflexivity|].
  unfold Rsum; cbn [map fold_right length]; rewrite v3, v4; change (INR 2) with 2.
  assert (u 53 <= / 4) by (apply (u4 53); reflexivity); assert (0 < u 53) by apply bpow_gt_0.
  assert (eta 53 1024 <= 1) by (change 1 with (bpow radix2 0); apply bpow_le; discriminate); assert (0 < eta 53 1024) by apply bpow_gt_0.
  apply Rle_lt_trans with ((1 + / 4) ^ 2 * ((1 + / 4) * 25 + 1)).
  + apply Rmult_le_compat; [apply pow_le; lra| |apply pow_incr; lra|].
    * assert (0 <= (1 + u 53) * (3 ^ 2 + (4 ^ 2 + 0))) by (apply Rmult_le_pos; lra); lra.
    * assert ((1 + u 53) * (3 ^ 2 + (4 ^ 2 + 0)) <= (1 + / 4) * (3 ^ 2 + (4 ^ 2 + 0))) by (apply Rmult_le_compat_r; lra); lra.
  + apply Rlt_trans with (bpow radix2 10); [simpl; lra|apply bpow_lt; reflexivity].
Qed.
