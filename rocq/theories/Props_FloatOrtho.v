(* C105: orthographic projections in floating point. *)
From Coq Require Import ZArith List Arith Bool Reals Lia Lra Psatz.
From Flocq Require Import Core IEEE754.BinarySingleNaN.
From Interval Require Import Tactic.
From Verif Require Import M_Float P_Float P_FloatD M_FloatN P_FloatN M_FloatLU P_FloatLU P_FloatTri M_FloatTriangle M_FloatQM M_FloatOrtho Props_Float Props_FloatS Props_FloatDet Props_FloatGeo Props_FloatTriangle Props_FloatQM.
Local Open Scope R_scope.

Section FloatOrtho.
Variables prec emax : Z.
Context (p0 : Prec_gt_0 prec) (pe : Prec_lt_emax prec emax).
Hypothesis prec5 : (5 <= prec)%Z.
Hypothesis room : (prec + 7 <= emax)%Z.
Notation float := (binary_float prec emax).
Notation val := (@B2R prec emax).
Notation fin := (@is_finite prec emax).
Notation u := (u prec).
Notation eta := (eta prec emax).
Notation fadd := (fadd prec emax p0 pe).
Notation fsub := (fsub prec emax p0 pe).
Notation fmul := (fmul prec emax p0 pe).
Notation fdiv := (fdiv prec emax p0 pe).
Notation fneg := (fneg prec emax p0 pe).
Notation fhalf := (fhalf prec emax p0 pe).
Notation ftwo := (ftq2 prec emax p0 pe).
Notation gam := (gam prec).
Notation RN := (round radix2 (FLT_exp (SpecFloat.emin prec emax) prec) ZnearestE).
Notation qu := (qu prec prec5).
Notation qe := (qe prec emax pe prec5).
(* [x] has k roundings and the underflow E relative to X *)
Definition near (k : nat) (E : R) (x X : R) : Prop := 0 <= E /\ Rabs (x - X) <= gam k * Rabs X + E.
Lemma gam_add j k : gam (j + k) = gam j + gam k + gam j * gam k.
Proof. unfold Props_FloatGeo.gam; rewrite pow_add; ring. Qed.
Lemma gam_1 : gam 1 = u. Proof. unfold Props_FloatGeo.gam; ring. Qed.
Lemma near_mag k E x X : near k E x X -> Rabs x <= (1 + gam k) * Rabs X + E.
Proof. intros [e0 h]; replace x with ((x - X) + X) by ring; apply Rle_trans with (1 := Rabs_triang _ _); lra. Qed.
Definition mul_under (j : nat) (E X : R) (k : nat) (F Y : R) : R := (1 + u) * (E * ((1 + gam k) * Rabs Y) + F * ((1 + gam j) * Rabs X) + E * F) + / 2 * eta.
Lemma near_mul j k E F (x y : float) X Y : near j E (val x) X -> near k F (val y) Y -> fin (fmul x y) = true ->
  near (S (j + k)) (mul_under j E X k F Y) (val (fmul x y)) (X * Y).
Proof.
intros hx hy f; assert (mx := near_mag _ _ _ _ hx); assert (my := near_mag _ _ _ _ hy); destruct hx as [E0 hx], hy as [F0 hy]; destruct qu as [u0 u1], qe as [h0 h1].
assert (gj := gam0 prec p0 j); assert (gk := gam0 prec p0 k); assert (zx := Rabs_pos X); assert (zy := Rabs_pos Y); assert (r := prod_round prec emax p0 pe _ _ f).
set (a := Rabs X) in *; set (b := Rabs Y) in *; assert (k1 : 0 <= (1 + gam k) * b) by (apply Rmult_le_pos; lra); assert (j1 : 0 <= (1 + gam j) * a) by (apply Rmult_le_pos; lra).
assert (t1 : 0 <= E * ((1 + gam k) * b)) by (apply Rmult_le_pos; lra); assert (t2 : 0 <= F * ((1 + gam j) * a)) by (apply Rmult_le_pos; lra); assert (t3 : 0 <= E * F) by (apply Rmult_le_pos; lra).
set (W := E * ((1 + gam k) * b) + F * ((1 + gam j) * a) + E * F).
assert (W0 : 0 <= W) by (unfold W; lra); assert (uw : 0 <= u * W) by (apply Rmult_le_pos; lra).
split; [unfold mul_under; fold a b W; lra|]; rewrite Rabs_mult; fold a b.
assert (P : Rabs (val x * val y - X * Y) <= gam (j + k) * (a * b) + W).
{ replace (val x * val y - X * Y) with ((val x - X) * val y + X * (val y - Y)) by ring; apply Rle_trans with (1 := Rabs_triang _ _); rewrite !Rabs_mult; fold a.
  assert (s1 : Rabs (val x - X) * Rabs (val y) <= (gam j * a + E) * ((1 + gam k) * b + F)) by (apply Rmult_le_compat; try apply Rabs_pos; lra).
  assert (s2 : a * Rabs (val y - Y) <= a * (gam k * b + F)) by (apply Rmult_le_compat_l; lra); rewrite gam_add; unfold W; lra. }
assert (Q : Rabs (val x * val y) <= (1 + gam (j + k)) * (a * b) + W).
{ replace (val x * val y) with ((val x * val y - X * Y) + X * Y) by ring; apply Rle_trans with (1 := Rabs_triang _ _); rewrite (Rabs_mult X); fold a b; lra. }
replace (val (fmul x y) - X * Y) with ((val (fmul x y) - val x * val y) + (val x * val y - X * Y)) by ring; apply Rle_trans with (1 := Rabs_triang _ _).
assert (u * Rabs (val x * val y) <= u * ((1 + gam (j + k)) * (a * b) + W)) by (apply Rmult_le_compat_l; lra); rewrite gamS; unfold mul_under; fold a b W; lra.
Qed.
(* half of a sum or difference *)
Lemma near_half (x : float) X : near 1 0 (val x) X -> fin (fdiv x ftwo) = true -> near 2 (/ 2 * eta) (val (fdiv x ftwo)) (X / 2).
Proof.
intros hx f; assert (m := near_mag _ _ _ _ hx); destruct hx as [_ hx]; destruct (two_val prec emax p0 pe prec5) as [tv tf]; destruct (fdiv_inv prec emax p0 pe _ _ f tf) as [_ [_ e]]; rewrite e, tv.
destruct qu as [u0 u1], qe as [h0 h1]; split; [lra|]; assert (r := RN_error prec emax p0 (val x / 2)); rewrite gam_1 in *.
assert (H : forall z, Rabs (z / 2) = Rabs z / 2) by (intro z; unfold Rdiv; rewrite Rabs_mult, (Rabs_right (/ 2)) by lra; reflexivity).
replace (RN (val x / 2) - X / 2) with ((RN (val x / 2) - val x / 2) + (val x - X) / 2) by field; apply Rle_trans with (1 := Rabs_triang _ _); rewrite !H in *.
assert (u * (Rabs (val x) / 2) <= u * (((1 + u) * Rabs X + 0) / 2)) by (apply Rmult_le_compat_l; lra); rewrite (gamS prec 1), gam_1; lra.
Qed.
Lemma near_sum (x y : float) : fin (fadd x y) = true -> near 1 0 (val (fadd x y)) (val x + val y).
Proof. intro f; split; [lra|]; rewrite gam_1, Rplus_0_r; apply sum_round, f. Qed.
Lemma near_diff (x y : float) : fin (fsub x y) = true -> near 1 0 (val (fsub x y)) (val x - val y).
Proof. intro f; split; [lra|]; rewrite gam_1, Rplus_0_r; apply diff_round, f. Qed.
(* two divided by a difference *)
Lemma near_scale (x y : float) : fin (fsub x y) = true -> fin (fdiv ftwo (fsub x y)) = true -> val x - val y <> 0 /\ near 2 (/ 2 * eta) (val (fdiv ftwo (fsub x y))) (2 / (val x - val y)).
Proof.
intros fv f; destruct (fdiv_inv prec emax p0 pe _ _ f fv) as [_ [nz e]]; rewrite e, (proj1 (two_val prec emax p0 pe prec5)); rewrite (fsub_val _ _ _ _ _ _ fv) in *.
assert (h := add_err (SpecFloat.emin prec emax) prec p0 _ _ (format_val prec emax x) (generic_format_opp _ _ _ (format_val prec emax y))); change (bpow radix2 (- prec)) with u in h.
fold (val x - val y) in h; change (val x + - val y) with (val x - val y) in h; change (SpecFloat.fexp prec emax) with (FLT_exp (SpecFloat.emin prec emax) prec) in *.
set (W := val x - val y) in *; set (w := RN W) in *; destruct qu as [u0 u1], qe as [h0 h1].
assert (W0 : W <> 0) by (intro z; apply nz; unfold w; rewrite z; apply round_0; auto with typeclass_instances).
split; [exact W0|]; split; [lra|].
assert (aW : 0 < Rabs W) by (apply Rabs_pos_lt, W0); assert (aw : 0 < Rabs w) by (apply Rabs_pos_lt, nz).
assert (k : Rabs (w - W) <= u * Rabs w).
{ assert (t : Rabs W - Rabs w <= Rabs (w - W)) by (rewrite Rabs_minus_sym; apply Rabs_triang_inv).
  apply Rmult_le_compat_l with (r := 1 + u) in h; [|lra]; replace ((1 + u) * (u / (1 + u) * Rabs W)) with (u * Rabs W) in h by (field; lra); nra. }
assert (D : Rabs (2 / w - 2 / W) <= u * Rabs (2 / W)).
{ replace (2 / w - 2 / W) with (- ((w - W) * / w * (2 / W))) by (field; split; assumption); rewrite Rabs_Ropp, !Rabs_mult, Rabs_inv; apply Rmult_le_compat_r; [apply Rabs_pos|].
  apply Rmult_le_reg_r with (Rabs w); [exact aw|]; rewrite Rmult_assoc, Rinv_l by lra; lra. }
assert (r := RN_error prec emax p0 (2 / w)).
assert (m : Rabs (2 / w) <= (1 + u) * Rabs (2 / W)) by (replace (2 / w) with ((2 / w - 2 / W) + 2 / W) by ring; apply Rle_trans with (1 := Rabs_triang _ _); lra).
replace (RN (2 / w) - 2 / W) with ((RN (2 / w) - 2 / w) + (2 / w - 2 / W)) by ring; apply Rle_trans with (1 := Rabs_triang _ _).
assert (u * Rabs (2 / w) <= u * ((1 + u) * Rabs (2 / W))) by (apply Rmult_le_compat_l; lra); rewrite (gamS prec 1), gam_1; lra.
Qed.
Variables (dim : nat) (mn mx : nat -> float) (pn pf : float).
Notation scale := (fortho_scale prec emax p0 pe dim mn mx pn pf).
Notation offset := (fortho_offset prec emax p0 pe dim mn mx pn pf).
Notation volume := (fvolume prec emax p0 pe mn mx).
Notation a i := (val (mn i)).
Notation b i := (val (mx i)).
Lemma centre_near i : fin (fdiv (fneg (fadd (mx i) (mn i))) ftwo) = true -> near 2 (/ 2 * eta) (val (fdiv (fneg (fadd (mx i) (mn i))) ftwo)) (- (b i + a i) / 2).
Proof.
intro f; apply near_half; [|exact f]; destruct (fdiv_inv prec emax p0 pe _ _ f (proj2 (two_val prec emax p0 pe prec5))) as [fm _].
destruct (fmul_inv _ _ _ _ _ _ fm) as [fs _]; rewrite (fneg_ok prec emax p0 pe _ fm); destruct (near_sum _ _ fs) as [_ h]; split; [lra|].
rewrite Rabs_Ropp; replace (- val (fadd (mx i) (mn i)) - - (b i + a i)) with (- (val (fadd (mx i) (mn i)) - (b i + a i))) by ring; rewrite Rabs_Ropp; exact h.
Qed.
(* a coordinate that is mapped to -1 .. 1 *)
Definition side_under (w c : R) : R := mul_under 2 (/ 2 * eta) c 2 (/ 2 * eta) (2 / w).
Theorem C105_side i x : S i <> dim -> fin (volume i) = true -> fin (offset i) = true -> b i - a i <> 0 /\
  Rabs (val (scale i) * x + val (offset i) - (2 * x - b i - a i) / (b i - a i)) <=
  (gam 2 * (2 * Rabs x) + gam 5 * Rabs (b i + a i)) / Rabs (b i - a i) + / 2 * eta * Rabs x + side_under (b i - a i) (- (b i + a i) / 2).
Proof.
intro ni; unfold fortho_offset, fortho_scale, fvolume; rewrite (proj2 (Nat.eqb_neq _ _) ni); intros fv fo.
destruct (fmul_inv _ _ _ _ _ _ fo) as [fc fs]; assert (hc := centre_near i fc); destruct (near_scale _ _ fv fs) as [nz hs]; split; [exact nz|].
assert (ho := near_mul _ _ _ _ _ _ _ _ hc hs fo); destruct hs as [_ hs], ho as [_ ho]; set (sv := val (fdiv ftwo _)) in *; set (ov := val (fmul _ _)) in *.
change (S (2 + 2)) with 5%nat in ho; fold (side_under (b i - a i) (- (b i + a i) / 2)) in ho; set (U := side_under _ _) in *; set (W := b i - a i) in *; set (C := b i + a i) in *.
assert (aW := Rabs_pos_lt _ nz).
replace (sv * x + ov - (2 * x - b i - a i) / W) with ((sv - 2 / W) * x + (ov - - C / 2 * (2 / W))) by (unfold C; field; exact nz); apply Rle_trans with (1 := Rabs_triang _ _).
replace (- C / 2 * (2 / W)) with (- C * / W) in * by (field; exact nz); rewrite (Rabs_mult (- C)), Rabs_Ropp, Rabs_inv in ho.
unfold Rdiv in hs; rewrite (Rabs_mult 2), Rabs_inv, (Rabs_right 2) in hs by lra; fold (2 / W) in hs; rewrite Rabs_mult; assert (zx := Rabs_pos x).
assert (Rabs (sv - 2 / W) * Rabs x <= (gam 2 * (2 * / Rabs W) + / 2 * eta) * Rabs x) by (apply Rmult_le_compat_r; assumption); unfold Rdiv; lra.
Qed.
(* so the faces of the box are mapped near -1 and 1 *)
Theorem C105_faces i : S i <> dim -> fin (volume i) = true -> fin (offset i) = true ->
  let e x := (gam 2 * (2 * Rabs x) + gam 5 * Rabs (b i + a i)) / Rabs (b i - a i) + / 2 * eta * Rabs x + side_under (b i - a i) (- (b i + a i) / 2) in
  Rabs (val (scale i) * a i + val (offset i) - -1) <= e (a i) /\ Rabs (val (scale i) * b i + val (offset i) - 1) <= e (b i).
Proof.
intros ni fv fo e; destruct (C105_side i (a i) ni fv fo) as [nz ha]; destruct (C105_side i (b i) ni fv fo) as [_ hb].
replace ((2 * a i - b i - a i) / (b i - a i)) with (-1) in ha by (field; exact nz); replace ((2 * b i - b i - a i) / (b i - a i)) with 1 in hb by (field; exact nz); split; assumption.
Qed.
(* the last coordinate, mapped to near .. far *)
Definition depth_scale_under (w d : R) : R := mul_under 2 (/ 2 * eta) (2 / w) 2 (/ 2 * eta) (d / 2).
Definition depth_under (w c d : R) : R := (1 + u) * (mul_under 2 (/ 2 * eta) c 5 (depth_scale_under w d) (2 / w * (d / 2)) + / 2 * eta).
Theorem C105_depth i x : S i = dim -> fin (volume i) = true -> fin (offset i) = true -> b i - a i <> 0 /\
  Rabs (val (scale i) * x + val (offset i) - (val pn + (x - a i) * (val pf - val pn) / (b i - a i))) <=
  (gam 5 * Rabs x + gam 9 * (Rabs (b i + a i) / 2)) * (Rabs (val pf - val pn) / Rabs (b i - a i)) + gam 9 * (Rabs (val pf + val pn) / 2) +
  depth_scale_under (b i - a i) (val pf - val pn) * Rabs x + depth_under (b i - a i) (- (b i + a i) / 2) (val pf - val pn).
Proof.
intro ni; unfold fortho_offset, fortho_scale, fvolume; rewrite (proj2 (Nat.eqb_eq _ _) ni); intros fv fo.
destruct (fadd_inv _ _ _ _ _ _ fo) as [fm fp]; destruct (fmul_inv _ _ _ _ _ _ fm) as [fc fs]; destruct (fmul_inv _ _ _ _ _ _ fs) as [fs0 fd].
assert (hc := centre_near i fc); destruct (near_scale _ _ fv fs0) as [nz hs0]; split; [exact nz|].
assert (hd : near 2 (/ 2 * eta) (val (fmul fhalf (fsub pf pn))) ((val pf - val pn) / 2)).
{ destruct (fmul_inv _ _ _ _ _ _ fd) as [_ fg]; destruct (near_diff _ _ fg) as [_ h]; rewrite gam_1, Rplus_0_r in h; assert (r := prod_round prec emax p0 pe _ _ fd); rewrite (proj1 (half_val prec emax p0 pe prec5 room)) in r.
  destruct qu as [u0 u1], qe as [h0 h1]; split; [lra|]; set (g := val (fsub pf pn)) in *; set (G := val pf - val pn) in *; set (t := val (fmul fhalf _)) in *.
  assert (m : Rabs g <= (1 + u) * Rabs G) by (replace g with ((g - G) + G) by ring; apply Rle_trans with (1 := Rabs_triang _ _); lra).
  assert (H : forall z, Rabs (z / 2) = Rabs z / 2) by (intro z; unfold Rdiv; rewrite Rabs_mult, (Rabs_right (/ 2)) by lra; reflexivity).
  replace (/ 2 * g) with (g / 2) in r by field; replace (t - G / 2) with ((t - g / 2) + (g - G) / 2) by field; apply Rle_trans with (1 := Rabs_triang _ _); rewrite !H in *.
  assert (u * (Rabs g / 2) <= u * ((1 + u) * Rabs G / 2)) by (apply Rmult_le_compat_l; lra); rewrite (gamS prec 1), gam_1; lra. }
assert (hs := near_mul _ _ _ _ _ _ _ _ hs0 hd fs); change (S (2 + 2)) with 5%nat in hs.
assert (hm := near_mul _ _ _ _ _ _ _ _ hc hs fm); change (S (2 + 5)) with 8%nat in hm.
assert (hp : near 2 (/ 2 * eta) (val (fdiv (fadd pf pn) ftwo)) ((val pf + val pn) / 2)).
{ apply near_half; [|exact fp]; apply near_sum; apply (fdiv_inv prec emax p0 pe _ _ fp (proj2 (two_val prec emax p0 pe prec5))). }
assert (r := sum_round prec emax p0 pe _ _ fo); assert (mm := near_mag _ _ _ _ hm); assert (mp := near_mag _ _ _ _ hp).
destruct hs as [_ hs], hm as [_ hm], hp as [_ hp].
unfold depth_under; set (D := val pf - val pn) in *; set (P := val pf + val pn) in *; set (W := b i - a i) in *; set (C := b i + a i) in *.
fold (depth_scale_under W D) in *; set (US := depth_scale_under W D) in *; set (UM := mul_under 2 (/ 2 * eta) (- C / 2) 5 US (2 / W * (D / 2))) in *.
set (sv := val (fmul (fdiv ftwo _) _)) in *; set (mv := val (fmul (fdiv (fneg _) _) _)) in *; set (pv := val (fdiv (fadd pf pn) _)) in *; set (ov := val (fadd _ (fdiv _ _))) in *.
replace (2 / W * (D / 2)) with (D * / W) in * by (field; exact nz); set (T := - C / 2 * (D * / W)) in *.
assert (eT : Rabs T = Rabs C / 2 * (Rabs D / Rabs W)).
{ unfold T, Rdiv; rewrite !Rabs_mult, Rabs_Ropp, !Rabs_inv, (Rabs_right 2) by lra; reflexivity. }
assert (eP : Rabs (P / 2) = Rabs P / 2) by (unfold Rdiv; rewrite Rabs_mult, (Rabs_right (/ 2)) by lra; reflexivity).
assert (eS : Rabs (D * / W) = Rabs D / Rabs W) by (unfold Rdiv; rewrite Rabs_mult, Rabs_inv; reflexivity).
replace (sv * x + ov - (val pn + (x - a i) * D / W)) with ((sv - D * / W) * x + ((ov - (mv + pv)) + ((mv - T) + (pv - P / 2)))).
2: { unfold T, P, D, C; field_simplify_eq; [unfold W, C; ring|exact nz]. }
destruct qu as [u0 u1], qe as [h0 h1]; assert (zx := Rabs_pos x).
assert (t1 := Rabs_triang ((sv - D * / W) * x) ((ov - (mv + pv)) + ((mv - T) + (pv - P / 2)))); assert (t2 := Rabs_triang (ov - (mv + pv)) ((mv - T) + (pv - P / 2))).
assert (t3 := Rabs_triang (mv - T) (pv - P / 2)); assert (t4 := Rabs_triang mv pv); rewrite (Rabs_mult (sv - D * / W)) in t1.
assert (j1 : Rabs (sv - D * / W) * Rabs x <= (gam 5 * Rabs (D * / W) + US) * Rabs x) by (apply Rmult_le_compat_r; assumption).
assert (j2 : u * Rabs (mv + pv) <= u * (((1 + gam 8) * Rabs T + UM) + ((1 + gam 2) * Rabs (P / 2) + / 2 * eta))) by (apply Rmult_le_compat_l; lra).
assert (g28 : gam 2 <= gam 8) by (unfold Props_FloatGeo.gam; assert ((1 + u) ^ 2 <= (1 + u) ^ 8) by (apply Rle_pow; [lra|lia]); lra).
assert (zP := Rabs_pos (P / 2)); assert (j3 : gam 2 * Rabs (P / 2) <= gam 8 * Rabs (P / 2)) by (apply Rmult_le_compat_r; lra).
assert (j4 : u * (gam 2 * Rabs (P / 2)) <= u * (gam 8 * Rabs (P / 2))) by (apply Rmult_le_compat_l; lra).
rewrite (gamS prec 8), <- eP; replace ((gam 5 * Rabs x + (gam 8 + u * (1 + gam 8)) * (Rabs C / 2)) * (Rabs D / Rabs W)) with (gam 5 * Rabs (D * / W) * Rabs x + (gam 8 + u * (1 + gam 8)) * Rabs T) by (rewrite eT, eS; ring).
lra.
Qed.
(* its faces are mapped near the planes near and far *)
Theorem C105_planes i : S i = dim -> fin (volume i) = true -> fin (offset i) = true ->
  let e x := (gam 5 * Rabs x + gam 9 * (Rabs (b i + a i) / 2)) * (Rabs (val pf - val pn) / Rabs (b i - a i)) + gam 9 * (Rabs (val pf + val pn) / 2) +
    depth_scale_under (b i - a i) (val pf - val pn) * Rabs x + depth_under (b i - a i) (- (b i + a i) / 2) (val pf - val pn) in
  Rabs (val (scale i) * a i + val (offset i) - val pn) <= e (a i) /\ Rabs (val (scale i) * b i + val (offset i) - val pf) <= e (b i).
Proof.
intros ni fv fo e; destruct (C105_depth i (a i) ni fv fo) as [nz ha]; destruct (C105_depth i (b i) ni fv fo) as [_ hb].
replace (val pn + (a i - a i) * (val pf - val pn) / (b i - a i)) with (val pn) in ha by (field; exact nz); replace (val pn + (b i - a i) * (val pf - val pn) / (b i - a i)) with (val pf) in hb by (field; exact nz); split; assumption.
Qed.
End FloatOrtho.
Print Assumptions C105_side.
Print Assumptions C105_faces.
Print Assumptions C105_planes.
Print Assumptions C105_depth.

(** * Double precision *)
Notation fl := (binary_float 53 1024).
Notation oscale := (fortho_scale 53 1024 eq_refl eq_refl).
Notation ooffset := (fortho_offset 53 1024 eq_refl eq_refl).
(* the box from (-1, 2) to (4, 7) with the planes 0 and 1 *)
Definition ex_mn (i : nat) : fl := match i with 0%nat => dbl (-1) 0 | _ => dbl 2 0 end.
Definition ex_mx (i : nat) : fl := match i with 0%nat => dbl 4 0 | _ => dbl 7 0 end.
Example C105_example : let pn := dbl 0 0 in let pf := dbl 1 0 in
  (forall i, (i < 2)%nat -> is_finite (fvolume 53 1024 eq_refl eq_refl ex_mn ex_mx i) = true /\ is_finite (ooffset 2 ex_mn ex_mx pn pf i) = true) /\
  Rabs (B2R (oscale 2 ex_mn ex_mx pn pf 0%nat) * 4 + B2R (ooffset 2 ex_mn ex_mx pn pf 0%nat) - 1) <= / 2 ^ 48 /\
  Rabs (B2R (oscale 2 ex_mn ex_mx pn pf 1%nat) * 7 + B2R (ooffset 2 ex_mn ex_mx pn pf 1%nat) - 1) <= / 2 ^ 47.
Proof.
intros pn pf; assert (F : forall i, (i < 2)%nat -> is_finite (fvolume 53 1024 eq_refl eq_refl ex_mn ex_mx i) = true /\ is_finite (ooffset 2 ex_mn ex_mx pn pf i) = true).
{ intros [|[|i]] hi; try lia; split; vm_compute; reflexivity. }
split; [exact F|].
assert (v0 : B2R pn = 0) by (unfold pn; dval; lra); assert (v1 : B2R pf = 1) by (unfold pf; dval; lra).
assert (a0 : B2R (ex_mn 0) = -1) by (unfold ex_mn; dval; lra); assert (a1 : B2R (ex_mn 1) = 2) by (unfold ex_mn; dval; lra).
assert (b0 : B2R (ex_mx 0) = 4) by (unfold ex_mx; dval; lra); assert (b1 : B2R (ex_mx 1) = 7) by (unfold ex_mx; dval; lra).
assert (eu : Props_Float.u 53 = / 2 ^ 53) by (unfold Props_Float.u; simpl; lra).
assert (h0 : 0 <= Props_Float.eta 53 1024) by apply bpow_ge_0; assert (h1 : Props_Float.eta 53 1024 <= / 2 ^ 100).
{ apply Rle_trans with (bpow radix2 (-100)); [apply bpow_le; lia|simpl; lra]. }
destruct (C105_faces 53 1024 eq_refl eq_refl ltac:(lia) 2 ex_mn ex_mx pn pf 0 ltac:(lia) (proj1 (F 0%nat ltac:(lia))) (proj2 (F 0%nat ltac:(lia)))) as [_ e0].
destruct (C105_planes 53 1024 eq_refl eq_refl ltac:(lia) ltac:(lia) 2 ex_mn ex_mx pn pf 1 eq_refl (proj1 (F 1%nat ltac:(lia))) (proj2 (F 1%nat ltac:(lia)))) as [_ e1].
rewrite a0, b0 in e0; rewrite a1, b1, v0, v1 in e1.
split; [apply Rle_trans with (1 := e0)|apply Rle_trans with (1 := e1)];
  unfold side_under, depth_under, depth_scale_under, mul_under, Props_FloatGeo.gam; rewrite eu; set (h := Props_Float.eta 53 1024) in *; interval with (i_prec 150).
Qed.
(* a box far from the origin: [2^53, 2^53 + 2] is mapped to [0, 2] *)
Theorem C105_far_refuted : exists (mn mx : nat -> fl) (pn pf : fl), is_finite (fvolume 53 1024 eq_refl eq_refl mn mx 0) = true /\ is_finite (ooffset 2 mn mx pn pf 0%nat) = true /\
  B2R (mx 0%nat) - B2R (mn 0%nat) = 2 /\ B2R (oscale 2 mn mx pn pf 0%nat) * B2R (mn 0%nat) + B2R (ooffset 2 mn mx pn pf 0%nat) = 0 /\
  B2R (oscale 2 mn mx pn pf 0%nat) * B2R (mx 0%nat) + B2R (ooffset 2 mn mx pn pf 0%nat) = 2.
Proof.
set (mn := fun _ : nat => dbl 1 53); set (mx := fun _ : nat => dbl 4503599627370497 1); set (pn := dbl 0 0); set (pf := dbl 1 0); exists mn, mx, pn, pf.
assert (a : B2R (mn 0%nat) = 2 ^ 53) by (unfold mn; dval; lra); assert (b : B2R (mx 0%nat) = 2 ^ 53 + 2) by (unfold mx; dval; lra).
assert (s : B2R (oscale 2 mn mx pn pf 0%nat) = 1) by (unfold mn, mx, pn, pf; dval; lra).
assert (o : B2R (ooffset 2 mn mx pn pf 0%nat) = - 2 ^ 53) by (unfold mn, mx, pn, pf; dval; lra).
split; [vm_compute; reflexivity|split; [vm_compute; reflexivity|]]; rewrite a, b, s, o; lra.
Qed.
(* a box whose size overflows: everything is mapped to 0, without a sign that something is wrong *)
Theorem C105_size_refuted : exists (mn mx : nat -> fl) (pn pf : fl), is_finite (mn 0%nat) = true /\ is_finite (mx 0%nat) = true /\ B2R (mn 0%nat) < B2R (mx 0%nat) /\
  is_finite (oscale 2 mn mx pn pf 0%nat) = true /\ is_finite (ooffset 2 mn mx pn pf 0%nat) = true /\ B2R (oscale 2 mn mx pn pf 0%nat) = 0 /\ B2R (ooffset 2 mn mx pn pf 0%nat) = 0.
Proof.
exists (fun _ : nat => dbl (-1) 1023), (fun _ : nat => dbl 1 1023), (dbl 0 0), (dbl 1 0).
repeat split; try (vm_compute; reflexivity).
assert (a : forall s : bool, forall x : fl, is_finite x = true -> Bsign x = s -> is_finite_strict x = true -> if s then B2R x < 0 else 0 < B2R x).
{ intros s [|[|]| |[|] m e hb] f <- g; try discriminate; simpl; [apply F2R_lt_0|apply F2R_gt_0]; simpl; lia. }
assert (a1 := a true (dbl (-1) 1023) ltac:(vm_compute; reflexivity) ltac:(vm_compute; reflexivity) ltac:(vm_compute; reflexivity)).
assert (a2 := a false (dbl 1 1023) ltac:(vm_compute; reflexivity) ltac:(vm_compute; reflexivity) ltac:(vm_compute; reflexivity)); cbv iota in *; lra.
Qed.
Print Assumptions C105_far_refuted.
Print Assumptions C105_size_refuted.
