(* C100: lines, hyperplanes and their intersections in floating point. *)
From Coq Require Import ZArith List Arith Bool Reals Lia Lra Psatz.
From Flocq Require Import Core IEEE754.BinarySingleNaN.
From Verif Require Import M_Float P_Float P_FloatD M_FloatN P_FloatN M_FloatS M_FloatLU P_FloatLU P_FloatTri P_Norm P_FloatHH P_FloatQR M_FloatQR M_FloatGeo Props_Float Props_FloatS.
Import ListNotations.
Local Open Scope R_scope.

Section FloatGeo.
Variables prec emax : Z.
Context (p0 : Prec_gt_0 prec) (pe : Prec_lt_emax prec emax).
Notation float := (binary_float prec emax).
Notation val := (@B2R prec emax).
Notation fin := (@is_finite prec emax).
Notation u := (u prec).
Notation eta := (eta prec emax).
Notation fadd := (fadd prec emax p0 pe).
Notation fsub := (fsub prec emax p0 pe).
Notation fmul := (fmul prec emax p0 pe).
Notation fdiv := (fdiv prec emax p0 pe).
Notation fvec := (nat -> float).
Notation RN := (round radix2 (FLT_exp (SpecFloat.emin prec emax) prec) ZnearestE).
Lemma gu0 : 0 < u <= 1.
Proof. split; [apply bpow_gt_0|]; change 1 with (bpow radix2 0); apply bpow_le; unfold Prec_gt_0 in *; lia. Qed.
Lemma ge0 : 0 < eta <= 1.
Proof. split; [apply bpow_gt_0|]; change 1 with (bpow radix2 0); apply bpow_le; unfold Prec_gt_0, Prec_lt_emax in *; lia. Qed.
(* k roundings *)
Definition gam (k : nat) : R := (1 + u) ^ k - 1.
Lemma gam0 k : 0 <= gam k.
Proof. unfold gam; destruct gu0; assert (1 <= (1 + u) ^ k) by (apply pow_R1_Rle; lra); lra. Qed.
Lemma gamS k : gam (S k) = gam k + u * (1 + gam k).
Proof. unfold gam; simpl; ring. Qed.
Lemma sum_round x y : fin (fadd x y) = true -> Rabs (val (fadd x y) - (val x + val y)) <= u * Rabs (val x + val y).
Proof.
intro f; rewrite (fadd_val _ _ _ _ _ _ f); assert (h := add_err (SpecFloat.emin prec emax) prec p0 _ _ (format_val prec emax x) (format_val prec emax y)).
change (bpow radix2 (- prec)) with u in h; destruct gu0 as [u0 u1]; assert (u / (1 + u) <= u) by (apply Rmult_le_reg_r with (1 + u); [lra|]; unfold Rdiv; rewrite Rmult_assoc, Rinv_l by lra; nra).
apply Rle_trans with (1 := h), Rmult_le_compat_r; [apply Rabs_pos|assumption].
Qed.
Lemma diff_round x y : fin (fsub x y) = true -> Rabs (val (fsub x y) - (val x - val y)) <= u * Rabs (val x - val y).
Proof.
intro f; rewrite (fsub_val _ _ _ _ _ _ f); assert (h := add_err (SpecFloat.emin prec emax) prec p0 _ _ (format_val prec emax x) (generic_format_opp _ _ _ (format_val prec emax y))).
change (bpow radix2 (- prec)) with u in h; destruct gu0 as [u0 u1]; assert (u / (1 + u) <= u) by (apply Rmult_le_reg_r with (1 + u); [lra|]; unfold Rdiv; rewrite Rmult_assoc, Rinv_l by lra; nra).
apply Rle_trans with (1 := h), Rmult_le_compat_r; [apply Rabs_pos|assumption].
Qed.
Lemma prod_round x y : fin (fmul x y) = true -> Rabs (val (fmul x y) - val x * val y) <= u * Rabs (val x * val y) + / 2 * eta.
Proof. intro f; rewrite (fmul_val _ _ _ _ _ _ f); apply RN_error; exact p0. Qed.
(* a product and a sum *)
Lemma muladd_err a b p e : Rabs (p - b) <= u * Rabs b + / 2 * eta -> Rabs (e - (a + p)) <= u * Rabs (a + p) ->
  Rabs (e - (a + b)) <= gam 2 * (Rabs a + Rabs b) + (1 + u) * (/ 2 * eta).
Proof.
intros h1 h2; destruct gu0 as [u0 u1]; destruct ge0; replace (e - (a + b)) with ((e - (a + p)) + (p - b)) by ring.
apply Rle_trans with (1 := Rabs_triang _ _); assert (t := Rabs_triang a p); assert (q : Rabs p <= Rabs b + (u * Rabs b + / 2 * eta)).
{ replace p with (b + (p - b)) at 1 by ring; apply Rle_trans with (1 := Rabs_triang _ _); lra. }
assert (z1 := Rabs_pos a); assert (z2 := Rabs_pos b); unfold gam; simpl; rewrite Rmult_1_r.
assert (u * Rabs (a + p) <= u * (Rabs a + (Rabs b + (u * Rabs b + / 2 * eta)))) by (apply Rmult_le_compat_l; lra); nra.
Qed.
(* the point is near the line *)
Theorem C100_line (base dir : fvec) t i : fin (fpoint_at prec emax p0 pe base dir t i) = true ->
  Rabs (val (fpoint_at prec emax p0 pe base dir t i) - (val (base i) + val t * val (dir i))) <= gam 2 * (Rabs (val (base i)) + Rabs (val t * val (dir i))) + (1 + u) * (/ 2 * eta).
Proof.
unfold fpoint_at; intro f; destruct (fadd_inv _ _ _ _ _ _ f) as [fb fm]; apply muladd_err with (val (fmul t (dir i))); [apply prod_round, fm|apply sum_round, f].
Qed.
Variables m pad : nat.
Hypothesis m0 : (0 < m)%nat.
Notation sigma f := (lsum f (seq 0 m)).
Lemma sigma_pos f : (forall i, 0 <= f i) -> 0 <= sigma f.
Proof. intro h; generalize (seq 0 m); intro l; induction l as [|a l IH]; [unfold lsum; simpl; lra|rewrite lsum_cons]; assert (g := h a); lra. Qed.
(* Dot *)
Lemma vdot_err (v w : fvec) r : fvdot prec emax p0 pe m pad v w r -> fin r = true -> (forall i, (i < m)%nat -> fin (fmul (v i) (w i)) = true) /\
  Rabs (val r - sigma (fun i => val (v i) * val (w i))) <= gam m * sigma (fun i => Rabs (val (v i) * val (w i))) + INR m * (1 + u) ^ m * (/ 2 * eta).
Proof.
intros H f; split.
- intros i hi; unfold fvdot, fdot, fsum in H; destruct (sum_core prec emax p0 pe _ _ H f) as [g _]; apply Forall_app in g; destruct g as [g _].
  unfold elements in g; rewrite combine_self, map_map, Forall_map, Forall_forall in g; apply (g i), in_seq; lia.
- assert (W := C79_dot prec emax p0 pe pad (elements prec emax m v) (elements prec emax m w) r).
  unfold Props_FloatS.bound, Props_FloatS.dot, dot_abs, elements in W; rewrite !map_length, !seq_length, combine_self, !map_map, !Rsum_lsum in W; cbn [fst snd] in W.
  apply W; [destruct m; [lia|discriminate]|reflexivity|exact H|exact f].
Qed.

(** * Hyperplanes *)
Theorem C100_scalar (base normal : fvec) s : fplane_scalar prec emax p0 pe m pad base normal s -> fin s = true ->
  Rabs (val s - sigma (fun i => val (normal i) * val (base i))) <= gam m * sigma (fun i => Rabs (val (normal i) * val (base i))) + INR m * (1 + u) ^ m * (/ 2 * eta).
Proof. intros H f; apply (vdot_err _ _ _ H f). Qed.
Theorem C100_distance (normal point : fvec) s r : fplane_distance prec emax p0 pe m pad normal s point r -> fin r = true ->
  Rabs (val r - (sigma (fun i => val (point i) * val (normal i)) - val s)) <=
  gam (S m) * (sigma (fun i => Rabs (val (point i) * val (normal i))) + Rabs (val s)) + INR m * (1 + u) ^ S m * (/ 2 * eta).
Proof.
intros [d [H ->]] f; destruct (fsub_inv _ _ _ _ _ _ f) as [fd fs]; destruct (vdot_err _ _ _ H fd) as [_ e]; assert (r := diff_round _ _ f).
set (P := sigma _) in *; set (A := lsum (fun i => Rabs _) _) in *; assert (A0 : 0 <= A) by (apply sigma_pos; intro; apply Rabs_pos).
assert (PA : Rabs P <= A) by apply lsum_abs; destruct gu0 as [u0 u1]; destruct ge0 as [e0 e1].
set (k := INR m * (1 + u) ^ m * (/ 2 * eta)) in *; replace (INR m * (1 + u) ^ S m * (/ 2 * eta)) with ((1 + u) * k) by (unfold k; simpl; ring).
rewrite gamS; assert (g0 := gam0 m).
replace (val (fsub d s) - (P - val s)) with ((val (fsub d s) - (val d - val s)) + (val d - P)) by ring.
apply Rle_trans with (1 := Rabs_triang _ _).
assert (q : Rabs (val d - val s) <= Rabs (val s) + (A + (gam m * A + k))).
{ replace (val d - val s) with ((- val s) + (P + (val d - P))) by ring; apply Rle_trans with (1 := Rabs_triang _ _); rewrite Rabs_Ropp.
  apply Rplus_le_compat_l; apply Rle_trans with (1 := Rabs_triang _ _); lra. }
assert (u * Rabs (val d - val s) <= u * (Rabs (val s) + (A + (gam m * A + k)))) by (apply Rmult_le_compat_l; lra).
assert (s0 := Rabs_pos (val s)); assert (0 <= gam m * Rabs (val s)) by (apply Rmult_le_pos; lra); assert (0 <= u * (gam m * Rabs (val s))) by (apply Rmult_le_pos; lra); lra.
Qed.

(** * Intersections *)
(* no intersection is reported only if the line is parallel up to rounding *)
Theorem C100_parallel (normal : fvec) s (base dir : fvec) nd : fintersect prec emax p0 pe m pad normal s base dir nd None None ->
  Rabs (sigma (fun i => val (normal i) * val (dir i))) <= gam m * sigma (fun i => Rabs (val (normal i) * val (dir i))) + INR m * (1 + u) ^ m * (/ 2 * eta).
Proof.
intros [[H1 H2] _]; destruct (fneq prec emax nd (fzero prec emax)) eqn:N; [destruct H2 as [q [_ e]]; discriminate|].
assert (z : fin nd = true /\ val nd = 0).
{ destruct nd as [[|]|[|]| |b mm ee hh]; try discriminate; try (split; reflexivity); destruct b; discriminate. }
destruct z as [f z]; destruct (vdot_err _ _ _ H1 f) as [_ e]; rewrite z in e; rewrite Rminus_0_l, Rabs_Ropp in e; exact e.
Qed.
(* the point is near the plane *)
Definition plane_err (n b d : nat -> R) (s t : R) : R :=
  Rabs s * Rabs (sigma (fun i => n i * n i) - 1) +
  gam (m + 2) * (2 * sigma (fun i => Rabs (n i * b i)) + 2 * sigma (fun i => Rabs (n i * (t * d i))) + Rabs s * sigma (fun i => n i * n i)) +
  eta * (1 + u) ^ (m + 2) * (sigma (fun i => Rabs (n i)) + INR m * (1 + Rabs t) + sigma (fun i => Rabs (n i * d i))).
Theorem C100_plane (normal : fvec) s (base dir : fvec) nd t P : fintersect prec emax p0 pe m pad normal s base dir nd (Some t) (Some P) -> fin nd = true ->
  (forall i, (i < m)%nat -> fin (P i) = true) ->
  Rabs (sigma (fun i => val (normal i) * val (P i)) - val s) <= plane_err (fun i => val (normal i)) (fun i => val (base i)) (fun i => val (dir i)) (val s) (val t).
Proof.
intros [[H1 H2] eP] fnd fP; injection eP as ->; destruct (fneq prec emax nd (fzero prec emax)) eqn:N; [|discriminate].
destruct H2 as [q [H2 et]]; injection et as et.
assert (ft : fin t = true).
{ assert (f := fP 0%nat m0); unfold fpoint_at in f; destruct (fadd_inv _ _ _ _ _ _ f) as [_ g]; apply (fmul_inv _ _ _ _ _ _ g). }
assert (ft' := ft); rewrite et in ft'; destruct (fdiv_inv prec emax p0 pe _ _ ft' fnd) as [fq [nz tv]]; rewrite <- et in tv.
set (n := fun i => val (normal i)); set (b := fun i => val (base i)); set (d := fun i => val (dir i)); set (T := val t) in *; set (S := val s).
destruct (vdot_err _ _ _ H1 fnd) as [_ E1]; destruct (vdot_err _ _ _ H2 fq) as [fw E2].
set (w := fun i => val (fsub (fplane_base prec emax p0 pe normal s i) (base i))).
change (Rabs (val nd - sigma (fun i => n i * d i)) <= gam m * sigma (fun i => Rabs (n i * d i)) + INR m * (1 + u) ^ m * (/ 2 * eta)) in E1.
change (Rabs (val q - sigma (fun i => n i * w i)) <= gam m * sigma (fun i => Rabs (n i * w i)) + INR m * (1 + u) ^ m * (/ 2 * eta)) in E2.
assert (W : forall i, (i < m)%nat -> Rabs (w i - (n i * S - b i)) <= gam 2 * (Rabs (b i) + Rabs (n i * S)) + (1 + u) * (/ 2 * eta)).
{ intros i hi; destruct (fmul_inv _ _ _ _ _ _ (fw i hi)) as [_ f]; destruct (fsub_inv _ _ _ _ _ _ f) as [fb _].
  assert (h1 := prod_round _ _ fb); assert (h2 := diff_round _ _ f); rewrite <- (Rabs_Ropp (b i)).
  replace (w i - (n i * S - b i)) with (w i - (- b i + n i * S)) by ring; apply muladd_err with (val (fmul (normal i) s)); [exact h1|].
  unfold w, fplane_base in *; replace (- b i + val (fmul (normal i) s)) with (val (fmul (normal i) s) - b i) by ring; exact h2. }
set (p := fun i => val (fpoint_at prec emax p0 pe base dir t i)).
assert (L : forall i, (i < m)%nat -> Rabs (p i - (b i + T * d i)) <= gam 2 * (Rabs (b i) + Rabs (T * d i)) + (1 + u) * (/ 2 * eta)).
{ intros i hi; apply C100_line, fP, hi. }
destruct gu0 as [u0 u1]; destruct ge0 as [e0 e1]; set (h := (1 + u) * (/ 2 * eta)) in *.
set (B := sigma (fun i => Rabs (n i * b i))); set (D := sigma (fun i => Rabs (n i * (T * d i)))); set (Dn := sigma (fun i => Rabs (n i * d i))) in *.
set (nn := sigma (fun i => n i * n i)); set (H := sigma (fun i => Rabs (n i))); set (K := INR m * (1 + u) ^ m * (/ 2 * eta)) in *.
assert (DT : D = Rabs T * Dn).
{ unfold D, Dn; rewrite <- lsum_scal; apply lsum_ext; intros; rewrite <- Rabs_mult; f_equal; ring. }
assert (QS : sigma (fun i => Rabs (n i * (n i * S))) = Rabs S * nn).
{ unfold nn; rewrite <- lsum_scal; apply lsum_ext; intros; replace (n k * (n k * S)) with (S * (n k * n k)) by ring; rewrite Rabs_mult, (Rabs_pos_eq (n k * n k)) by apply Rle_0_sqr; reflexivity. }
set (Q := Rabs S * nn) in *.
assert (nn0 : 0 <= nn) by (apply sigma_pos; intro; apply Rle_0_sqr).
assert (Q0 : 0 <= Q) by (apply Rmult_le_pos; [apply Rabs_pos|exact nn0]).
assert (B0 : 0 <= B) by (apply sigma_pos; intro; apply Rabs_pos); assert (Dn0 : 0 <= Dn) by (apply sigma_pos; intro; apply Rabs_pos); assert (H0 : 0 <= H) by (apply sigma_pos; intro; apply Rabs_pos).
assert (T0 := Rabs_pos T); assert (D0 : 0 <= D) by (rewrite DT; apply Rmult_le_pos; assumption); assert (g2 := gam0 2); assert (gm := gam0 m); assert (M0 := pos_INR m).
(* the errors of the numerator and of the point *)
assert (X1 : Rabs (sigma (fun i => n i * (p i - (b i + T * d i)))) <= gam 2 * (B + D) + h * H).
{ apply Rle_trans with (1 := lsum_abs _ _); unfold B, D, H; rewrite <- lsum_plus, <- !lsum_scal, <- lsum_plus; apply lsum_le; intros i hi; apply in_seq in hi.
  rewrite !Rabs_mult; assert (l := L i ltac:(lia)); rewrite Rabs_mult in l; apply Rle_trans with (Rabs (n i) * (gam 2 * (Rabs (b i) + Rabs T * Rabs (d i)) + h)); [apply Rmult_le_compat_l; [apply Rabs_pos|exact l]|apply Req_le; ring]. }
assert (X2 : Rabs (sigma (fun i => n i * (w i - (n i * S - b i)))) <= gam 2 * (B + Q) + h * H).
{ apply Rle_trans with (1 := lsum_abs _ _); rewrite <- QS; unfold B, H; rewrite <- lsum_plus, <- !lsum_scal, <- lsum_plus; apply lsum_le; intros i hi; apply in_seq in hi.
  rewrite !Rabs_mult; assert (l := W i ltac:(lia)); rewrite !Rabs_mult in l; apply Rle_trans with (Rabs (n i) * (gam 2 * (Rabs (b i) + Rabs (n i) * Rabs S) + h)); [apply Rmult_le_compat_l; [apply Rabs_pos|exact l]|apply Req_le; ring]. }
assert (X3 : sigma (fun i => Rabs (n i * w i)) <= (1 + gam 2) * (B + Q) + h * H).
{ rewrite <- QS; unfold B, H; rewrite <- lsum_plus, <- !lsum_scal, <- lsum_plus; apply lsum_le; intros i hi; apply in_seq in hi.
  assert (l := W i ltac:(lia)); assert (l2 : Rabs (w i) <= (1 + gam 2) * (Rabs (b i) + Rabs (n i * S)) + h).
  { replace (w i) with ((w i - (n i * S - b i)) + (n i * S - b i)) by ring; apply Rle_trans with (1 := Rabs_triang _ _); assert (x := Rabs_triang (n i * S) (- b i)); rewrite Rabs_Ropp in x; unfold Rminus in *; lra. }
  rewrite !Rabs_mult in *; apply Rle_trans with (Rabs (n i) * ((1 + gam 2) * (Rabs (b i) + Rabs (n i) * Rabs S) + h)); [apply Rmult_le_compat_l; [apply Rabs_pos|exact l2]|apply Req_le; ring]. }
assert (E2' : Rabs (val q - sigma (fun i => n i * w i)) <= gam m * ((1 + gam 2) * (B + Q) + h * H) + K).
{ apply Rle_trans with (1 := E2); apply Rplus_le_compat_r, Rmult_le_compat_l; assumption. }
assert (X4 : Rabs (T * val nd - val q) <= (u * Rabs T + / 2 * eta) * ((1 + gam m) * Dn + K)).
{ assert (r := RN_err_r prec emax p0 (val q / val nd)); rewrite <- tv, epsE in r; change (bpow radix2 (- prec)) with u in r.
  replace (T * val nd - val q) with (- (val q / val nd - T) * val nd) by (field; exact nz); rewrite Rabs_mult, Rabs_Ropp.
  apply Rmult_le_compat; [apply Rabs_pos|apply Rabs_pos|exact r|].
  replace (val nd) with ((val nd - sigma (fun i => n i * d i)) + sigma (fun i => n i * d i)) by ring; apply Rle_trans with (1 := Rabs_triang _ _).
  assert (x : Rabs (sigma (fun i => n i * d i)) <= Dn) by apply lsum_abs; lra. }
assert (X5 : Rabs (T * (sigma (fun i => n i * d i) - val nd)) <= Rabs T * (gam m * Dn + K)).
{ rewrite Rabs_mult; apply Rmult_le_compat_l; [exact T0|]; rewrite Rabs_minus_sym; exact E1. }
assert (id : sigma (fun i => n i * p i) - S = sigma (fun i => n i * (p i - (b i + T * d i))) + T * (sigma (fun i => n i * d i) - val nd) + (T * val nd - val q) +
  (val q - sigma (fun i => n i * w i)) + sigma (fun i => n i * (w i - (n i * S - b i))) + S * (nn - 1)).
{ assert (a1 : sigma (fun i => n i * (p i - (b i + T * d i))) = sigma (fun i => n i * p i) + (-1) * sigma (fun i => n i * b i) + (- T) * sigma (fun i => n i * d i)).
  { rewrite <- !lsum_scal, <- !lsum_plus; apply lsum_ext; intros; ring. }
  assert (a2 : sigma (fun i => n i * (w i - (n i * S - b i))) = sigma (fun i => n i * w i) + (- S) * nn + sigma (fun i => n i * b i)).
  { unfold nn; rewrite <- !lsum_scal, <- !lsum_plus; apply lsum_ext; intros; ring. }
  rewrite a1, a2; ring. }
change (Rabs (sigma (fun i => n i * p i) - S) <= plane_err n b d S T); rewrite id; unfold plane_err; fold B D Dn nn H; fold Q.
assert (X6 : Rabs (S * (nn - 1)) = Rabs S * Rabs (nn - 1)) by apply Rabs_mult.
apply Rle_trans with ((gam 2 * (B + D) + h * H) + Rabs T * (gam m * Dn + K) + (u * Rabs T + / 2 * eta) * ((1 + gam m) * Dn + K) + (gam m * ((1 + gam 2) * (B + Q) + h * H) + K) + (gam 2 * (B + Q) + h * H) + Rabs S * Rabs (nn - 1)).
{ do 5 (apply Rle_trans with (1 := Rabs_triang _ _); apply Rplus_le_compat; [|first [assumption|rewrite X6; apply Rle_refl]]); assumption. }
set (G := gam (m + 2)); assert (GE : G = gam m * (1 + gam 2) + gam 2) by (unfold G, gam; rewrite pow_add; ring).
assert (pm : (1 + u) ^ m = 1 + gam m) by (unfold gam; ring); assert (pm2 : (1 + u) ^ (m + 2) = (1 + gam m) * ((1 + u) * (1 + u))) by (rewrite pow_add, pm; simpl; ring).
assert (G2 : gam 2 = 2 * u + u * u) by (unfold gam; simpl; ring).
assert (G0 : gam m + u * (1 + gam m) <= G) by (rewrite GE, G2; assert (0 <= gam m * u) by (apply Rmult_le_pos; lra); assert (0 <= gam m * (u * u)) by (apply Rmult_le_pos; nra); nra).
assert (G1 : gam 2 <= G) by (rewrite GE; assert (0 <= gam m * (1 + gam 2)) by (apply Rmult_le_pos; lra); lra).
assert (Y1 : gam 2 * (B + D) + (gam m * Dn * Rabs T + u * Rabs T * ((1 + gam m) * Dn)) + (gam m * ((1 + gam 2) * (B + Q)) + gam 2 * (B + Q)) <= G * (2 * B + 2 * D + Q)).
{ replace (gam m * Dn * Rabs T + u * Rabs T * ((1 + gam m) * Dn)) with ((gam m + u * (1 + gam m)) * D) by (rewrite DT; ring).
  replace (gam m * ((1 + gam 2) * (B + Q)) + gam 2 * (B + Q)) with (G * (B + Q)) by (rewrite GE; ring).
  assert (gam 2 * (B + D) <= G * (B + D)) by (apply Rmult_le_compat_r; lra); assert ((gam m + u * (1 + gam m)) * D <= G * D) by (apply Rmult_le_compat_r; lra); lra. }
assert (KK : K = INR m * ((1 + gam m) * (/ 2 * eta))) by (unfold K; rewrite pm; ring).
set (z := 1 + gam m) in *; assert (z1 : 1 <= z) by (unfold z; lra).
assert (Y2 : h * H + gam m * (h * H) + h * H <= eta * (z * ((1 + u) * (1 + u))) * H).
{ replace (h * H + gam m * (h * H) + h * H) with ((1 + z) * h * H) by (unfold z; ring); apply Rmult_le_compat_r; [exact H0|]; unfold h.
  assert (0 <= eta * (1 + u)) by (apply Rmult_le_pos; lra); assert (1 + z <= 2 * z) by lra.
  apply Rle_trans with (eta * (1 + u) * z); [|assert (0 <= eta * (1 + u) * z * u) by (repeat apply Rmult_le_pos; lra); lra].
  assert (eta * (1 + u) * (1 + z) <= eta * (1 + u) * (2 * z)) by (apply Rmult_le_compat_l; lra); lra. }
assert (Y3 : / 2 * eta * (z * Dn) <= eta * (z * ((1 + u) * (1 + u))) * Dn).
{ assert (0 <= eta * z * Dn) by (repeat apply Rmult_le_pos; lra); assert (0 <= eta * z * Dn * (2 * u + u * u)) by (apply Rmult_le_pos; nra); lra. }
assert (Y4 : Rabs T * K + (u * Rabs T + / 2 * eta) * K + K <= eta * (z * ((1 + u) * (1 + u))) * (INR m * (1 + Rabs T))).
{ assert (k0 : 0 <= eta * z * INR m) by (repeat apply Rmult_le_pos; lra).
  replace (Rabs T * K + (u * Rabs T + / 2 * eta) * K + K) with (eta * z * INR m * (/ 2 * (Rabs T + (u * Rabs T + / 2 * eta) + 1))) by (rewrite KK; ring).
  replace (eta * (z * ((1 + u) * (1 + u))) * (INR m * (1 + Rabs T))) with (eta * z * INR m * ((1 + u) * (1 + u) * (1 + Rabs T))) by ring.
  apply Rmult_le_compat_l; [exact k0|]; assert (0 <= u * Rabs T) by (apply Rmult_le_pos; lra); assert (0 <= u * u * (1 + Rabs T)) by (apply Rmult_le_pos; nra); lra. }
rewrite pm2; fold z; lra.
Qed.
(* rays and segments: the points reported are those with a parameter in range, and they are points of the line *)
Lemma nonneg_val x : fin x = true -> fnonneg prec emax x = true <-> 0 <= val x.
Proof.
intro f; unfold fnonneg; rewrite Bcompare_correct by (reflexivity || exact f); change (val (fzero prec emax)) with 0.
destruct (Rcompare_spec 0 (val x)); split; intro h; try reflexivity; try discriminate; lra.
Qed.
Theorem C100_ray (normal : fvec) s (base dir : fvec) nd t r : fintersect_ray prec emax p0 pe m pad normal s base dir nd (Some t) r -> fin t = true ->
  (0 <= val t -> exists P, r = Some P /\ fintersect prec emax p0 pe m pad normal s base dir nd (Some t) (Some P)) /\ (val t < 0 -> r = None).
Proof.
intros [H e] f; assert (v := nonneg_val t f); destruct (fnonneg prec emax t); split; intro h.
- eexists; split; [exact e|split; [exact H|reflexivity]].
- assert (0 <= val t) by (apply v; reflexivity); lra.
- destruct v as [_ v]; discriminate (v h).
- exact e.
Qed.
Theorem C100_segment (fmax : float -> float -> float) pm ps (normal : fvec) s (p1 p2 dir : fvec) len nd t r :
  fintersect_segment prec emax p0 pe fmax m pad pm ps normal s p1 p2 dir len nd (Some t) r -> fin t = true -> fin len = true ->
  (0 <= val t < val len -> exists P, r = Some P /\ fintersect prec emax p0 pe m pad normal s p1 dir nd (Some t) (Some P)) /\ (val t < 0 \/ val len <= val t -> r = None).
Proof.
intros [_ [_ [H e]]] f fl; assert (v := nonneg_val t f); assert (w := flt_val prec emax t len f fl).
destruct (fnonneg prec emax t); destruct (flt prec emax t len); cbn [andb] in e; (split; intro h; [|try exact e]).
- eexists; split; [exact e|split; [exact H|reflexivity]].
- assert (0 <= val t) by (apply v; reflexivity); assert (val t < val len) by (apply w; reflexivity); lra.
- destruct w as [_ w]; discriminate (w (proj2 h)).
- destruct v as [_ v]; discriminate (v (proj1 h)).
- destruct v as [_ v]; discriminate (v (proj1 h)).
Qed.
End FloatGeo.

(** * Lines in two dimensions: the point is near the first line as well *)
Section Lines.
Variables prec emax : Z.
Context (p0 : Prec_gt_0 prec) (pe : Prec_lt_emax prec emax).
Notation float := (binary_float prec emax).
Notation val := (@B2R prec emax).
Notation fin := (@is_finite prec emax).
Theorem C100_lines (pad : nat) (b1 d1 b2 d2 : nat -> float) s nd t P : fintersect_lines prec emax p0 pe pad b1 d1 b2 d2 s nd (Some t) (Some P) ->
  fin s = true -> fin nd = true -> fin (P 0%nat) = true -> fin (P 1%nat) = true ->
  (forall i, (i < 2)%nat -> Rabs (val (P i) - (val (b2 i) + val t * val (d2 i))) <= gam prec 2 * (Rabs (val (b2 i)) + Rabs (val t * val (d2 i))) + (1 + u prec) * (/ 2 * eta prec emax)) /\
  Rabs (val (d1 0%nat) * (val (P 1%nat) - val (b1 1%nat)) - val (d1 1%nat) * (val (P 0%nat) - val (b1 0%nat))) <=
  plane_err prec emax 2 (fun i => match i with 0%nat => - val (d1 1%nat) | _ => val (d1 0%nat) end) (fun i => val (b2 i)) (fun i => val (d2 i)) (val s) (val t) +
  gam prec 2 * (Rabs (val (d1 1%nat) * val (b1 0%nat)) + Rabs (val (d1 0%nat) * val (b1 1%nat))) + 2 * (1 + u prec) ^ 2 * (/ 2 * eta prec emax).
Proof.
intros [H1 H2] fs fnd f0 f1; assert (fP : forall i, (i < 2)%nat -> fin (P i) = true) by (intros [|[|i]] hi; [exact f0|exact f1|lia]); split.
- intros i hi; destruct H2 as [_ e]; injection e as ->; apply C100_line, fP, hi.
- assert (A := C100_scalar prec emax p0 pe 2 pad ltac:(lia) _ _ _ H1 fs); assert (B := C100_plane prec emax p0 pe 2 pad ltac:(lia) _ _ _ _ _ _ _ H2 fnd fP).
  assert (e : (fun i => val (fcross2 prec emax d1 i)) = (fun i : nat => match i with 0%nat => - val (d1 1%nat) | _ => val (d1 0%nat) end)).
  { apply FunctionalExtensionality.functional_extensionality; intros [|i]; [apply B2R_Bopp|reflexivity]. }
  rewrite e in B; unfold fcross2 in A, B; cbn [seq] in A, B; repeat rewrite lsum_cons in A; repeat rewrite lsum_cons in B; rewrite !B2R_Bopp in A, B; change (lsum ?f []) with 0 in A, B; simpl INR in A.
  set (E := plane_err _ _ _ _ _ _ _ _) in *; rewrite !Rplus_0_r, Ropp_mult_distr_l_reverse, Rabs_Ropp in A; rewrite !Rplus_0_r in B.
  set (S := val s) in *; set (E1 := gam prec 2 * _) in *; set (E2 := (1 + 1) * _ * _) in A; replace (2 * (1 + u prec) ^ 2 * (/ 2 * eta prec emax)) with E2 by (unfold E2; ring).
  replace (val (d1 0%nat) * (val (P 1%nat) - val (b1 1%nat)) - val (d1 1%nat) * (val (P 0%nat) - val (b1 0%nat))) with
    ((- val (d1 1%nat) * val (P 0%nat) + val (d1 0%nat) * val (P 1%nat) - S) + (S - (- (val (d1 1%nat) * val (b1 0%nat)) + val (d1 0%nat) * val (b1 1%nat)))) by ring.
  apply Rle_trans with (1 := Rabs_triang _ _); lra.
Qed.
End Lines.
Print Assumptions C100_scalar.
Print Assumptions C100_distance.
Print Assumptions C100_line.
Print Assumptions C100_parallel.
Print Assumptions C100_plane.
Print Assumptions C100_ray.
Print Assumptions C100_segment.
Print Assumptions C100_lines.

(** * Cases in double precision *)
Notation fl := (binary_float 53 1024).
Notation dadd := (M_Float.fadd 53 1024 eq_refl eq_refl).
Notation dsub := (M_Float.fsub 53 1024 eq_refl eq_refl).
Notation dmul := (M_Float.fmul 53 1024 eq_refl eq_refl).
Notation ddiv := (M_Float.fdiv 53 1024 eq_refl eq_refl).
Definition gdot2 (v w : nat -> fl) : fl := dadd (dmul (v 0%nat) (w 0%nat)) (dmul (v 1%nat) (w 1%nat)).
Definition gdot3 (v w : nat -> fl) : fl := dadd (dadd (dmul (v 0%nat) (w 0%nat)) (dmul (v 1%nat) (w 1%nat))) (dmul (v 2%nat) (w 2%nat)).
Lemma gdot2_run v w : fvdot 53 1024 eq_refl eq_refl 2 0 v w (gdot2 v w).
Proof. unfold gdot2, fvdot, fdot, fsum; simpl; apply (fred_app _ _ _ [_] [_]); apply fred_one. Qed.
Lemma gdot3_run v w : fvdot 53 1024 eq_refl eq_refl 3 0 v w (gdot3 v w).
Proof. unfold gdot3, fvdot, fdot, fsum; simpl; apply (fred_app _ _ _ [_; _] [_]); [apply (fred_app _ _ _ [_] [_])|]; apply fred_one. Qed.
Ltac dvm := rewrite <- SF2R_B2SF; match goal with |- context [B2SF ?x] => let y := eval vm_compute in (B2SF x) in replace (B2SF x) with y by (vm_compute; reflexivity) end; simpl; unfold F2R; simpl.
Definition vec2 (a b : fl) : nat -> fl := fun i => match i with 0%nat => a | _ => b end.
Definition vec3 (a b c : fl) : nat -> fl := fun i => match i with 0%nat => a | 1%nat => b | _ => c end.
Definition origin : nat -> fl := fun _ => dbl 0 0.
Definition gparam (n : nat -> fl) (s : fl) (b d : nat -> fl) : fl := ddiv (gdot3 n (fun i => dsub (fplane_base 53 1024 eq_refl eq_refl n s i) (b i))) (gdot3 n d).

(* a line parallel to a plane that does not contain it: an intersection is reported *)
Definition par_n := vec3 (dbl 66677775598 (-40)) (dbl 880060939714 (-40)) (dbl (-655722987431) (-40)).
Definition par_d := vec3 (dbl (-774207564625109) (-51)) (dbl (-1225260236183481) (-51)) (dbl (-1723175997744136) (-51)).
Theorem C100_parallel_refuted : exists (n : nat -> fl) s (b d : nat -> fl) nd t P, fintersect 53 1024 eq_refl eq_refl 3 0 n s b d nd (Some t) (Some P) /\
  (forall i, is_finite (P i) = true) /\ lsum (fun i => B2R (n i) * B2R (d i)) (seq 0 3) = 0 /\ lsum (fun i => B2R (n i) * B2R (b i)) (seq 0 3) <> B2R s.
Proof.
exists par_n, (dbl 1 0), origin, par_d, (gdot3 par_n par_d), (gparam par_n (dbl 1 0) origin par_d), (fpoint_at 53 1024 eq_refl eq_refl origin par_d (gparam par_n (dbl 1 0) origin par_d)).
split; [|split; [intros [|[|i]]; vm_compute; reflexivity|]].
- split; [|reflexivity]; split; [apply gdot3_run|]; replace (fneq _ _ _ _) with true by (symmetry; vm_compute; reflexivity).
  eexists; split; [apply gdot3_run|reflexivity].
- assert (n0 : B2R (par_n 0%nat) = 66677775598 / IZR (2 ^ 40)) by (dvm; lra); assert (n1 : B2R (par_n 1%nat) = 880060939714 / IZR (2 ^ 40)) by (dvm; lra).
  assert (n2 : B2R (par_n 2%nat) = - 655722987431 / IZR (2 ^ 40)) by (dvm; lra).
  assert (d0 : B2R (par_d 0%nat) = - 774207564625109 / IZR (2 ^ 51)) by (dvm; lra); assert (d1 : B2R (par_d 1%nat) = - 1225260236183481 / IZR (2 ^ 51)) by (dvm; lra).
  assert (d2 : B2R (par_d 2%nat) = - 1723175997744136 / IZR (2 ^ 51)) by (dvm; lra).
  assert (z : B2R (dbl 0 0) = 0) by (dvm; lra); assert (o : B2R (dbl 1 0) = 1) by (dvm; lra).
  cbn [seq]; rewrite !lsum_cons; change (lsum ?f []) with 0; unfold origin; rewrite n0, n1, n2, d0, d1, d2, z, o; simpl (2 ^ _)%Z; split; lra.
Qed.
Print Assumptions C100_parallel_refuted.
(* a line that meets the plane: no intersection is reported *)
Definition mis_n := vec2 (dbl 5404319552844595 (-53)) (dbl 3602879701896397 (-52)).
Definition mis_d := vec2 (dbl (-3602879701896405) (-52)) (dbl 5404319552844607 (-53)).
Theorem C100_missed_refuted : exists (n : nat -> fl) s (b d : nat -> fl) nd, fintersect 53 1024 eq_refl eq_refl 2 0 n s b d nd None None /\
  exists t : R, lsum (fun i => B2R (n i) * (B2R (b i) + t * B2R (d i))) (seq 0 2) = B2R s.
Proof.
exists mis_n, (dbl 1 0), origin, mis_d, (gdot2 mis_n mis_d); split.
- split; [|reflexivity]; split; [apply gdot2_run|]; replace (fneq _ _ _ _) with false by (symmetry; vm_compute; reflexivity); reflexivity.
- assert (n0 : B2R (mis_n 0%nat) = 5404319552844595 / IZR (2 ^ 53)) by (dvm; lra); assert (n1 : B2R (mis_n 1%nat) = 3602879701896397 / IZR (2 ^ 52)) by (dvm; lra).
  assert (d0 : B2R (mis_d 0%nat) = - 3602879701896405 / IZR (2 ^ 52)) by (dvm; lra); assert (d1 : B2R (mis_d 1%nat) = 5404319552844607 / IZR (2 ^ 53)) by (dvm; lra).
  assert (z : B2R (dbl 0 0) = 0) by (dvm; lra); assert (o : B2R (dbl 1 0) = 1) by (dvm; lra).
  exists (/ (B2R (mis_n 0%nat) * B2R (mis_d 0%nat) + B2R (mis_n 1%nat) * B2R (mis_d 1%nat))).
  cbn [seq]; rewrite !lsum_cons; change (lsum ?f []) with 0; unfold origin; rewrite z, o.
  set (c := B2R (mis_n 0%nat) * B2R (mis_d 0%nat) + _); assert (nz : c <> 0) by (unfold c; rewrite n0, n1, d0, d1; simpl (2 ^ _)%Z; lra).
  rewrite !Rplus_0_l, Rplus_0_r; transitivity (/ c * c); [unfold c; ring|apply Rinv_l, nz].
Qed.
Print Assumptions C100_missed_refuted.

(* the plane with normal (0, 3/5, 4/5) and scalar 1 and the line from (1, 2, 3) in direction (0, 0, 1) *)
Definition ex_n := vec3 (dbl 0 0) (dbl 5404319552844595 (-53)) (dbl 3602879701896397 (-52)).
Definition ex_b := vec3 (dbl 1 0) (dbl 2 0) (dbl 3 0).
Definition ex_d := vec3 (dbl 0 0) (dbl 0 0) (dbl 1 0).
Definition ex_t := gparam ex_n (dbl 1 0) ex_b ex_d.
Definition ex_P := fpoint_at 53 1024 eq_refl eq_refl ex_b ex_d ex_t.
Example C100_example : fintersect 53 1024 eq_refl eq_refl 3 0 ex_n (dbl 1 0) ex_b ex_d (gdot3 ex_n ex_d) (Some ex_t) (Some ex_P) /\ is_finite (gdot3 ex_n ex_d) = true /\
  is_finite ex_t = true /\ (forall i, is_finite (ex_P i) = true) /\ B2R (ex_P 0%nat) = 1 /\ B2R (ex_P 1%nat) = 2 /\ Rabs (B2R (ex_P 2%nat) + / 4) < / 10 ^ 15 /\
  fintersect_ray 53 1024 eq_refl eq_refl 3 0 ex_n (dbl 1 0) ex_b ex_d (gdot3 ex_n ex_d) (Some ex_t) None.
Proof.
assert (I : fintersect 53 1024 eq_refl eq_refl 3 0 ex_n (dbl 1 0) ex_b ex_d (gdot3 ex_n ex_d) (Some ex_t) (Some ex_P)).
{ split; [|reflexivity]; split; [apply gdot3_run|]; replace (fneq _ _ _ _) with true by (symmetry; vm_compute; reflexivity).
  eexists; split; [apply gdot3_run|reflexivity]. }
split; [exact I|]; split; [vm_compute; reflexivity|]; split; [vm_compute; reflexivity|]; split; [intros [|[|i]]; vm_compute; reflexivity|].
split; [dvm; lra|]; split; [dvm; lra|]; split; [apply Rabs_def1; dvm; lra|].
split; [exact (proj1 I)|]; replace (fnonneg 53 1024 ex_t) with false by (symmetry; vm_compute; reflexivity); reflexivity.
Qed.
(* the lines through (0, 1) in direction (1, 0) and through (3, 0) in direction (3/5, 4/5) *)
Definition ex_s := gdot2 (fcross2 53 1024 (vec2 (dbl 1 0) (dbl 0 0))) (vec2 (dbl 0 0) (dbl 1 0)).
Definition ex_u := ddiv (gdot2 (fcross2 53 1024 (vec2 (dbl 1 0) (dbl 0 0))) (fun i => dsub (fplane_base 53 1024 eq_refl eq_refl (fcross2 53 1024 (vec2 (dbl 1 0) (dbl 0 0))) ex_s i) (vec2 (dbl 3 0) (dbl 0 0) i)))
  (gdot2 (fcross2 53 1024 (vec2 (dbl 1 0) (dbl 0 0))) mis_n).
Example C100_lines_example : fintersect_lines 53 1024 eq_refl eq_refl 0 (vec2 (dbl 0 0) (dbl 1 0)) (vec2 (dbl 1 0) (dbl 0 0)) (vec2 (dbl 3 0) (dbl 0 0)) mis_n ex_s (gdot2 (fcross2 53 1024 (vec2 (dbl 1 0) (dbl 0 0))) mis_n) (Some ex_u)
    (Some (fpoint_at 53 1024 eq_refl eq_refl (vec2 (dbl 3 0) (dbl 0 0)) mis_n ex_u)) /\ is_finite ex_s = true /\ is_finite (gdot2 (fcross2 53 1024 (vec2 (dbl 1 0) (dbl 0 0))) mis_n) = true /\
  Rabs (B2R (fpoint_at 53 1024 eq_refl eq_refl (vec2 (dbl 3 0) (dbl 0 0)) mis_n ex_u 0%nat) - 15 / 4) < / 10 ^ 15 /\ B2R (fpoint_at 53 1024 eq_refl eq_refl (vec2 (dbl 3 0) (dbl 0 0)) mis_n ex_u 1%nat) = 1.
Proof.
split; [|split; [vm_compute; reflexivity|split; [vm_compute; reflexivity|split; [apply Rabs_def1; dvm; lra|dvm; lra]]]].
split; [apply gdot2_run|]; split; [|reflexivity]; split; [apply gdot2_run|]; replace (fneq _ _ _ _) with true by (symmetry; vm_compute; reflexivity).
eexists; split; [apply gdot2_run|reflexivity].
Qed.
