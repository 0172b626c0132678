(* C102: intersection of a ray and a triangle in floating point. *)
From Coq Require Import ZArith List Arith Bool Reals Lia Lra Psatz.
From Flocq Require Import Core IEEE754.BinarySingleNaN.
From Verif Require Import M_Float P_Float P_FloatD M_FloatN P_FloatN M_FloatS M_FloatLU P_FloatLU P_FloatTri P_Norm P_FloatHH M_FloatDet M_FloatRay Props_Float Props_FloatN Props_FloatS Props_FloatDet Props_FloatGeo.
Import ListNotations.
Local Open Scope R_scope.

(** * Vectors of three real numbers *)
Notation r3 := (R * R * R)%type.
Definition co (i : nat) (v : r3) : R := let '(x, y, z) := v in match i with 0%nat => x | 1%nat => y | _ => z end.
Definition rsub3 (v w : r3) : r3 := let '(a, b, c) := v in let '(x, y, z) := w in (a - x, b - y, c - z).
(* the triple product a . (b x c), the determinant of the three vectors *)
Definition box (a b c : r3) : R :=
  co 0 a * (co 1 b * co 2 c - co 2 b * co 1 c) + co 1 a * (co 2 b * co 0 c - co 0 b * co 2 c) + co 2 a * (co 0 b * co 1 c - co 1 b * co 0 c).
(* the sum of the sizes of its terms *)
Definition box_abs (a b c : r3) : R :=
  Rabs (co 0 a) * (Rabs (co 1 b) * Rabs (co 2 c) + Rabs (co 2 b) * Rabs (co 1 c)) +
  Rabs (co 1 a) * (Rabs (co 2 b) * Rabs (co 0 c) + Rabs (co 0 b) * Rabs (co 2 c)) +
  Rabs (co 2 a) * (Rabs (co 0 b) * Rabs (co 1 c) + Rabs (co 1 b) * Rabs (co 0 c)).
Definition small (M : R) (v : r3) : Prop := forall i, Rabs (co i v) <= M.
(* Cramer's rule: s + t d = u e1 + v e2 *)
Lemma cramer d e1 e2 s i : box e1 d e2 * co i s + box e2 s e1 * co i d = box s d e2 * co i e1 + box d s e1 * co i e2.
Proof.
destruct d as [[d0 d1] d2], e1 as [[a0 a1] a2], e2 as [[b0 b1] b2], s as [[s0 s1] s2]; unfold box; destruct i as [|[|i]]; cbn [co]; ring.
Qed.

Section FloatRay.
Variables prec emax : Z.
Context (p0 : Prec_gt_0 prec) (pe : Prec_lt_emax prec emax).
Hypothesis prec5 : (5 <= prec)%Z.
Notation float := (binary_float prec emax).
Notation val := (@B2R prec emax).
Notation fin := (@is_finite prec emax).
Notation u := (u prec).
Notation eta := (eta prec emax).
Notation fadd := (fadd prec emax p0 pe).
Notation fsub := (fsub prec emax p0 pe).
Notation fmul := (fmul prec emax p0 pe).
Notation fdiv := (fdiv prec emax p0 pe).
Notation fone := (fone prec emax p0 pe).
Notation fzero := (fzero prec emax).
Notation fneg := (fneg prec emax p0 pe).
Notation ffmta := (ffmta prec emax p0 pe).
Notation flt := (flt prec emax).
Notation gam := (gam prec).
Notation v3 := (float * float * float)%type.
Notation RN := (round radix2 (FLT_exp (SpecFloat.emin prec emax) prec) ZnearestE).
Definition rv (v : v3) : r3 := let '(x, y, z) := v in (val x, val y, val z).
Lemma yu0 : 0 < u <= / 32. Proof. apply (du0 prec prec5). Qed.
Lemma ye0 : 0 < eta <= 1. Proof. apply (de0 prec emax pe prec5). Qed.

(* one element of the cross product *)
Lemma fmta_err a b c d : fin (ffmta a b c d) = true -> (fin a = true /\ fin b = true /\ fin c = true /\ fin d = true) /\
  Rabs (val (ffmta a b c d) - (val a * val b + val c * val d)) <= gam 4 * (Rabs (val a * val b) + Rabs (val c * val d)) + 3 * eta.
Proof.
unfold M_Float.ffmta; cbv zeta; intro f; destruct (fadd_inv _ _ _ _ _ _ f) as [ff fe]; destruct (ffma_inv _ _ _ _ _ _ _ ff) as [fa [fb fw]]; destruct (ffma_inv _ _ _ _ _ _ _ fe) as [fd [fc fn]].
split; [auto|]; assert (h4 := sum_round prec emax p0 pe _ _ f).
set (r := val (fadd _ _)) in *; clearbody r; clear f.
assert (h3 := RN_error prec emax p0 (val a * val b + val (fmul d c))); rewrite <- (ffma_val _ _ _ _ _ _ _ ff) in h3; set (g := val (ffma prec emax p0 pe a b (fmul d c))) in *; clearbody g.
assert (h2 := RN_error prec emax p0 (val d * val c + val (fneg (fmul d c)))); rewrite <- (ffma_val _ _ _ _ _ _ _ fe) in h2; set (e := val (ffma prec emax p0 pe d c _)) in *; clearbody e; rewrite (fneg_ok prec emax p0 pe _ fn) in h2.
assert (h1 := prod_round prec emax p0 pe _ _ fw); set (w := val (fmul d c)) in *; clearbody w.
rewrite (Rmult_comm (val c)); set (x := val a * val b) in *; set (y := val d * val c) in *; clearbody x y.
destruct yu0 as [u0 u1]; destruct ye0 as [e0 e1]; assert (zx := Rabs_pos x); assert (zy := Rabs_pos y).
set (W := u * Rabs y + / 2 * eta) in *; assert (W0 : 0 <= W) by (unfold W; nra).
assert (yw : Rabs (y + - w) <= W) by (replace (y + - w) with (- (w - y)) by ring; rewrite Rabs_Ropp; exact h1).
assert (bw : Rabs w <= Rabs y + W) by (replace w with ((w - y) + y) by ring; apply Rle_trans with (1 := Rabs_triang _ _); lra).
assert (bx : Rabs (x + w) <= Rabs x + Rabs y + W) by (apply Rle_trans with (1 := Rabs_triang _ _); lra).
assert (k2 : Rabs (e - (y + - w)) <= u * W + / 2 * eta) by (assert (u * Rabs (y + - w) <= u * W) by (apply Rmult_le_compat_l; lra); lra).
assert (be : Rabs e <= W + u * W + / 2 * eta) by (replace e with ((e - (y + - w)) + (y + - w)) by ring; apply Rle_trans with (1 := Rabs_triang _ _); lra).
assert (k3 : Rabs (g - (x + w)) <= u * (Rabs x + Rabs y + W) + / 2 * eta) by (assert (u * Rabs (x + w) <= u * (Rabs x + Rabs y + W)) by (apply Rmult_le_compat_l; lra); lra).
assert (bg : Rabs g <= (1 + u) * (Rabs x + Rabs y + W) + / 2 * eta) by (replace g with ((g - (x + w)) + (x + w)) by ring; apply Rle_trans with (1 := Rabs_triang _ _); lra).
assert (k4 : Rabs (r - (g + e)) <= u * ((1 + u) * (Rabs x + Rabs y + W) + W + u * W + eta)).
{ apply Rle_trans with (1 := h4), Rmult_le_compat_l; [lra|]; apply Rle_trans with (1 := Rabs_triang _ _); lra. }
replace (r - (x + y)) with ((r - (g + e)) + ((g - (x + w)) + (e - (y + - w)))) by ring; apply Rle_trans with (1 := Rabs_triang _ _).
assert (t := Rabs_triang (g - (x + w)) (e - (y + - w))).
set (X := Rabs x + Rabs y) in *; assert (X0 : 0 <= X) by (unfold X; lra); assert (WX : W <= u * X + / 2 * eta) by (unfold W, X; nra).
apply Rle_trans with (u * ((1 + u) * (X + W) + W + u * W + eta) + (u * (X + W) + u * W) + eta); [lra|].
replace (u * ((1 + u) * (X + W) + W + u * W + eta) + (u * (X + W) + u * W) + eta) with ((2 * u + u ^ 2) * X + (4 * u + 2 * u ^ 2) * W + (1 + u) * eta) by ring.
assert (u2 : 0 <= u ^ 2 <= / 32 * u) by (simpl; nra); assert (c1 : 0 <= 4 * u + 2 * u ^ 2) by lra.
assert (s1 : (4 * u + 2 * u ^ 2) * W <= (4 * u + 2 * u ^ 2) * (u * X + / 2 * eta)) by (apply Rmult_le_compat_l; assumption).
assert (c2 : (2 * u + u ^ 2 + (4 * u + 2 * u ^ 2) * u) * X <= gam 4 * X).
{ apply Rmult_le_compat_r; [exact X0|]; unfold Props_FloatGeo.gam; replace ((1 + u) ^ 4 - 1) with (4 * u + 6 * u ^ 2 + u ^ 3 * (4 + u)) by ring; assert (0 <= u ^ 3) by (apply pow_le; lra); nra. }
assert (c3 : ((4 * u + 2 * u ^ 2) * / 2 + 1 + u) * eta <= 3 * eta) by (apply Rmult_le_compat_r; lra).
lra.
Qed.

Variable M : R.
Hypothesis M0 : 0 <= M.
Notation pm d := ((1 + M) ^ d).
Notation apx := (apx prec emax M).
Lemma apx_neg k d c K x e a : apx k d c K x e a -> apx k d c K (fneg x) (- e) a.
Proof.
intros h f; rewrite (fneg_ok prec emax p0 pe _ f); destruct (fmul_inv _ _ _ _ _ _ f) as [fx _]; destruct (h fx) as [h1 [h2 h3]].
replace (- val x - - e) with (- (val x - e)) by ring; rewrite !Rabs_Ropp; auto.
Qed.
Lemma apx_diff x y : Rabs (val x - val y) <= M -> apx 1 1 1 0 (fsub x y) (val x - val y) (Rabs (val x - val y)).
Proof. intros h f; assert (r := diff_round prec emax p0 pe _ _ f); simpl; repeat split; lra. Qed.
Lemma prod_err q1 q2 x1 x2 e1 e2 a1 a2 : 1 <= q1 -> 1 <= q2 -> Rabs (x1 - e1) <= (q1 - 1) * a1 -> Rabs e1 <= a1 -> Rabs (x2 - e2) <= (q2 - 1) * a2 -> Rabs e2 <= a2 ->
  Rabs (x1 * x2 - e1 * e2) <= (q1 * q2 - 1) * (a1 * a2) /\ Rabs (x1 * x2) <= q1 * q2 * (a1 * a2) /\ Rabs (e1 * e2) <= a1 * a2.
Proof.
intros hq1 hq2 h1 g1 h2 g2; assert (z1 := Rabs_pos e1); assert (z2 := Rabs_pos e2).
assert (b1 : Rabs x1 <= q1 * a1) by (replace x1 with ((x1 - e1) + e1) by ring; apply Rle_trans with (1 := Rabs_triang _ _); lra).
assert (b2 : Rabs x2 <= q2 * a2) by (replace x2 with ((x2 - e2) + e2) by ring; apply Rle_trans with (1 := Rabs_triang _ _); lra).
split; [|split].
- replace (x1 * x2 - e1 * e2) with ((x1 - e1) * x2 + e1 * (x2 - e2)) by ring; apply Rle_trans with (1 := Rabs_triang _ _); rewrite !Rabs_mult.
  assert (Rabs (x1 - e1) * Rabs x2 <= (q1 - 1) * a1 * (q2 * a2)) by (apply Rmult_le_compat; try apply Rabs_pos; assumption).
  assert (Rabs e1 * Rabs (x2 - e2) <= a1 * ((q2 - 1) * a2)) by (apply Rmult_le_compat; try apply Rabs_pos; assumption). lra.
- rewrite Rabs_mult; apply Rle_trans with (q1 * a1 * (q2 * a2)); [apply Rmult_le_compat; try apply Rabs_pos; assumption|apply Req_le; ring].
- rewrite Rabs_mult; apply Rmult_le_compat; try apply Rabs_pos; assumption.
Qed.
Lemma apx_fmta k1 k2 x1 x2 x3 x4 e1 e2 e3 e4 a1 a2 a3 a4 : apx k1 1 1 0 x1 e1 a1 -> apx k2 1 1 0 x2 e2 a2 -> apx k1 1 1 0 x3 e3 a3 -> apx k2 1 1 0 x4 e4 a4 ->
  apx (k1 + k2 + 4) 2 2 3 (ffmta x1 x2 x3 x4) (e1 * e2 + e3 * e4) (a1 * a2 + a3 * a4).
Proof.
intros h1 h2 h3 h4 f; destruct (fmta_err _ _ _ _ f) as [[f1 [f2 [f3 f4]]] E]; destruct yu0 as [u0 u1]; destruct ye0 as [e0 e1'].
destruct (h1 f1) as [r1 [b1 [c1 _]]]; destruct (h2 f2) as [r2 [b2 [c2 _]]]; destruct (h3 f3) as [r3_ [b3 [c3 _]]]; destruct (h4 f4) as [r4 [b4 [c4 _]]].
assert (q1 : 1 <= (1 + u) ^ k1) by (apply pow_R1_Rle; lra); assert (q2 : 1 <= (1 + u) ^ k2) by (apply pow_R1_Rle; lra).
rewrite Rmult_0_l, Rmult_0_l, Rplus_0_r in r1, r2, r3_, r4.
destruct (prod_err _ _ _ _ _ _ _ _ q1 q2 r1 b1 r2 b2) as [P1 [P2 P3]]; destruct (prod_err _ _ _ _ _ _ _ _ q1 q2 r3_ b3 r4 b4) as [P4 [P5 P6]].
rewrite !pow_add; set (q := (1 + u) ^ k1 * (1 + u) ^ k2) in *; set (X := a1 * a2) in *; set (Y := a3 * a4) in *.
assert (g4 := gam0 prec p0 4); assert (pp : 1 <= pm 2) by (apply pow_R1_Rle; lra).
split; [|split; [apply Rle_trans with (1 := Rabs_triang _ _); lra|split; [|split; lra]]].
- match type of E with Rabs (?r - ?s) <= _ => replace (r - (e1 * e2 + e3 * e4)) with ((r - s) + ((val x1 * val x2 - e1 * e2) + (val x3 * val x4 - e3 * e4))) by ring end.
  apply Rle_trans with (1 := Rabs_triang _ _); assert (t := Rabs_triang (val x1 * val x2 - e1 * e2) (val x3 * val x4 - e3 * e4)).
  assert (gam 4 * (Rabs (val x1 * val x2) + Rabs (val x3 * val x4)) <= gam 4 * (q * X + q * Y)) by (apply Rmult_le_compat_l; lra).
  replace ((q * (1 + u) ^ 4 - 1) * (X + Y)) with (gam 4 * (q * X + q * Y) + (q - 1) * X + (q - 1) * Y) by (unfold Props_FloatGeo.gam; ring).
  assert (3 * eta * 1 <= 3 * eta * pm 2) by (apply Rmult_le_compat_l; lra); lra.
- assert (z1 := Rabs_pos e1); assert (z2 := Rabs_pos e2); assert (z3 := Rabs_pos e3); assert (z4 := Rabs_pos e4); rewrite pow_1 in c1, c2, c3, c4; unfold X, Y.
  assert (a1 * a2 <= (1 + M) * (1 + M)) by (apply Rmult_le_compat; lra); assert (a3 * a4 <= (1 + M) * (1 + M)) by (apply Rmult_le_compat; lra); simpl; lra.
Qed.
(* the triple product x . (y x z) *)
Definition near (k : nat) (x : v3) (e : r3) : Prop := let '(x0, x1, x2) := x in
  apx k 1 1 0 x0 (co 0 e) (Rabs (co 0 e)) /\ apx k 1 1 0 x1 (co 1 e) (Rabs (co 1 e)) /\ apx k 1 1 0 x2 (co 2 e) (Rabs (co 2 e)).
Lemma box_apx k1 k2 k3 x y z e1 e2 e3 pad r : (k1 + k2 + k3 <= 3)%nat -> near k1 x e1 -> near k2 y e2 -> near k3 z e3 ->
  dot3 prec emax p0 pe pad x (fcross prec emax p0 pe y z) r -> apx 10 3 6 42 r (box e1 e2 e3) (box_abs e1 e2 e3).
Proof.
intros hk; destruct x as [[x0 x1] x2], y as [[y0 y1] y2], z as [[z0 z1] z2]; intros [a0 [a1 a2]] [b0 [b1 b2]] [c0 [c1 c2]] H.
unfold dot3, fdot, el, fcross in H; cbn [map combine fst snd] in H.
assert (n0 := apx_neg _ _ _ _ _ _ _ b0); assert (n1 := apx_neg _ _ _ _ _ _ _ b1); assert (n2 := apx_neg _ _ _ _ _ _ _ b2).
assert (h0 := apx_fmta _ _ _ _ _ _ _ _ _ _ _ _ _ _ b1 c2 n2 c1); assert (h1 := apx_fmta _ _ _ _ _ _ _ _ _ _ _ _ _ _ b2 c0 n0 c2); assert (h2 := apx_fmta _ _ _ _ _ _ _ _ _ _ _ _ _ _ b0 c1 n1 c0).
assert (m0 := fun h => apx_mul prec emax p0 pe prec5 M M0 _ _ _ _ _ _ _ _ _ _ _ _ _ _ h a0 h0); assert (m1 := fun h => apx_mul prec emax p0 pe prec5 M M0 _ _ _ _ _ _ _ _ _ _ _ _ _ _ h a1 h1).
assert (m2 := fun h => apx_mul prec emax p0 pe prec5 M M0 _ _ _ _ _ _ _ _ _ _ _ _ _ _ h a2 h2); specialize (m0 ltac:(lia)); specialize (m1 ltac:(lia)); specialize (m2 ltac:(lia)).
assert (S := fun h => apx_sum3 prec emax p0 pe prec5 M M0 _ _ _ _ pad _ _ _ _ _ _ _ _ _ r h m0 m1 m2 H); specialize (S ltac:(lia)).
eapply apx_eq; [exact pe|exact prec5|exact M0|exact S|lia|reflexivity|lra|lra| |]; unfold box, box_abs; ring.
Qed.
Lemma near_sub v w : small M (rsub3 (rv v) (rv w)) -> near 1 (sub3 prec emax p0 pe v w) (rsub3 (rv v) (rv w)).
Proof.
destruct v as [[x0 x1] x2], w as [[y0 y1] y2]; intro h; cbn [sub3 rv rsub3]; split; [|split]; apply apx_diff; [apply (h 0%nat)|apply (h 1%nat)|apply (h 2%nat)].
Qed.
Lemma near_leaf v : small M (rv v) -> near 0 v (rv v).
Proof. destruct v as [[x0 x1] x2]; intro h; split; [|split]; apply apx_leaf; [apply (h 0%nat)|apply (h 1%nat)|apply (h 2%nat)]. Qed.
(* the error of a coordinate w computed as (1 / a) n *)
Definition rho (w N D : R) : R := gam 12 * (N + Rabs w * D) + 3100 * eta * pm 6 * (1 + Rabs w).
Lemma coordinate a n D Da N Na : apx 10 3 6 42 a D Da -> apx 10 3 6 42 n N Na -> let w := fmul (fdiv fone a) n in fin a = true -> fin w = true ->
  Rabs (val w * D - N) <= rho (val w) Na Da.
Proof.
intros ha hn w fa fw; unfold w in fw; destruct (fmul_inv _ _ _ _ _ _ fw) as [ff fn]; destruct (fdiv_inv prec emax p0 pe _ _ ff fa) as [_ [a0 ef]].
assert (h2 := prod_round prec emax p0 pe _ _ fw); fold w in h2; assert (h1 := RN_error prec emax p0 (val fone / val a)); rewrite <- ef in h1.
replace (val fone) with 1 in h1 by (symmetry; apply Bone_correct); set (g := val (fdiv fone a)) in *.
assert (Ma := apx_mag prec emax M _ _ _ _ _ _ _ ha fa); assert (Mn := apx_mag prec emax M _ _ _ _ _ _ _ hn fn).
destruct (ha fa) as [A1 [A2 [A3 _]]]; destruct (hn fn) as [N1 [N2 [N3 _]]]; destruct yu0 as [u0 u1]; destruct ye0 as [e0 e1].
assert (D0 : 0 <= Da) by (assert (q := Rabs_pos D); lra); assert (N0 : 0 <= Na) by (assert (q := Rabs_pos N); lra).
assert (P3 : 1 <= pm 3) by (apply pow_R1_Rle; lra); assert (P6 : pm 6 = pm 3 * pm 3) by ring.
assert (q10 := pow2 prec prec5 10 ltac:(lia)).
set (x := val a) in *; set (y := val n) in *; set (p := pm 3) in *.
assert (hx : Rabs (g * x - 1) <= u + / 2 * eta * Rabs x).
{ replace (g * x - 1) with ((g - 1 / x) * x) by (field; exact a0); rewrite Rabs_mult; apply Rle_trans with ((u * Rabs (1 / x) + / 2 * eta) * Rabs x); [apply Rmult_le_compat_r; [apply Rabs_pos|exact h1]|].
  rewrite Rmult_plus_distr_r, Rmult_assoc, <- Rabs_mult; replace (1 / x * x) with 1 by (field; exact a0); rewrite Rabs_R1; lra. }
assert (zx := Rabs_pos x); assert (zy := Rabs_pos y); set (X := Rabs x) in *; set (Y := Rabs y) in *.
assert (bx : Rabs (g * x) <= 1 + u + / 2 * eta * X) by (replace (g * x) with ((g * x - 1) + 1) by ring; apply Rle_trans with (1 := Rabs_triang _ _); rewrite Rabs_R1; lra).
assert (R1 : Rabs (val w * x - y) <= ((1 + u) ^ 2 - 1) * Y + eta * X * (1 + Y)).
{ replace (val w * x - y) with ((val w - g * y) * x + y * (g * x - 1)) by ring; apply Rle_trans with (1 := Rabs_triang _ _); rewrite !Rabs_mult; fold X Y.
  assert (s1 : Rabs (val w - g * y) * X <= (u * Rabs (g * y) + / 2 * eta) * X) by (apply Rmult_le_compat_r; [exact zx|exact h2]).
  assert (s2 : Rabs (g * y) * X = Rabs (g * x) * Y) by (unfold X, Y; rewrite <- !Rabs_mult; f_equal; ring).
  assert (s3 : Y * Rabs (g * x - 1) <= Y * (u + / 2 * eta * X)) by (apply Rmult_le_compat_l; assumption).
  assert (s4 : u * (Rabs (g * x) * Y) <= u * ((1 + u + / 2 * eta * X) * Y)) by (apply Rmult_le_compat_l; [lra|]; apply Rmult_le_compat_r; assumption).
  replace ((u * Rabs (g * y) + / 2 * eta) * X) with (u * (Rabs (g * y) * X) + / 2 * eta * X) in s1 by ring; rewrite s2 in s1.
  assert (e2 : 0 <= eta * X) by (apply Rmult_le_pos; lra); assert (e3 : 0 <= eta * X * Y) by (apply Rmult_le_pos; lra).
  apply Rle_trans with (u * ((1 + u + / 2 * eta * X) * Y) + / 2 * eta * X + Y * (u + / 2 * eta * X)); [lra|].
  replace (u * ((1 + u + / 2 * eta * X) * Y) + / 2 * eta * X + Y * (u + / 2 * eta * X)) with (((1 + u) ^ 2 - 1) * Y + / 2 * (eta * X) + (u * / 2 + / 2) * (eta * X * Y)) by ring.
  assert ((u * / 2 + / 2) * (eta * X * Y) <= 1 * (eta * X * Y)) by (apply Rmult_le_compat_r; lra); lra. }
set (z := 42 * eta * p) in *; assert (ep : 0 <= eta * p) by (apply Rmult_le_pos; lra); assert (z0 : 0 <= z) by (unfold z; lra).
assert (epp : eta * p <= p) by (rewrite <- (Rmult_1_l p) at 2; apply Rmult_le_compat_r; lra).
assert (BX : X <= 54 * p) by (assert ((1 + u) ^ 10 * Da <= 2 * (6 * p)) by (apply Rmult_le_compat; lra); unfold z in *; lra).
assert (BY : Y <= 54 * p) by (assert ((1 + u) ^ 10 * Na <= 2 * (6 * p)) by (apply Rmult_le_compat; lra); unfold z in *; lra).
assert (T1 : eta * X * (1 + Y) <= 2970 * (eta * (p * p))).
{ apply Rle_trans with (eta * (54 * p) * (55 * p)); [|apply Req_le; ring]; apply Rmult_le_compat; try lra; [apply Rmult_le_pos; lra|apply Rmult_le_compat_l; lra]. }
replace (val w * D - N) with ((val w * x - y) + (- (val w * (x - D)) + (y - N))) by ring.
apply Rle_trans with (1 := Rabs_triang _ _); assert (t := Rabs_triang (- (val w * (x - D))) (y - N)); rewrite Rabs_Ropp, Rabs_mult in t.
assert (zw := Rabs_pos (val w)); set (W := Rabs (val w)) in *.
assert (T2 : W * Rabs (x - D) <= W * (((1 + u) ^ 10 - 1) * Da + z)) by (apply Rmult_le_compat_l; assumption).
assert (u2 : 0 <= (1 + u) ^ 2 - 1 <= 1) by (simpl; nra).
assert (T3 : ((1 + u) ^ 2 - 1) * Y <= ((1 + u) ^ 2 - 1) * ((1 + u) ^ 10 * Na + z)) by (apply Rmult_le_compat_l; [lra|exact Mn]).
assert (T4 : W * (((1 + u) ^ 10 - 1) * Da) <= W * (gam 12 * Da)).
{ apply Rmult_le_compat_l; [exact zw|]; apply Rmult_le_compat_r; [exact D0|]; unfold Props_FloatGeo.gam; assert ((1 + u) ^ 10 <= (1 + u) ^ 12) by (apply Rle_pow; [lra|lia]); lra. }
assert (T5 : ((1 + u) ^ 2 - 1) * z <= 1 * z) by (apply Rmult_le_compat_r; lra).
assert (pq : eta * p <= eta * (p * p)) by (apply Rmult_le_compat_l; [lra|]; nra).
assert (T6 : W * z <= 42 * (W * (eta * (p * p)))) by (unfold z; replace (W * (42 * eta * p)) with (42 * (W * (eta * p))) by ring; apply Rmult_le_compat_l; [lra|]; apply Rmult_le_compat_l; assumption).
unfold rho; rewrite P6; fold W.
replace (gam 12 * (Na + W * Da) + 3100 * eta * (p * p) * (1 + W)) with ((((1 + u) ^ 2 - 1) * ((1 + u) ^ 10 * Na) + ((1 + u) ^ 10 - 1) * Na) + W * (gam 12 * Da) + 3100 * (eta * (p * p)) + 3100 * (W * (eta * (p * p)))) by (unfold Props_FloatGeo.gam; ring).
assert (0 <= W * (eta * (p * p))) by (apply Rmult_le_pos; [exact zw|nra]).
unfold z in *; lra.
Qed.
Lemma eps_val : val (feps prec emax p0 pe) = bpow radix2 (1 - prec) /\ fin (feps prec emax p0 pe) = true.
Proof.
assert (h := binary_normalize_correct prec emax p0 pe mode_NE 1 (1 - prec) false); cbn [round_mode] in h; unfold feps.
assert (E : F2R (Float radix2 1 (1 - prec)) = bpow radix2 (1 - prec)) by (unfold F2R; simpl; ring); rewrite E in h; unfold Prec_lt_emax in pe.
rewrite round_generic in h; [|auto with typeclass_instances|apply generic_format_bpow; unfold SpecFloat.fexp, SpecFloat.emin; lia].
rewrite Rlt_bool_true in h; [tauto|]; rewrite Rabs_right by (apply Rle_ge, bpow_ge_0); apply bpow_lt; lia.
Qed.
Lemma one_val : val fone = 1 /\ fin fone = true.
Proof. split; [apply Bone_correct|apply is_finite_Bone]. Qed.
Lemma nlt x y : fin x = true -> fin y = true -> flt x y = false -> val y <= val x.
Proof. intros fx fy h; apply Rnot_lt_le; intro l; apply (flt_val prec emax x y fx fy) in l; congruence. Qed.

Section Query.
Variables (pad : nat) (base dir A B C : v3) (a nu nv nt : float) (P : option v3).
Hypothesis run : fray_triangle prec emax p0 pe pad base dir A B C a nu nv nt P.
Notation d := (rv dir).
Notation e1 := (rsub3 (rv B) (rv A)).
Notation e2 := (rsub3 (rv C) (rv A)).
Notation s := (rsub3 (rv base) (rv A)).
Notation U := (fmul (fdiv fone a) nu).
Notation V := (fmul (fdiv fone a) nv).
Notation T := (fmul (fdiv fone a) nt).
Hypothesis bounds : small M d /\ small M e1 /\ small M e2 /\ small M s.
Hypothesis finite : fin a = true /\ fin U = true /\ fin V = true /\ fin (fadd U V) = true /\ fin T = true.
Notation D := (box e1 d e2).
Notation Da := (box_abs e1 d e2).
(* bounds of the errors of the coordinates computed *)
Notation ru := (rho (val U) (box_abs s d e2) Da).
Notation rw := (rho (val V) (box_abs d s e1) Da).
Notation rt := (rho (val T) (box_abs e2 s e1) Da).
Lemma D_apx : apx 10 3 6 42 a D Da.
Proof. destruct bounds as [b1 [b2 [b3 b4]]]; destruct run as [H _]; refine (box_apx 1 0 1 _ _ _ e1 d e2 pad a _ _ _ _ H); [lia|apply near_sub, b2|apply near_leaf, b1|apply near_sub, b3]. Qed.
Lemma U_apx : dot3 prec emax p0 pe pad (sub3 prec emax p0 pe base A) (fcross prec emax p0 pe dir (sub3 prec emax p0 pe C A)) nu -> Rabs (val U * D - box s d e2) <= ru.
Proof.
destruct bounds as [b1 [b2 [b3 b4]]]; destruct finite as [fa [fU _]]; intro H; apply coordinate; [exact D_apx| |exact fa|exact fU].
refine (box_apx 1 0 1 _ _ _ s d e2 pad nu _ _ _ _ H); [lia|apply near_sub, b4|apply near_leaf, b1|apply near_sub, b3].
Qed.
Lemma V_apx : dot3 prec emax p0 pe pad dir (fcross prec emax p0 pe (sub3 prec emax p0 pe base A) (sub3 prec emax p0 pe B A)) nv -> Rabs (val V * D - box d s e1) <= rw.
Proof.
destruct bounds as [b1 [b2 [b3 b4]]]; destruct finite as [fa [_ [fV _]]]; intro H; apply coordinate; [exact D_apx| |exact fa|exact fV].
refine (box_apx 0 1 1 _ _ _ d s e1 pad nv _ _ _ _ H); [lia|apply near_leaf, b1|apply near_sub, b4|apply near_sub, b2].
Qed.
Lemma T_apx : dot3 prec emax p0 pe pad (sub3 prec emax p0 pe C A) (fcross prec emax p0 pe (sub3 prec emax p0 pe base A) (sub3 prec emax p0 pe B A)) nt -> Rabs (val T * D - box e2 s e1) <= rt.
Proof.
destruct bounds as [b1 [b2 [b3 b4]]]; destruct finite as [fa [_ [_ [_ fT]]]]; intro H; apply coordinate; [exact D_apx| |exact fa|exact fT].
refine (box_apx 1 1 1 _ _ _ e2 s e1 pad nt _ _ _ _ H); [lia|apply near_sub, b3|apply near_sub, b4|apply near_sub, b2].
Qed.
(* a point is returned: it is on the ray, beyond its base, and near a point of the triangle *)
Theorem C102_hit Q : P = Some Q ->
  (0 <= val U <= 1 /\ 0 <= val V /\ (1 - u) * (val U + val V) <= 1 /\ bpow radix2 (1 - prec) <= val T) /\
  Rabs D >= bpow radix2 (1 - prec) - (gam 10 * Da + 42 * eta * pm 3) /\
  (forall i, Rabs D * Rabs ((co i (rv base) + val T * co i d) - (co i (rv A) + val U * co i e1 + val V * co i e2)) <= rt * Rabs (co i d) + ru * Rabs (co i e1) + rw * Rabs (co i e2)) /\
  (let '(x, y, z) := Q in fin x = true -> fin y = true -> fin z = true ->
   forall i, Rabs (co i (rv Q) - (co i (rv base) + val T * co i d)) <= gam 2 * (Rabs (co i (rv base)) + Rabs (val T * co i d)) + (1 + u) * (/ 2 * eta)).
Proof.
intros HP; assert (UA := U_apx); assert (VA := V_apx); assert (TA := T_apx); assert (DA := D_apx); destruct finite as [fa [fU [fV [fUV fT]]]]; destruct eps_val as [ev ef]; destruct one_val as [ov of_]; destruct run as [H0 H].
destruct (flt (fabs prec emax a) (feps prec emax p0 pe)) eqn:c0; [congruence|]; cbv zeta in H; destruct H as [H1 H]; specialize (UA H1).
destruct (flt U fzero || flt fone U)%bool eqn:c1; [congruence|]; destruct H as [H2 H]; specialize (VA H2).
destruct (flt V fzero || flt fone (fadd U V))%bool eqn:c2; [congruence|]; destruct H as [H3 H]; specialize (TA H3).
destruct (flt T (feps prec emax p0 pe)) eqn:c3; [congruence|]; rewrite HP in H; injection H as ->.
apply orb_false_elim in c1; apply orb_false_elim in c2; destruct c1 as [c11 c12], c2 as [c21 c22].
assert (fz : fin fzero = true) by reflexivity; assert (vz : val fzero = 0) by reflexivity.
assert (l1 := nlt _ _ fU fz c11); assert (l2 := nlt _ _ of_ fU c12); assert (l3 := nlt _ _ fV fz c21); assert (l4 := nlt _ _ of_ fUV c22); assert (l5 := nlt _ _ fT ef c3).
assert (fb : fin (fabs prec emax a) = true) by (unfold fabs; rewrite is_finite_Babs; exact fa).
assert (l0 := nlt _ _ fb ef c0); unfold fabs in l0; rewrite B2R_Babs in l0.
rewrite ov in *; rewrite vz in *; rewrite ev in *.
split; [|split; [|split]].
- assert (r := sum_round prec emax p0 pe _ _ fUV); rewrite (Rabs_right (val U + val V)) in r by lra; apply Rabs_le_inv in r; repeat split; lra.
- destruct (DA fa) as [q _]; assert (t := Rabs_triang D (val a - D)); replace (D + (val a - D)) with (val a) in t by ring; unfold Props_FloatGeo.gam; lra.
- intro i; assert (c := cramer d e1 e2 s i); rewrite <- Rabs_mult.
  assert (si : co i s = co i (rv base) - co i (rv A)) by (destruct base as [[x0 x1] x2], A as [[y0 y1] y2]; destruct i as [|[|i]]; reflexivity).
  set (di := co i d) in *; set (ai := co i e1) in *; set (bi := co i e2) in *; set (bs := co i (rv base)) in *; set (Ai := co i (rv A)) in *; rewrite si in c.
  replace (D * (bs + val T * di - (Ai + val U * ai + val V * bi))) with ((val T * D - box e2 s e1) * di + (- ((val U * D - box s d e2) * ai) + - ((val V * D - box d s e1) * bi))) by lra.
  apply Rle_trans with (1 := Rabs_triang _ _); assert (t := Rabs_triang (- ((val U * D - box s d e2) * ai)) (- ((val V * D - box d s e1) * bi))); rewrite !Rabs_Ropp in t; rewrite !Rabs_mult in *.
  assert (Rabs (val T * D - box e2 s e1) * Rabs di <= rt * Rabs di) by (apply Rmult_le_compat_r; [apply Rabs_pos|exact TA]).
  assert (Rabs (val U * D - box s d e2) * Rabs ai <= ru * Rabs ai) by (apply Rmult_le_compat_r; [apply Rabs_pos|exact UA]).
  assert (Rabs (val V * D - box d s e1) * Rabs bi <= rw * Rabs bi) by (apply Rmult_le_compat_r; [apply Rabs_pos|exact VA]). lra.
- clear - p0 pe; destruct base as [[x0 x1] x2], dir as [[y0 y1] y2]; cbn [point3 rv]; intros f0 f1 f2.
  assert (K : forall x y, fin (fadd x (fmul T y)) = true -> Rabs (val (fadd x (fmul T y)) - (val x + val T * val y)) <= gam 2 * (Rabs (val x) + Rabs (val T * val y)) + (1 + u) * (/ 2 * eta)).
  { intros x y f; destruct (fadd_inv _ _ _ _ _ _ f) as [fx fm]; apply (muladd_err prec emax p0 pe _ _ (val (fmul T y))); [apply prod_round, fm|apply sum_round, f]. }
  intros [|[|i]]; cbn [co]; apply K; assumption.
Qed.
(* no point is returned: the ray is nearly parallel to the triangle, or a coordinate is out of range up to its error *)
Theorem C102_miss : P = None ->
  Rabs D <= bpow radix2 (1 - prec) + (gam 10 * Da + 42 * eta * pm 3) \/
  (Rabs (val U * D - box s d e2) <= ru /\ (val U < 0 \/ 1 < val U \/
   (Rabs (val V * D - box d s e1) <= rw /\ (val V < 0 \/ 1 < (1 + u) * (val U + val V) \/
    (Rabs (val T * D - box e2 s e1) <= rt /\ val T < bpow radix2 (1 - prec)))))).
Proof.
intros HP; assert (UA := U_apx); assert (VA := V_apx); assert (TA := T_apx); assert (DA := D_apx); destruct finite as [fa [fU [fV [fUV fT]]]]; destruct eps_val as [ev ef]; destruct one_val as [ov of_]; destruct run as [H0 H].
assert (fz : fin fzero = true) by reflexivity; assert (vz : val fzero = 0) by reflexivity.
assert (fb : fin (fabs prec emax a) = true) by (unfold fabs; rewrite is_finite_Babs; exact fa).
destruct (flt (fabs prec emax a) (feps prec emax p0 pe)) eqn:c0.
{ left; apply (flt_val prec emax _ _ fb ef) in c0; unfold fabs in c0; rewrite B2R_Babs, ev in c0; destruct (DA fa) as [q _].
  assert (t := Rabs_triang (val a) (D - val a)); replace (val a + (D - val a)) with D in t by ring; rewrite (Rabs_minus_sym D) in t; unfold Props_FloatGeo.gam; lra. }
right; cbv zeta in H; destruct H as [H1 H]; split; [exact (UA H1)|].
destruct (flt U fzero) eqn:c1; [left; apply (flt_val prec emax _ _ fU fz) in c1; rewrite vz in c1; exact c1|].
destruct (flt fone U) eqn:c2; [right; left; apply (flt_val prec emax _ _ of_ fU) in c2; rewrite ov in c2; exact c2|].
right; right; cbn [orb] in H; destruct H as [H2 H]; split; [exact (VA H2)|].
destruct (flt V fzero) eqn:c3; [left; apply (flt_val prec emax _ _ fV fz) in c3; rewrite vz in c3; exact c3|].
destruct (flt fone (fadd U V)) eqn:c4.
{ right; left; apply (flt_val prec emax _ _ of_ fUV) in c4; rewrite ov in c4; assert (l1 := nlt _ _ fU fz c1); assert (l3 := nlt _ _ fV fz c3); rewrite vz in *.
  assert (r := sum_round prec emax p0 pe _ _ fUV); rewrite (Rabs_right (val U + val V)) in r by lra; apply Rabs_le_inv in r; lra. }
right; right; cbn [orb] in H; destruct H as [H3 H]; split; [exact (TA H3)|].
destruct (flt T (feps prec emax p0 pe)) eqn:c5; [|congruence]; apply (flt_val prec emax _ _ fT ef) in c5; rewrite ev in c5; exact c5.
Qed.
End Query.
End FloatRay.
Print Assumptions C102_hit.
Print Assumptions C102_miss.

(** * Concrete cases in double precision *)
Notation fl := (binary_float 53 1024).
Ltac dvm := rewrite <- SF2R_B2SF; match goal with |- context [B2SF ?x] => let y := eval vm_compute in (B2SF x) in replace (B2SF x) with y by (vm_compute; reflexivity) end; simpl; unfold F2R; simpl.
Notation ysub := (sub3 53 1024 eq_refl eq_refl).
Notation ycross := (M_Float.fcross 53 1024 eq_refl eq_refl).
Definition ydot (v w : fl * fl * fl) : fl := let '(a, b, c) := v in let '(x, y, z) := w in
  M_Float.fadd 53 1024 eq_refl eq_refl (M_Float.fadd 53 1024 eq_refl eq_refl (M_Float.fmul 53 1024 eq_refl eq_refl a x) (M_Float.fmul 53 1024 eq_refl eq_refl b y)) (M_Float.fmul 53 1024 eq_refl eq_refl c z).
Lemma ydot_run v w : dot3 53 1024 eq_refl eq_refl 0 v w (ydot v w).
Proof. destruct v as [[a b] c], w as [[x y] z]; unfold ydot, dot3, fdot, fsum; simpl; apply (fred_app _ _ _ [_; _] [_]); [apply (fred_app _ _ _ [_] [_])|]; apply fred_one. Qed.
Ltac decide_flt := match goal with |- if ?b then _ else _ => let x := eval vm_compute in b in replace b with x by (symmetry; vm_compute; reflexivity); cbv iota end.
(* a ray through the inside of a triangle whose edges have length 2^-27: the determinant is below the fixed threshold *)
Theorem C102_small_refuted : exists (b d A B C : fl * fl * fl) a nu nv nt, fray_triangle 53 1024 eq_refl eq_refl 0 b d A B C a nu nv nt None /\
  exists u v t, 0 < u /\ 0 < v /\ u + v < 1 /\ 0 < t /\
    forall i, co i (rv 53 1024 b) + t * co i (rv 53 1024 d) = co i (rv 53 1024 A) + u * co i (rsub3 (rv 53 1024 B) (rv 53 1024 A)) + v * co i (rsub3 (rv 53 1024 C) (rv 53 1024 A)).
Proof.
set (b := (dbl 1 (-29), dbl 1 (-29), dbl (-1) 0)); set (d := (dbl 0 0, dbl 0 0, dbl 1 0)); set (A := (dbl 0 0, dbl 0 0, dbl 0 0)); set (B := (dbl 1 (-27), dbl 0 0, dbl 0 0)); set (C := (dbl 0 0, dbl 1 (-27), dbl 0 0)).
exists b, d, A, B, C, (ydot (ysub B A) (ycross d (ysub C A))), (dbl 0 0), (dbl 0 0), (dbl 0 0); split.
- split; [apply ydot_run|]; unfold b, d, A, B, C; decide_flt; reflexivity.
- exists (/ 4), (/ 4), 1; do 4 (split; [lra|]).
  assert (v0 : B2R (dbl 0 0) = 0) by (dvm; lra); assert (v1 : B2R (dbl 1 0) = 1) by (dvm; lra); assert (v2 : B2R (dbl (-1) 0) = -1) by (dvm; lra).
  assert (v3 : B2R (dbl 1 (-27)) = / IZR (2 ^ 27)) by (dvm; lra); assert (v4 : B2R (dbl 1 (-29)) = / IZR (2 ^ 29)) by (dvm; lra).
  unfold b, d, A, B, C; intros [|[|i]]; cbn [rv rsub3 co]; rewrite ?v0, ?v1, ?v2, ?v3, ?v4; simpl (2 ^ _)%Z; lra.
Qed.
Print Assumptions C102_small_refuted.
(* a ray through the inside of a triangle of ordinary size: missed *)
Theorem C102_interior_refuted : exists (b d A B C : fl * fl * fl) a nu nv nt, fray_triangle 53 1024 eq_refl eq_refl 0 b d A B C a nu nv nt None /\
  box (rsub3 (rv 53 1024 B) (rv 53 1024 A)) (rv 53 1024 d) (rsub3 (rv 53 1024 C) (rv 53 1024 A)) < - / 2 /\
  exists u v t, 0 < u /\ 0 < v /\ u + v < 1 /\ 1 < t /\
    forall i, co i (rv 53 1024 b) + t * co i (rv 53 1024 d) = co i (rv 53 1024 A) + u * co i (rsub3 (rv 53 1024 B) (rv 53 1024 A)) + v * co i (rsub3 (rv 53 1024 C) (rv 53 1024 A)).
Proof.
set (b := (dbl 1 0, dbl (-3) 0, dbl (-1) 0)); set (d := (dbl 3602879701896397 (-55), dbl 6305039478318695 (-54), dbl 3602879701896397 (-56))).
set (A := (dbl 2 0, dbl (-2) 0, dbl 0 0)); set (B := (dbl 2 0, dbl 3 0, dbl (-1) 0)); set (C := (dbl 0 0, dbl 0 0, dbl (-1) 0)).
exists b, d, A, B, C, (ydot (ysub B A) (ycross d (ysub C A))), (ydot (ysub b A) (ycross d (ysub C A))), (ydot d (ycross (ysub b A) (ysub B A))), (dbl 0 0); split.
- split; [apply ydot_run|]; unfold b, d, A, B, C; decide_flt; split; [apply ydot_run|]; cbv zeta; decide_flt; split; [apply ydot_run|]; cbv zeta; decide_flt; reflexivity.
- assert (v0 : B2R (dbl 0 0) = 0) by (dvm; lra); assert (v1 : B2R (dbl 1 0) = 1) by (dvm; lra); assert (v2 : B2R (dbl (-1) 0) = -1) by (dvm; lra); assert (v3 : B2R (dbl 2 0) = 2) by (dvm; lra); assert (v4 : B2R (dbl (-2) 0) = -2) by (dvm; lra).
  assert (v5 : B2R (dbl 3 0) = 3) by (dvm; lra); assert (v6 : B2R (dbl (-3) 0) = -3) by (dvm; lra); assert (v7 : B2R (dbl 3602879701896397 (-55)) = 3602879701896397 / IZR (2 ^ 55)) by (dvm; lra).
  assert (v8 : B2R (dbl 6305039478318695 (-54)) = 6305039478318695 / IZR (2 ^ 54)) by (dvm; lra); assert (v9 : B2R (dbl 3602879701896397 (-56)) = 3602879701896397 / IZR (2 ^ 56)) by (dvm; lra).
  unfold b, d, A, B, C; split; [unfold box; cbn [rv rsub3 co]; rewrite ?v0, ?v1, ?v2, ?v3, ?v4, ?v5, ?v6, ?v7, ?v8, ?v9; simpl (2 ^ _)%Z; lra|].
  exists (/ 2), (/ 64851834634135148), (162129586585337856 / 16212958658533787); do 4 (split; [lra|]).
  intros [|[|i]]; cbn [rv rsub3 co]; rewrite ?v0, ?v1, ?v2, ?v3, ?v4, ?v5, ?v6, ?v7, ?v8, ?v9; simpl (2 ^ _)%Z; lra.
Qed.
Print Assumptions C102_interior_refuted.
(* the triangle (0, 0, 0), (4, 0, 0), (0, 4, 0) and the ray from (1, 1, -1) in direction (0, 0, 1) *)
Definition ex_b : fl * fl * fl := (dbl 1 0, dbl 1 0, dbl (-1) 0).
Definition ex_d : fl * fl * fl := (dbl 0 0, dbl 0 0, dbl 1 0).
Definition ex_A : fl * fl * fl := (dbl 0 0, dbl 0 0, dbl 0 0).
Definition ex_B : fl * fl * fl := (dbl 4 0, dbl 0 0, dbl 0 0).
Definition ex_C : fl * fl * fl := (dbl 0 0, dbl 4 0, dbl 0 0).
Definition ex_a := ydot (ysub ex_B ex_A) (ycross ex_d (ysub ex_C ex_A)).
Definition ex_coord n := M_Float.fmul 53 1024 eq_refl eq_refl (M_Float.fdiv 53 1024 eq_refl eq_refl (M_Float.fone 53 1024 eq_refl eq_refl) ex_a) n.
Definition ex_nu := ydot (ysub ex_b ex_A) (ycross ex_d (ysub ex_C ex_A)).
Definition ex_nv := ydot ex_d (ycross (ysub ex_b ex_A) (ysub ex_B ex_A)).
Definition ex_nt := ydot (ysub ex_C ex_A) (ycross (ysub ex_b ex_A) (ysub ex_B ex_A)).
Example C102_example : fray_triangle 53 1024 eq_refl eq_refl 0 ex_b ex_d ex_A ex_B ex_C ex_a ex_nu ex_nv ex_nt (Some (point3 53 1024 eq_refl eq_refl ex_b ex_d (ex_coord ex_nt))) /\
  is_finite ex_a = true /\ is_finite (ex_coord ex_nu) = true /\ is_finite (ex_coord ex_nv) = true /\ is_finite (M_Float.fadd 53 1024 eq_refl eq_refl (ex_coord ex_nu) (ex_coord ex_nv)) = true /\ is_finite (ex_coord ex_nt) = true /\
  B2R (ex_coord ex_nu) = / 4 /\ B2R (ex_coord ex_nv) = / 4 /\ B2R (ex_coord ex_nt) = 1 /\
  small 4 (rv 53 1024 ex_d) /\ small 4 (rsub3 (rv 53 1024 ex_B) (rv 53 1024 ex_A)) /\ small 4 (rsub3 (rv 53 1024 ex_C) (rv 53 1024 ex_A)) /\ small 4 (rsub3 (rv 53 1024 ex_b) (rv 53 1024 ex_A)).
Proof.
split.
{ split; [apply ydot_run|]; decide_flt; split; [apply ydot_run|]; cbv zeta; decide_flt; split; [apply ydot_run|]; cbv zeta; decide_flt; split; [apply ydot_run|]; cbv zeta; decide_flt; reflexivity. }
do 5 (split; [vm_compute; reflexivity|]); do 3 (split; [dvm; lra|]).
assert (v0 : B2R (dbl 0 0) = 0) by (dvm; lra); assert (v1 : B2R (dbl 1 0) = 1) by (dvm; lra); assert (v2 : B2R (dbl (-1) 0) = -1) by (dvm; lra); assert (v3 : B2R (dbl 4 0) = 4) by (dvm; lra).
unfold ex_b, ex_d, ex_A, ex_B, ex_C; repeat split; intros [|[|i]]; cbn [rv rsub3 co]; rewrite ?v0, ?v1, ?v2, ?v3; apply Rabs_le; lra.
Qed.
