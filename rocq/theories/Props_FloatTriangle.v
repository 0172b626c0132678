(* C101: area and centroid of a triangle in floating point. *)
From Coq Require Import ZArith List Arith Bool Reals Lia Lra Psatz.
From Flocq Require Import Core Relative IEEE754.BinarySingleNaN.
From Verif Require Import M_Float P_Float P_FloatD M_FloatN P_FloatN M_FloatS M_FloatLU P_FloatLU P_FloatTri P_Norm P_FloatHH M_FloatDet M_FloatTriangle Props_Float Props_FloatN Props_FloatS Props_FloatDet Props_FloatGeo P_FloatSVD.
Import ListNotations.
Local Open Scope R_scope.

(** * Triangles with real corners *)
Definition rsubs (a b : list R) : list R := map (fun p => fst p - snd p) (combine a b).
Definition rdot (a b : list R) : R := Rsum (map (fun p => fst p * snd p) (combine a b)).
(* the distance of two points *)
Definition rdist (a b : list R) : R := sqrt (rdot (rsubs a b) (rsubs a b)).
(* the square of the area of the triangle a b c: a quarter of the Gram determinant of b - a and c - a *)
Definition area_squared (a b c : list R) : R := let x := rsubs b a in let y := rsubs c a in (rdot x x * rdot y y - rdot x y ^ 2) / 4.
(* Heron's polynomial *)
Definition heron (a b c : R) : R := let s := (a + b + c) / 2 in s * (s - a) * (s - b) * (s - c).
Lemma rdot_cons x y a b : rdot (x :: a) (y :: b) = x * y + rdot a b.
Proof. reflexivity. Qed.
Lemma rsubs_cons x y a b : rsubs (x :: a) (y :: b) = (x - y) :: rsubs a b.
Proof. reflexivity. Qed.
Lemma rdot_pos a : 0 <= rdot a a.
Proof. induction a as [|x a IH]; [unfold rdot, Rsum; simpl; lra|]; rewrite rdot_cons; nra. Qed.
Lemma rdist_sq a b : rdist a b ^ 2 = rdot (rsubs a b) (rsubs a b).
Proof. unfold rdist; simpl; rewrite Rmult_1_r; apply sqrt_sqrt, rdot_pos. Qed.
Lemma rdist_sym a b : rdot (rsubs a b) (rsubs a b) = rdot (rsubs b a) (rsubs b a).
Proof. revert b; induction a as [|x a IH]; intros [|y b]; try reflexivity; rewrite !rsubs_cons, !rdot_cons, IH; ring. Qed.
Lemma cosine a : forall b c, length b = length a -> length c = length a ->
  rdot (rsubs b c) (rsubs b c) = rdot (rsubs b a) (rsubs b a) + rdot (rsubs c a) (rsubs c a) - 2 * rdot (rsubs b a) (rsubs c a).
Proof.
induction a as [|x a IH]; intros [|y b] [|z c] h1 h2; try discriminate; [unfold rdot, Rsum; simpl; ring|]; injection h1 as h1; injection h2 as h2.
rewrite !rsubs_cons, !rdot_cons, (IH b c h1 h2); ring.
Qed.
(* Heron's formula *)
Lemma heron_area a b c : length b = length a -> length c = length a -> heron (rdist a b) (rdist a c) (rdist b c) = area_squared a b c.
Proof.
intros h1 h2; transitivity ((4 * rdist a b ^ 2 * rdist a c ^ 2 - (rdist a b ^ 2 + rdist a c ^ 2 - rdist b c ^ 2) ^ 2) / 16); [unfold heron; field|].
rewrite !rdist_sq, (rdist_sym a b), (rdist_sym a c), (cosine a b c h1 h2); unfold area_squared; field.
Qed.
Lemma rdot_comb t a : forall b, length b = length a -> let c := map (fun p => fst p - t * snd p) (combine a b) in rdot c c = rdot a a - 2 * t * rdot a b + t ^ 2 * rdot b b.
Proof.
induction a as [|x a IH]; intros [|y b] h; try discriminate; [unfold rdot, Rsum; simpl; ring|]; injection h as h.
specialize (IH b h); cbn zeta in *; cbn [combine map fst snd]; rewrite !rdot_cons, IH; ring.
Qed.
Lemma rdot_cauchy a b : length b = length a -> rdot a b ^ 2 <= rdot a a * rdot b b.
Proof.
intro h; assert (q : forall t, 0 <= rdot a a - 2 * t * rdot a b + t ^ 2 * rdot b b) by (intro t; rewrite <- rdot_comb by exact h; apply rdot_pos).
assert (pa := rdot_pos a); assert (pb := rdot_pos b); set (X := rdot a a) in *; set (Y := rdot b b) in *; set (P := rdot a b) in *.
destruct (Req_dec Y 0) as [z|z].
- destruct (Req_dec P 0) as [zp|zp]; [rewrite zp; simpl; nra|]; exfalso; assert (w := q ((X + 1) / (2 * P))); rewrite z in w.
  replace (X - 2 * ((X + 1) / (2 * P)) * P + ((X + 1) / (2 * P)) ^ 2 * 0) with (- (1)) in w by (field; exact zp); lra.
- assert (w := q (P / Y)); replace (X - 2 * (P / Y) * P + (P / Y) ^ 2 * Y) with ((X * Y - P ^ 2) * / Y) in w by (field; exact z).
  assert (0 < / Y) by (apply Rinv_0_lt_compat; lra); apply Rnot_lt_le; intro l; assert ((X * Y - P ^ 2) * / Y < 0) by nra; lra.
Qed.
Lemma area_pos a b c : length b = length a -> length c = length a -> 0 <= area_squared a b c.
Proof.
intros h1 h2; unfold area_squared; assert (q := rdot_cauchy (rsubs b a) (rsubs c a)); unfold rsubs in q at 1 2; rewrite !map_length, !combine_length, h1, h2 in q.
specialize (q eq_refl); cbn zeta; lra.
Qed.
Lemma heron_sym a b c : heron a b c = heron b a c. Proof. unfold heron; field. Qed.
Lemma heron_sym' a b c : heron a b c = heron a c b. Proof. unfold heron; field. Qed.
Lemma abs_sq a N : Rabs a <= N -> 0 <= a ^ 2 <= N ^ 2.
Proof. intro h; split; [apply pow2_ge_0|]; rewrite <- (pow2_abs a); assert (q := Rabs_pos a); apply pow_incr; lra. Qed.
Lemma heron_step a a' b c N : Rabs a <= N -> Rabs a' <= N -> Rabs b <= N -> Rabs c <= N -> Rabs (heron a b c - heron a' b c) <= N ^ 3 / 2 * Rabs (a - a').
Proof.
intros h1 h2 h3 h4; replace (heron a b c - heron a' b c) with ((a - a') * ((a + a') * (2 * b ^ 2 + 2 * c ^ 2 - a ^ 2 - a' ^ 2) / 16)) by (unfold heron; field).
rewrite Rabs_mult, Rmult_comm; apply Rmult_le_compat_r; [apply Rabs_pos|]; unfold Rdiv; rewrite !Rabs_mult, (Rabs_right (/ 16)) by lra.
assert (N0 : 0 <= N) by (assert (q := Rabs_pos a); lra).
assert (t1 : Rabs (a + a') <= 2 * N) by (apply Rle_trans with (1 := Rabs_triang _ _); lra).
assert (t2 : Rabs (2 * b ^ 2 + 2 * c ^ 2 - a ^ 2 - a' ^ 2) <= 4 * N ^ 2).
{ assert (q1 := abs_sq a N h1); assert (q2 := abs_sq a' N h2); assert (q3 := abs_sq b N h3); assert (q4 := abs_sq c N h4); apply Rabs_le; lra. }
apply Rle_trans with (2 * N * (4 * N ^ 2) * / 16); [|apply Req_le; field]; apply Rmult_le_compat_r; [lra|]; apply Rmult_le_compat; try apply Rabs_pos; assumption.
Qed.
Lemma heron_lip a a' b b' c c' N d : Rabs a <= N -> Rabs a' <= N -> Rabs b <= N -> Rabs b' <= N -> Rabs c <= N -> Rabs c' <= N ->
  Rabs (a - a') <= d -> Rabs (b - b') <= d -> Rabs (c - c') <= d -> Rabs (heron a b c - heron a' b' c') <= 3 / 2 * N ^ 3 * d.
Proof.
intros; assert (s1 := heron_step a a' b c N); assert (s2 := heron_step b b' a' c N); assert (s3 := heron_step c c' a' b' N).
rewrite (heron_sym b), (heron_sym b') in s2; rewrite (heron_sym c), (heron_sym' a' c), (heron_sym c'), (heron_sym' a' c') in s3.
assert (N0 : 0 <= N ^ 3 / 2) by (assert (q := Rabs_pos a); assert (0 <= N ^ 3) by (apply pow_le; lra); lra).
assert (m : forall t, t <= d -> N ^ 3 / 2 * t <= N ^ 3 / 2 * d) by (intros; apply Rmult_le_compat_l; assumption).
specialize (s1 ltac:(assumption) ltac:(assumption) ltac:(assumption) ltac:(assumption)); specialize (s2 ltac:(assumption) ltac:(assumption) ltac:(assumption) ltac:(assumption)); specialize (s3 ltac:(assumption) ltac:(assumption) ltac:(assumption) ltac:(assumption)).
assert (m1 := m (Rabs (a - a')) ltac:(assumption)); assert (m2 := m (Rabs (b - b')) ltac:(assumption)); assert (m3 := m (Rabs (c - c')) ltac:(assumption)).
replace (heron a b c - heron a' b' c') with ((heron a b c - heron a' b c) + ((heron a' b c - heron a' b' c) + (heron a' b' c - heron a' b' c'))) by ring.
apply Rle_trans with (1 := Rabs_triang _ _); assert (t := Rabs_triang (heron a' b c - heron a' b' c) (heron a' b' c - heron a' b' c')); lra.
Qed.

Section FloatTriangle.
Variables prec emax : Z.
Context (p0 : Prec_gt_0 prec) (pe : Prec_lt_emax prec emax).
Hypothesis prec5 : (5 <= prec)%Z.
Hypothesis range1 : (2 * prec <= emax)%Z.
Hypothesis range2 : (prec + 7 <= emax)%Z.
Notation float := (binary_float prec emax).
Notation val := (@B2R prec emax).
Notation fin := (@is_finite prec emax).
Notation u := (u prec).
Notation eta := (eta prec emax).
Notation fadd := (fadd prec emax p0 pe).
Notation fsub := (fsub prec emax p0 pe).
Notation fmul := (fmul prec emax p0 pe).
Notation fdiv := (fdiv prec emax p0 pe).
Notation fsqrt := (fsqrt prec emax p0 pe).
Notation gam := (gam prec).
Notation RN := (round radix2 (FLT_exp (SpecFloat.emin prec emax) prec) ZnearestE).
Variable fmax : float -> float -> float.
Hypothesis fmaxP : forall x y : float, is_nan x = false -> is_nan y = false -> fmax x y = if flt prec emax x y then y else x.
Lemma const_val m e : (SpecFloat.emin prec emax <= e)%Z -> (Z.abs m < 2 ^ prec)%Z -> Rabs (F2R (Float radix2 m e)) < bpow radix2 emax ->
  val (binary_normalize prec emax p0 pe mode_NE m e false) = F2R (Float radix2 m e) /\ fin (binary_normalize prec emax p0 pe mode_NE m e false) = true.
Proof.
intros he hm hb; assert (h := binary_normalize_correct prec emax p0 pe mode_NE m e false); cbn [round_mode] in h.
rewrite round_generic in h; [|auto with typeclass_instances|apply generic_format_FLT; exists (Float radix2 m e); [reflexivity|exact hm|exact he]].
rewrite Rlt_bool_true in h by exact hb; tauto.
Qed.
Notation fhalf := (fhalf prec emax p0 pe).
Notation fthree := (fthree prec emax p0 pe).
Lemma half_val : val fhalf = / 2 /\ fin fhalf = true.
Proof.
assert (E : F2R (Float radix2 1 (-1)) = / 2) by (unfold F2R; simpl; lra); unfold M_FloatTriangle.fhalf; rewrite <- E; apply const_val.
- unfold SpecFloat.emin; lia.
- change (1 < 2 ^ prec)%Z; apply Z.pow_gt_1; lia.
- rewrite E, Rabs_right by lra; apply Rlt_trans with (bpow radix2 0); [simpl; lra|apply bpow_lt; lia].
Qed.
Lemma three_val : val fthree = 3 /\ fin fthree = true.
Proof.
assert (E : F2R (Float radix2 3 0) = 3) by (unfold F2R; simpl; lra); unfold M_FloatTriangle.fthree; rewrite <- E; apply const_val.
- unfold SpecFloat.emin; lia.
- change (3 < 2 ^ prec)%Z; apply Z.lt_le_trans with (2 ^ 5)%Z; [reflexivity|apply Z.pow_le_mono_r; lia].
- rewrite E, Rabs_right by lra; apply Rlt_le_trans with (bpow radix2 2); [simpl; lra|apply bpow_le; lia].
Qed.
Lemma tu0 : 0 < u <= / 32. Proof. apply (du0 prec prec5). Qed.
Lemma te0 : 0 < eta <= 1. Proof. apply (de0 prec emax pe prec5). Qed.

(** * Centroid *)
Theorem C101_centroid (a b c : float) : fin (fcentroid prec emax p0 pe a b c) = true ->
  Rabs (val (fcentroid prec emax p0 pe a b c) - (val a + val b + val c) / 3) <= gam 3 * ((Rabs (val a) + Rabs (val b) + Rabs (val c)) / 3) + / 2 * eta.
Proof.
unfold fcentroid; intro f; destruct three_val as [t3 f3]; destruct (fdiv_inv prec emax p0 pe _ _ f f3) as [fs [_ e]]; rewrite t3 in e; rewrite e; clear e.
destruct (fadd_inv _ _ _ _ _ _ fs) as [fab fc]; assert (h1 := sum_round prec emax p0 pe _ _ fab); assert (h2 := sum_round prec emax p0 pe _ _ fs).
set (s := val (fadd (fadd a b) c)) in *; set (w := val (fadd a b)) in *; assert (h3 := RN_error prec emax p0 (s / 3)); destruct tu0 as [u0 u1].
set (x := val a) in *; set (y := val b) in *; set (z := val c) in *.
assert (q1 : Rabs (x + y) <= Rabs x + Rabs y) by apply Rabs_triang; assert (zx := Rabs_pos x); assert (zy := Rabs_pos y); assert (zz := Rabs_pos z).
set (A := Rabs x + Rabs y + Rabs z) in *.
assert (w1 : Rabs w <= (1 + u) * (Rabs x + Rabs y)).
{ replace w with ((w - (x + y)) + (x + y)) by ring; apply Rle_trans with (1 := Rabs_triang _ _); assert (u * Rabs (x + y) <= u * (Rabs x + Rabs y)) by (apply Rmult_le_compat_l; lra); lra. }
assert (e1 : Rabs (s - (x + y + z)) <= gam 2 * A).
{ replace (s - (x + y + z)) with ((s - (w + z)) + (w - (x + y))) by ring; apply Rle_trans with (1 := Rabs_triang _ _).
  assert (Rabs (w + z) <= Rabs w + Rabs z) by apply Rabs_triang.
  assert (u * Rabs (w + z) <= u * ((1 + u) * (Rabs x + Rabs y) + Rabs z)) by (apply Rmult_le_compat_l; lra).
  assert (u * Rabs (x + y) <= u * (Rabs x + Rabs y)) by (apply Rmult_le_compat_l; lra).
  unfold Props_FloatGeo.gam, A; simpl; rewrite Rmult_1_r; nra. }
assert (s1 : Rabs s <= (1 + gam 2) * A).
{ replace s with ((s - (x + y + z)) + (x + y + z)) by ring; apply Rle_trans with (1 := Rabs_triang _ _); assert (t1 := Rabs_triang (x + y) z); unfold A in *; lra. }
assert (s3 : Rabs (s / 3) <= (1 + gam 2) * (A / 3)) by (unfold Rdiv; rewrite Rabs_mult, (Rabs_right (/ 3)) by lra; lra).
assert (d3 : Rabs (s / 3 - (x + y + z) / 3) <= gam 2 * (A / 3)).
{ replace (s / 3 - (x + y + z) / 3) with ((s - (x + y + z)) * / 3) by field; rewrite Rabs_mult, (Rabs_right (/ 3)) by lra; lra. }
replace (RN (s / 3) - (x + y + z) / 3) with ((RN (s / 3) - s / 3) + (s / 3 - (x + y + z) / 3)) by ring; apply Rle_trans with (1 := Rabs_triang _ _).
assert (u * Rabs (s / 3) <= u * ((1 + gam 2) * (A / 3))) by (apply Rmult_le_compat_l; lra); rewrite (gamS prec 2); lra.
Qed.

(** * Sides *)
Notation vals := (map val).
Notation fsubs := (fsubs prec emax p0 pe).
Lemma norm_rdot v : norm prec emax v = sqrt (rdot (vals v) (vals v)).
Proof. unfold norm; f_equal; induction v as [|x v IH]; [reflexivity|]; cbn [map]; rewrite rdot_cons, <- IH; unfold Rsum; cbn [fold_right]; ring. Qed.
Lemma fsubs_sq a : forall b, Forall (fun x => fin x = true) (fsubs a b) -> let x := rsubs (vals a) (vals b) in
  (1 - u) ^ 2 * rdot x x <= rdot (vals (fsubs a b)) (vals (fsubs a b)) <= (1 + u) ^ 2 * rdot x x.
Proof.
destruct tu0 as [u0 u1]; induction a as [|x a IH]; intros [|y b] F; try (unfold rdot, Rsum; simpl; split; lra).
unfold M_FloatN.fsubs in F; cbn [combine map fst snd] in F; inversion F as [|? ? F1 F2]; subst; cbn zeta; cbn [map]; rewrite rsubs_cons, !rdot_cons.
change (vals (fsubs (x :: a) (y :: b))) with (val (fsub x y) :: vals (fsubs a b)); rewrite rdot_cons.
assert (I := IH b F2); cbn zeta in I; assert (r := diff_round prec emax p0 pe _ _ F1).
set (d := val x - val y) in *; set (e := val (fsub x y)) in *.
assert (q : (1 - u) * Rabs d <= Rabs e <= (1 + u) * Rabs d).
{ split; [assert (t := Rabs_triang e (d - e)); replace (e + (d - e)) with d in t by ring; rewrite (Rabs_minus_sym d e) in t; lra|].
  replace e with ((e - d) + d) by ring; apply Rle_trans with (1 := Rabs_triang _ _); lra. }
assert (z := Rabs_pos d); replace (e * e) with (Rabs e ^ 2) by (rewrite pow2_abs; ring); replace (d * d) with (Rabs d ^ 2) by (rewrite pow2_abs; ring).
assert (((1 - u) * Rabs d) ^ 2 <= Rabs e ^ 2) by (apply pow_incr; split; [apply Rmult_le_pos; lra|apply q]).
assert (Rabs e ^ 2 <= ((1 + u) * Rabs d) ^ 2) by (apply pow_incr; split; [apply Rabs_pos|apply q]).
rewrite Rpow_mult_distr in *; lra.
Qed.
Theorem C101_side (a b : list float) (pm ps : nat) (l : float) : a <> [] -> length b = length a -> INR (length a + ps) <= bpow radix2 prec ->
  fdistance_precise prec emax p0 pe fmax pm ps a b l -> fin l = true -> let K := ((length a + ps) / 2 + 6)%nat in
  Rabs (val l - rdist (vals a) (vals b)) <= gam K * rdist (vals a) (vals b) + / 2 * eta.
Proof.
intros na lb hN H f K; unfold fdistance_precise in H; destruct tu0 as [u0 u1].
assert (len : length (fsubs a b) = length a) by (unfold M_FloatN.fsubs; rewrite map_length, combine_length, lb, Nat.min_id; reflexivity).
assert (nv : fsubs a b <> []) by (intro E; rewrite E in len; destruct a; [tauto|discriminate]).
assert (F : Forall (fun x => fin x = true) (fsubs a b)).
{ assert (n1 : Forall (fun x => is_nan x = false) (fsubs a b)).
  { apply Forall_forall; intros x hx; destruct x; try reflexivity; rewrite (C78_length_nan prec emax p0 pe fmax _ _ _ _ hx H) in f; discriminate. }
  apply Forall_forall; intros x hx; destruct x as [s|s| |s m e hb]; try reflexivity.
  - rewrite (C78_length_infinite prec emax p0 pe ltac:(lia) range2 fmax fmaxP _ _ _ _ n1 (ex_intro _ s hx) H) in f; discriminate.
  - rewrite Forall_forall in n1; apply n1 in hx; discriminate. }
assert (W := C78_length_precise prec emax p0 pe ltac:(lia) range1 range2 fmax fmaxP (fsubs a b) pm ps l nv F); rewrite len in W; specialize (W hN H); cbv zeta in W.
destruct W as [[_ W]|[W _]]; [|rewrite W in f; discriminate].
replace K with (S ((length a + ps) / 2 + 5)) by (unfold K; lia); set (k := ((length a + ps) / 2 + 5)%nat) in *; clearbody k; clear K.
assert (S := fsubs_sq a b F); cbv zeta in S; rewrite norm_rdot in W; unfold rdist; set (L2 := rdot (rsubs _ _) (rsubs _ _)) in *; set (v2 := rdot (vals (fsubs a b)) _) in *.
assert (L0 : 0 <= L2) by apply rdot_pos; assert (z := sqrt_pos L2); assert (zv := sqrt_pos v2).
assert (B1 : (1 - u) * sqrt L2 <= sqrt v2).
{ rewrite <- (sqrt_pow2 (1 - u)) by lra; rewrite <- sqrt_mult_alt by (apply pow2_ge_0); apply sqrt_le_1_alt, S. }
assert (B2 : sqrt v2 <= (1 + u) * sqrt L2).
{ rewrite <- (sqrt_pow2 (1 + u)) by lra; rewrite <- sqrt_mult_alt by (apply pow2_ge_0); apply sqrt_le_1_alt, S. }
set (L := sqrt L2) in *; set (v := sqrt v2) in *; unfold Props_FloatGeo.gam.
assert (Pp : 0 <= (1 + u) ^ k) by (apply pow_le; lra); assert (Pm : 0 <= (1 - u) ^ k) by (apply pow_le; lra).
assert (lo : 2 - (1 + u) ^ Datatypes.S k <= (1 - u) ^ Datatypes.S k).
{ clear -u0 u1; generalize (Datatypes.S k); intro n; induction n as [|n IH]; [simpl; lra|]; simpl; assert (0 <= (1 - u) ^ n <= 1) by (split; [apply pow_le; lra|apply Rle_trans with (1 ^ n); [apply pow_incr; lra|rewrite Rfunctions.pow1; lra]]).
  assert (1 <= (1 + u) ^ n) by (apply pow_R1_Rle; lra); nra. }
assert (hi1 : v * (1 + u) ^ k <= (1 + u) ^ Datatypes.S k * L) by (simpl; apply Rle_trans with ((1 + u) * L * (1 + u) ^ k); [apply Rmult_le_compat_r; assumption|apply Req_le; ring]).
assert (lo1 : (1 - u) ^ Datatypes.S k * L <= v * (1 - u) ^ k) by (simpl; apply Rle_trans with ((1 - u) * L * (1 - u) ^ k); [apply Req_le; ring|apply Rmult_le_compat_r; assumption]).
assert (lo2 : (2 - (1 + u) ^ Datatypes.S k) * L <= (1 - u) ^ Datatypes.S k * L) by (apply Rmult_le_compat_r; assumption).
apply Rabs_le; lra.
Qed.

(** * Heron's formula with the lengths computed *)
Lemma apx_half M : apx prec emax M 0 0 (/ 2) 0 fhalf (/ 2) (/ 2).
Proof. intros _; rewrite (proj1 half_val), Rminus_diag_eq, Rabs_R0 by reflexivity; rewrite Rabs_right by lra; simpl; repeat split; lra. Qed.
Lemma heron_product_apx M (l0 l1 l2 : float) : 0 <= M -> Rabs (val l0) <= M -> Rabs (val l1) <= M -> Rabs (val l2) <= M ->
  let s := / 2 * (Rabs (val l0) + Rabs (val l1) + Rabs (val l2)) in
  fin (fheron_product prec emax p0 pe l0 l1 l2) = true ->
  Rabs (val (fheron_product prec emax p0 pe l0 l1 l2) - heron (val l0) (val l1) (val l2)) <= gam 18 * (s * (s + Rabs (val l0)) * (s + Rabs (val l1)) * (s + Rabs (val l2))) + 1479 * eta * (1 + M) ^ 4 /\
  Rabs (heron (val l0) (val l1) (val l2)) <= s * (s + Rabs (val l0)) * (s + Rabs (val l1)) * (s + Rabs (val l2)).
Proof.
intros M0 h0 h1 h2 s f.
assert (g0 := apx_leaf prec emax M l0 h0); assert (g1 := apx_leaf prec emax M l1 h1); assert (g2 := apx_leaf prec emax M l2 h2).
assert (a1 := fun h => apx_add prec emax p0 pe prec5 M M0 _ _ _ _ _ _ _ _ _ _ _ _ _ h g0 g1); specialize (a1 ltac:(simpl; lia)).
assert (a2 := fun h => apx_add prec emax p0 pe prec5 M M0 _ _ _ _ _ _ _ _ _ _ _ _ _ h a1 g2); specialize (a2 ltac:(simpl; lia)).
assert (as_ := fun h => apx_mul prec emax p0 pe prec5 M M0 _ _ _ _ _ _ _ _ _ _ _ _ _ _ h (apx_half M) a2); specialize (as_ ltac:(simpl; lia)).
assert (b0 := fun h => apx_sub prec emax p0 pe prec5 M M0 _ _ _ _ _ _ _ _ _ _ _ _ _ h as_ g0); specialize (b0 ltac:(simpl; lia)).
assert (b1 := fun h => apx_sub prec emax p0 pe prec5 M M0 _ _ _ _ _ _ _ _ _ _ _ _ _ h as_ g1); specialize (b1 ltac:(simpl; lia)).
assert (b2 := fun h => apx_sub prec emax p0 pe prec5 M M0 _ _ _ _ _ _ _ _ _ _ _ _ _ h as_ g2); specialize (b2 ltac:(simpl; lia)).
assert (c0 := fun h => apx_mul prec emax p0 pe prec5 M M0 _ _ _ _ _ _ _ _ _ _ _ _ _ _ h as_ b0); specialize (c0 ltac:(simpl; lia)).
assert (c1 := fun h => apx_mul prec emax p0 pe prec5 M M0 _ _ _ _ _ _ _ _ _ _ _ _ _ _ h c0 b1); specialize (c1 ltac:(simpl; lia)).
assert (c2 := fun h => apx_mul prec emax p0 pe prec5 M M0 _ _ _ _ _ _ _ _ _ _ _ _ _ _ h c1 b2); specialize (c2 ltac:(simpl; lia)).
destruct (c2 f) as [q1 [q2 _]]; cbn [Nat.max Nat.add] in q1; clear g0 g1 g2 a1 a2 as_ b0 b1 b2 c0 c1 c2.
match type of q2 with Rabs ?e <= ?a => replace e with (heron (val l0) (val l1) (val l2)) in q1, q2 by (unfold heron; field); change a with (s * (s + Rabs (val l0)) * (s + Rabs (val l1)) * (s + Rabs (val l2))) in q1, q2 end.
split; [|exact q2]; apply Rle_trans with (1 := q1); apply Rplus_le_compat_l; destruct te0.
apply Rmult_le_compat_r; [apply pow_le; lra|]; apply Rmult_le_compat_r; lra.
Qed.
Lemma sqrt_neg (b : float) : fin (fsqrt b) = true -> 0 <= val b.
Proof.
intro f; destruct (Bsqrt_correct prec emax p0 pe mode_NE b) as [_ [h2 _]]; unfold M_FloatN.fsqrt in f; rewrite f in h2.
destruct b as [| | |[|] m e hb]; try discriminate; simpl; try lra; apply F2R_ge_0; simpl; lia.
Qed.
Lemma sqrt_rel (b : float) : fin (fsqrt b) = true -> Rabs (val (fsqrt b) - sqrt (val b)) <= u * sqrt (val b).
Proof.
intro f; assert (b0 := sqrt_neg b f); destruct (sqrt_inv prec emax p0 pe b f) as [fb e]; rewrite e; destruct (Req_dec (val b) 0) as [z|nz].
- rewrite z, sqrt_0, round_0, Rminus_diag_eq, Rabs_R0 by (auto with typeclass_instances); lra.
- assert (B : bpow radix2 (SpecFloat.emin prec emax) <= val b).
  { assert (h := format_val prec emax b); apply generic_format_FLT_FIX in h || idtac.
    destruct b as [| | |[|] m ee hb]; simpl in nz, b0 |- *; try lra.
    - exfalso; assert (F2R (Float radix2 (Z.neg m) ee) < 0) by (apply F2R_lt_0; simpl; lia); simpl in *; lra.
    - clear e f h; unfold F2R; cbn [Fnum Fexp]; assert (hb' := hb); unfold SpecFloat.bounded in hb'; apply andb_prop in hb'; destruct hb' as [hb' _]; unfold SpecFloat.canonical_mantissa in hb'; apply Zeq_bool_eq in hb'; unfold SpecFloat.fexp in hb'.
      apply Rle_trans with (bpow radix2 ee); [apply bpow_le; lia|]; assert (1 <= IZR (Z.pos m)) by (apply IZR_le; lia); assert (0 < bpow radix2 ee) by apply bpow_gt_0; nra. }
  assert (S : bpow radix2 (SpecFloat.emin prec emax + prec - 1) <= sqrt (val b)).
  { rewrite <- (sqrt_pow2 (bpow radix2 (SpecFloat.emin prec emax + prec - 1))) by apply bpow_ge_0; apply sqrt_le_1_alt, Rle_trans with (2 := B).
    simpl; rewrite Rmult_1_r, <- bpow_plus; apply bpow_le; unfold SpecFloat.emin; lia. }
  assert (h := Relative.relative_error_N_FLT radix2 (SpecFloat.emin prec emax) prec p0 (fun z => negb (Z.even z)) (sqrt (val b))); rewrite (Rabs_right (sqrt (val b))) in h by (apply Rle_ge, sqrt_pos).
  apply Rle_trans with (1 := h S), Req_le; f_equal; unfold Props_Float.u; replace (/ 2) with (bpow radix2 (-1)) by reflexivity; rewrite <- bpow_plus; f_equal; lia.
Qed.
Theorem C101_heron (l0 l1 l2 : float) N : let r := fsqrt (fheron_product prec emax p0 pe l0 l1 l2) in
  fin r = true -> Rabs (val l0) <= N -> Rabs (val l1) <= N -> Rabs (val l2) <= N ->
  0 <= val r /\ Rabs (val r ^ 2 - heron (val l0) (val l1) (val l2)) <= 24 * gam 20 * N ^ 4 + 1600 * eta * (1 + N) ^ 4.
Proof.
intros r f h0 h1 h2; assert (N0 : 0 <= N) by (assert (q := Rabs_pos (val l0)); lra).
assert (b0 := sqrt_neg _ f); assert (sr := sqrt_rel _ f); destruct (sqrt_inv prec emax p0 pe _ f) as [fp _]; fold r in sr.
destruct (heron_product_apx N l0 l1 l2 N0 h0 h1 h2 fp) as [E1 E2]; set (s := / 2 * _) in *; set (a := s * _ * _ * _) in *; set (H := heron _ _ _) in *.
set (p := val (fheron_product prec emax p0 pe l0 l1 l2)) in *; destruct tu0 as [u0 u1]; destruct te0 as [e0 e1].
assert (q0 := sqrt_pos p); assert (qq : sqrt p ^ 2 = p) by (simpl; rewrite Rmult_1_r; apply sqrt_sqrt, b0); set (q := sqrt p) in *.
assert (r0 : 0 <= val r) by (apply Rabs_le_inv in sr; nra).
split; [exact r0|].
assert (R1 : Rabs (val r ^ 2 - p) <= ((1 + u) ^ 2 - 1) * p).
{ rewrite <- qq; replace (val r ^ 2 - q ^ 2) with ((val r - q) * (val r + q)) by ring; rewrite Rabs_mult, (Rabs_right (val r + q)) by lra.
  assert (val r + q <= (2 + u) * q) by (apply Rabs_le_inv in sr; lra).
  apply Rle_trans with (u * q * ((2 + u) * q)); [apply Rmult_le_compat; try lra; apply Rabs_pos|apply Req_le; ring]. }
set (w := 1479 * eta * (1 + N) ^ 4) in *; assert (w0 : 0 <= w) by (unfold w; assert (0 <= (1 + N) ^ 4) by (apply pow_le; lra); assert (0 <= eta * (1 + N) ^ 4) by (apply Rmult_le_pos; lra); lra).
assert (a0 : 0 <= a) by (assert (z := Rabs_pos H); lra).
assert (P1 : p <= (1 + gam 18) * a + w) by (apply Rabs_le_inv in E1; apply Rabs_le_inv in E2; lra).
assert (A1 : a <= 24 * N ^ 4).
{ assert (z0 := Rabs_pos (val l0)); assert (z1 := Rabs_pos (val l1)); assert (z2 := Rabs_pos (val l2)); unfold a.
  apply Rle_trans with (3 / 2 * N * (5 / 2 * N) * (5 / 2 * N) * (5 / 2 * N)); [|assert (0 <= N ^ 4) by (apply pow_le; lra); simpl in *; lra].
  assert (s0 : 0 <= s <= 3 / 2 * N) by (unfold s; lra).
  clearbody s; assert (m : forall x y X Y, 0 <= x <= X -> 0 <= y <= Y -> 0 <= x * y <= X * Y) by (intros; split; [apply Rmult_le_pos; lra|apply Rmult_le_compat; lra]).
  apply m; [apply m; [apply m|]|]; lra. }
replace (val r ^ 2 - H) with ((val r ^ 2 - p) + (p - H)) by ring; apply Rle_trans with (1 := Rabs_triang _ _).
assert (T : ((1 + u) ^ 2 - 1) * p <= ((1 + u) ^ 2 - 1) * ((1 + gam 18) * a + w)) by (apply Rmult_le_compat_l; [simpl; nra|exact P1]).
apply Rle_trans with (gam 20 * a + (1 + u) ^ 2 * w).
- replace (gam 20 * a + (1 + u) ^ 2 * w) with (((1 + u) ^ 2 - 1) * ((1 + gam 18) * a + w) + (gam 18 * a + w)) by (unfold Props_FloatGeo.gam; ring); lra.
- apply Rplus_le_compat; [rewrite (Rmult_comm 24), Rmult_assoc; apply Rmult_le_compat_l; [apply (gam0 prec p0)|exact A1]|].
  apply Rle_trans with (1600 / 1479 * w); [apply Rmult_le_compat_r; [exact w0|simpl; nra]|unfold w; apply Req_le; field].
Qed.
(* the square of the area computed *)
Theorem C101_area (a b c : list float) (pm ps : nat) (l0 l1 l2 r : float) N :
  a <> [] -> length b = length a -> length c = length a -> INR (length a + ps) <= bpow radix2 prec ->
  farea prec emax p0 pe fmax pm ps a b c l0 l1 l2 r -> fin r = true ->
  rdist (vals a) (vals b) <= N -> rdist (vals a) (vals c) <= N -> rdist (vals b) (vals c) <= N ->
  let K := ((length a + ps) / 2 + 6)%nat in let N' := (1 + u) ^ K * N + / 2 * eta in
  0 <= val r /\ Rabs (val r ^ 2 - area_squared (vals a) (vals b) (vals c)) <= (24 * gam 20 + 3 / 2 * gam K) * N' ^ 4 + 1601 * eta * (1 + N') ^ 4.
Proof.
intros na lb lc hN [H0 [H1 [H2 hr]]] f d0 d1 d2 K N'; rewrite hr in f |- *; clear hr; destruct tu0 as [u0 u1]; destruct te0 as [e0 e1].
assert (fl : fin l0 = true /\ fin l1 = true /\ fin l2 = true).
{ destruct (sqrt_inv prec emax p0 pe _ f) as [fp _]; unfold fheron_product in fp; cbv zeta in fp.
  destruct (fmul_inv _ _ _ _ _ _ fp) as [g1 g2]; destruct (fmul_inv _ _ _ _ _ _ g1) as [g3 g4]; destruct (fmul_inv _ _ _ _ _ _ g3) as [g5 g6].
  destruct (fsub_inv _ _ _ _ _ _ g6), (fsub_inv _ _ _ _ _ _ g4), (fsub_inv _ _ _ _ _ _ g2); auto. }
destruct fl as [f0 [f1 f2]].
assert (nb : b <> []) by (intro E; rewrite E in lb; destruct a; [tauto|discriminate]).
assert (S0 := C101_side a b pm ps l0 na lb hN H0 f0); assert (S1 := C101_side a c pm ps l1 na lc hN H1 f1).
assert (S2 : Rabs (val l2 - rdist (vals b) (vals c)) <= gam K * rdist (vals b) (vals c) + / 2 * eta).
{ unfold K; rewrite <- lb; apply (C101_side b c pm ps l2 nb); [congruence|rewrite lb; exact hN|exact H2|exact f2]. }
cbv zeta in S0, S1; fold K in S0, S1.
assert (GK := gam0 prec p0 K); set (L0 := rdist _ (vals b)) in *; set (L1 := rdist (vals a) (vals c)) in *; set (L2 := rdist (vals b) (vals c)) in *.
assert (z0 : 0 <= L0) by apply sqrt_pos; assert (z1 : 0 <= L1) by apply sqrt_pos; assert (z2 : 0 <= L2) by apply sqrt_pos.
assert (bd : forall l L, 0 <= L -> L <= N -> Rabs (l - L) <= gam K * L + / 2 * eta -> Rabs l <= N' /\ Rabs L <= N' /\ Rabs (l - L) <= gam K * N' + / 2 * eta).
{ intros l L hL hLN hl; assert (gam K * L <= gam K * N) by (apply Rmult_le_compat_l; assumption).
  assert (nn : N' = N + gam K * N + / 2 * eta) by (unfold N', Props_FloatGeo.gam; ring).
  assert (N <= N') by (assert (0 <= gam K * N) by (apply Rmult_le_pos; lra); lra); assert (gam K * N <= gam K * N') by (apply Rmult_le_compat_l; assumption).
  split; [replace l with ((l - L) + L) by ring; apply Rle_trans with (1 := Rabs_triang _ _); rewrite (Rabs_right L) by lra; lra|].
  split; [rewrite Rabs_right by lra; lra|lra]. }
destruct (bd _ _ z0 d0 S0) as [p1 [p2 p3]]; destruct (bd _ _ z1 d1 S1) as [p4 [p5 p6]]; destruct (bd _ _ z2 d2 S2) as [p7 [p8 p9]].
destruct (C101_heron l0 l1 l2 N' f p1 p4 p7) as [r0 E]; split; [exact r0|].
rewrite <- heron_area by (rewrite !map_length; assumption); fold L0 L1 L2.
assert (LL := heron_lip _ _ _ _ _ _ N' _ p1 p2 p4 p5 p7 p8 p3 p6 p9).
match goal with |- Rabs (?x - ?h) <= _ => replace (x - h) with ((x - heron (val l0) (val l1) (val l2)) + (heron (val l0) (val l1) (val l2) - h)) by ring end.
apply Rle_trans with (1 := Rabs_triang _ _).
assert (n0 : 0 <= N') by (assert (z := Rabs_pos (val l0)); lra).
assert (cube : N' ^ 3 <= (1 + N') ^ 4) by (apply Rle_trans with ((1 + N') ^ 3); [apply pow_incr; lra|apply Rle_pow; [lra|lia]]).
assert (eta * N' ^ 3 <= eta * (1 + N') ^ 4) by (apply Rmult_le_compat_l; lra).
replace (3 / 2 * N' ^ 3 * (gam K * N' + / 2 * eta)) with (3 / 2 * gam K * N' ^ 4 + 3 / 4 * (eta * N' ^ 3)) in LL by field.
assert (0 <= eta * (1 + N') ^ 4) by (apply Rmult_le_pos; [lra|apply pow_le; lra]); lra.
Qed.
(* the area computed *)
Theorem C101_area_root (a b c : list float) (pm ps : nat) (l0 l1 l2 r : float) N :
  a <> [] -> length b = length a -> length c = length a -> INR (length a + ps) <= bpow radix2 prec ->
  farea prec emax p0 pe fmax pm ps a b c l0 l1 l2 r -> fin r = true ->
  rdist (vals a) (vals b) <= N -> rdist (vals a) (vals c) <= N -> rdist (vals b) (vals c) <= N ->
  let K := ((length a + ps) / 2 + 6)%nat in let N' := (1 + u) ^ K * N + / 2 * eta in
  Rabs (val r - sqrt (area_squared (vals a) (vals b) (vals c))) <= sqrt ((24 * gam 20 + 3 / 2 * gam K) * N' ^ 4 + 1601 * eta * (1 + N') ^ 4).
Proof.
intros na lb lc hN H f d0 d1 d2 K N'; destruct (C101_area a b c pm ps l0 l1 l2 r N na lb lc hN H f d0 d1 d2) as [r0 E]; cbv zeta in E; fold K in E; fold N' in E.
set (B := _ + 1601 * eta * (1 + N') ^ 4) in *; set (S := area_squared _ _ _) in *.
assert (S0 : 0 <= S) by (apply area_pos; rewrite !map_length; assumption); assert (q := sqrt_pos S); assert (qq : sqrt S ^ 2 = S) by (simpl; rewrite Rmult_1_r; apply sqrt_sqrt, S0).
rewrite <- qq in E; set (A := sqrt S) in *; rewrite <- (sqrt_pow2 (Rabs (val r - A))) by apply Rabs_pos; apply sqrt_le_1_alt, Rle_trans with (2 := E).
replace (val r ^ 2 - A ^ 2) with ((val r - A) * (val r + A)) by ring; rewrite Rabs_mult, (Rabs_right (val r + A)) by lra; simpl; rewrite Rmult_1_r.
apply Rmult_le_compat_l; [apply Rabs_pos|]; apply Rabs_le; lra.
Qed.
End FloatTriangle.
Print Assumptions C101_centroid.
Print Assumptions C101_side.
Print Assumptions C101_heron.
Print Assumptions C101_area.
Print Assumptions C101_area_root.

(** * Concrete cases in double precision *)
Notation fl := (binary_float 53 1024).
Ltac dvm := rewrite <- SF2R_B2SF; match goal with |- context [B2SF ?x] => let y := eval vm_compute in (B2SF x) in replace (B2SF x) with y by (vm_compute; reflexivity) end; simpl; unfold F2R; simpl.
Definition side2 (a b : fl) : fl :=
  let s := fclamp 53 1024 (dmax (fabs 53 1024 a) (fabs 53 1024 b)) (fmin_normal 53 1024 eq_refl eq_refl) (fmax_value 53 1024 eq_refl eq_refl) in
  let x := M_Float.fdiv 53 1024 eq_refl eq_refl a s in let y := M_Float.fdiv 53 1024 eq_refl eq_refl b s in
  M_Float.fmul 53 1024 eq_refl eq_refl (fsqrt 53 1024 eq_refl eq_refl (M_Float.fadd 53 1024 eq_refl eq_refl (M_Float.fmul 53 1024 eq_refl eq_refl x x) (M_Float.fmul 53 1024 eq_refl eq_refl y y))) s.
Lemma side2_run a b : flength_precise 53 1024 eq_refl eq_refl dmax 0 0 [a; b] (side2 a b).
Proof. eexists; eexists; split; [red2|]; split; [eexists; split; [red2|reflexivity]|reflexivity]. Qed.
Definition dist2 (a b : fl * fl) : fl := side2 (M_Float.fsub 53 1024 eq_refl eq_refl (fst a) (fst b)) (M_Float.fsub 53 1024 eq_refl eq_refl (snd a) (snd b)).
Definition pt (a : fl * fl) : list fl := [fst a; snd a].
Definition area2 (a b c : fl * fl) : fl := fsqrt 53 1024 eq_refl eq_refl (fheron_product 53 1024 eq_refl eq_refl (dist2 a b) (dist2 a c) (dist2 b c)).
Lemma area2_run a b c : farea 53 1024 eq_refl eq_refl dmax 0 0 (pt a) (pt b) (pt c) (dist2 a b) (dist2 a c) (dist2 b c) (area2 a b c).
Proof. repeat split; apply side2_run. Qed.
Lemma area2_squared a b c : area_squared (map B2R (pt a)) (map B2R (pt b)) (map B2R (pt c)) =
  ((B2R (fst b) - B2R (fst a)) * (B2R (snd c) - B2R (snd a)) - (B2R (snd b) - B2R (snd a)) * (B2R (fst c) - B2R (fst a))) ^ 2 / 4.
Proof. unfold area_squared, rdot, rsubs, pt, Rsum; simpl; field. Qed.

(* three points on a line: the area is not a number *)
Theorem C101_nan_refuted : exists a b c l0 l1 l2, farea 53 1024 eq_refl eq_refl dmax 0 0 a b c l0 l1 l2 B754_nan /\
  length a = 2%nat /\ length b = 2%nat /\ length c = 2%nat /\ area_squared (map B2R a) (map B2R b) (map B2R c) = 0 /\ Forall (fun x : fl => is_finite x = true /\ Rabs (B2R x) <= 10) (a ++ b ++ c).
Proof.
set (a := (dbl 8 0, dbl 10 0)); set (b := (dbl 0 0, dbl 2 0)); set (c := (dbl 3 0, dbl 5 0)).
exists (pt a), (pt b), (pt c), (dist2 a b), (dist2 a c), (dist2 b c); split; [|split; [reflexivity|split; [reflexivity|split; [reflexivity|split]]]].
- replace (@B754_nan 53 1024) with (area2 a b c) by (vm_compute; reflexivity); apply area2_run.
- rewrite area2_squared; cbn [fst snd a b c].
  assert (v0 : B2R (dbl 8 0) = 8) by (dvm; lra); assert (v1 : B2R (dbl 10 0) = 10) by (dvm; lra); assert (v2 : B2R (dbl 0 0) = 0) by (dvm; lra).
  assert (v3 : B2R (dbl 2 0) = 2) by (dvm; lra); assert (v4 : B2R (dbl 3 0) = 3) by (dvm; lra); assert (v5 : B2R (dbl 5 0) = 5) by (dvm; lra).
  unfold a, b, c; cbn [fst snd]; rewrite v0, v1, v2, v3, v4, v5; lra.
- unfold a, b, c, pt; cbn [fst snd app]; repeat apply Forall_cons; try apply Forall_nil; (split; [vm_compute; reflexivity|dvm; apply Rabs_le; lra]).
Qed.
Print Assumptions C101_nan_refuted.
(* a triangle of area over seven million: the area computed is 0 *)
Theorem C101_flat_refuted : exists a b c l0 l1 l2 r, farea 53 1024 eq_refl eq_refl dmax 0 0 a b c l0 l1 l2 r /\ is_finite r = true /\ B2R r = 0 /\
  length a = 2%nat /\ length b = 2%nat /\ length c = 2%nat /\ 7530207 ^ 2 < area_squared (map B2R a) (map B2R b) (map B2R c).
Proof.
set (a := (dbl 0 0, dbl 0 0)); set (b := (dbl 428385129 0, dbl 0 0)); set (c := (dbl 272085428 0, dbl 9 (-8))).
exists (pt a), (pt b), (pt c), (dist2 a b), (dist2 a c), (dist2 b c), (area2 a b c); split; [apply area2_run|]; split; [vm_compute; reflexivity|].
split; [unfold a, b, c; dvm; lra|split; [reflexivity|split; [reflexivity|split; [reflexivity|]]]].
rewrite area2_squared; assert (v0 : B2R (dbl 0 0) = 0) by (dvm; lra); assert (v1 : B2R (dbl 428385129 0) = 428385129) by (dvm; lra).
assert (v2 : B2R (dbl 272085428 0) = 272085428) by (dvm; lra); assert (v3 : B2R (dbl 9 (-8)) = 9 / 256) by (dvm; lra).
unfold a, b, c; cbn [fst snd]; rewrite v0, v1, v2, v3; lra.
Qed.
Print Assumptions C101_flat_refuted.
(* the triangle with sides (3, 4, 5) 2^300: the area 6 2^600 is representable, the area computed is infinite *)
Theorem C101_overflow_refuted : exists a b c l0 l1 l2, farea 53 1024 eq_refl eq_refl dmax 0 0 a b c l0 l1 l2 (B754_infinity false) /\
  length a = 2%nat /\ length b = 2%nat /\ length c = 2%nat /\ area_squared (map B2R a) (map B2R b) (map B2R c) = B2R (dbl 6 600) ^ 2.
Proof.
set (a := (dbl 0 0, dbl 0 0)); set (b := (dbl 3 300, dbl 0 0)); set (c := (dbl 0 0, dbl 4 300)).
exists (pt a), (pt b), (pt c), (dist2 a b), (dist2 a c), (dist2 b c); split; [|split; [reflexivity|split; [reflexivity|split; [reflexivity|]]]].
- replace (@B754_infinity 53 1024 false) with (area2 a b c) by (vm_compute; reflexivity); apply area2_run.
- rewrite area2_squared; assert (v0 : B2R (dbl 0 0) = 0) by (dvm; lra); assert (v1 : B2R (dbl 3 300) = 3 * IZR (2 ^ 300)) by (dvm; lra).
  assert (v2 : B2R (dbl 4 300) = 4 * IZR (2 ^ 300)) by (dvm; lra); assert (v3 : B2R (dbl 6 600) = 6 * IZR (2 ^ 300) * IZR (2 ^ 300)) by (dvm; lra).
  unfold a, b, c; cbn [fst snd]; rewrite v0, v1, v2, v3; generalize (IZR (2 ^ 300)); intro; field.
Qed.
Print Assumptions C101_overflow_refuted.
(* the triangle (0, 0), (3, 0), (0, 4) *)
Example C101_example : exists r, farea 53 1024 eq_refl eq_refl dmax 0 0 [dbl 0 0; dbl 0 0] [dbl 3 0; dbl 0 0] [dbl 0 0; dbl 4 0]
    (dist2 (dbl 0 0, dbl 0 0) (dbl 3 0, dbl 0 0)) (dist2 (dbl 0 0, dbl 0 0) (dbl 0 0, dbl 4 0)) (dist2 (dbl 3 0, dbl 0 0) (dbl 0 0, dbl 4 0)) r /\
  is_finite r = true /\ B2R r = 6 /\ (5 <= 53)%Z /\ INR (2 + 0) <= bpow radix2 53 /\
  is_finite (fcentroid 53 1024 eq_refl eq_refl (dbl 1 0) (dbl 2 0) (dbl 6 0)) = true /\ B2R (fcentroid 53 1024 eq_refl eq_refl (dbl 1 0) (dbl 2 0) (dbl 6 0)) = 3.
Proof.
exists (area2 (dbl 0 0, dbl 0 0) (dbl 3 0, dbl 0 0) (dbl 0 0, dbl 4 0)); split; [apply (area2_run (dbl 0 0, dbl 0 0) (dbl 3 0, dbl 0 0) (dbl 0 0, dbl 4 0))|].
split; [vm_compute; reflexivity|]; split; [dvm; lra|]; split; [lia|]; split; [simpl; lra|]; split; [vm_compute; reflexivity|dvm; lra].
Qed.
