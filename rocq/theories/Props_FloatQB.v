(* C104: the quaternion of a rotation matrix in floating point. *)
From Coq Require Import ZArith List Arith Bool Reals Lia Lra Psatz.
From Flocq Require Import Core IEEE754.BinarySingleNaN.
From Interval Require Import Tactic.
From Verif Require Import M_Float P_Float P_FloatD M_FloatN P_FloatN M_FloatLU P_FloatLU P_FloatTri P_FloatDec P_FloatHH M_FloatQ M_FloatTriangle M_FloatQM Props_Float Props_FloatS Props_FloatQ Props_FloatDet Props_FloatGeo Props_FloatTriangle Props_FloatQM.
Import ListNotations.
Local Open Scope R_scope.

(* a rotation does not depend on the length of the quaternion *)
Definition unit_quat (q : nat -> R) : nat -> R := fun i => q i / qnorm q.
Lemma unit_norm q : 0 < qnorm q -> qnorm (unit_quat q) = 1.
Proof.
intro h; rewrite (norm_ext (unit_quat q) (fun i => / qnorm q * q i)) by (intros; unfold unit_quat; field; lra).
rewrite norm_scal, Rabs_right by (apply Rle_ge, Rlt_le, Rinv_0_lt_compat, h); field; lra.
Qed.
Lemma unit_rot q r c : 0 < qnorm q -> (r < 3)%nat -> rot_elem (unit_quat q) r c = rot_elem q r c.
Proof.
intros h hr; unfold rot_elem, rotation; rewrite (unit_norm q h); destruct r as [|[|[|r]]]; try lia; unfold hamilton, qconjugate, pure, unit_quat; field; lra.
Qed.

Section FloatQB.
Variables prec emax : Z.
Context (p0 : Prec_gt_0 prec) (pe : Prec_lt_emax prec emax).
Hypothesis prec5 : (5 <= prec)%Z.
Hypothesis room : (prec + 7 <= emax)%Z.
Notation float := (binary_float prec emax).
Notation val := (@B2R prec emax).
Notation fin := (@is_finite prec emax).
Notation u := (u prec).
Notation eta := (eta prec emax).
Notation fquat := (fquat prec emax).
Notation fadd := (fadd prec emax p0 pe).
Notation fsub := (fsub prec emax p0 pe).
Notation fmul := (fmul prec emax p0 pe).
Notation fdiv := (fdiv prec emax p0 pe).
Notation fone := (fone prec emax p0 pe).
Notation fhalf := (fhalf prec emax p0 pe).
Notation ftm4 := (ftm4 prec emax p0 pe).
Notation fsqrt := (fsqrt prec emax p0 pe).
Notation ftrace1 := (ftrace1 prec emax p0 pe).
Notation fmatrix_quat := (fmatrix_quat prec emax p0 pe).
Notation gam := (gam prec).
Notation RN := (round radix2 (FLT_exp (SpecFloat.emin prec emax) prec) ZnearestE).
Notation V q := (fun i => val (q i)).
Notation qu := (qu prec prec5).
Notation qe := (qe prec emax pe prec5).
Lemma four_val : val ftm4 = 4 /\ fin ftm4 = true.
Proof.
assert (E : F2R (Float radix2 4 0) = 4) by (unfold F2R; simpl; lra); unfold M_FloatQM.ftm4; rewrite <- E; apply const_val.
- unfold SpecFloat.emin, Prec_lt_emax in *; lia.
- change (4 < 2 ^ prec)%Z; apply Z.lt_le_trans with (2 ^ 5)%Z; [reflexivity|apply Z.pow_le_mono_r; lia].
- assert (b := big prec emax pe prec5); rewrite E, Rabs_right by lra; lra.
Qed.
Lemma quadruple_id (x : float) : RN (4 * val x) = 4 * val x.
Proof.
apply round_generic; [auto with typeclass_instances|].
assert (g := FLT_format_generic radix2 (SpecFloat.emin prec emax) prec (val x) (format_val prec emax x)); destruct g as [[m e] h1 h2 h3].
apply generic_format_FLT; exists (Float radix2 m (e + 2)); cbn [Fnum Fexp] in *; [|exact h2|lia].
rewrite h1; unfold F2R; cbn [Fnum Fexp]; rewrite bpow_plus; change (bpow radix2 2) with 4; ring.
Qed.
Lemma add_step (x y : float) X E b : fin x = true -> fin y = true -> Rabs (val x - X) <= E -> Rabs (X + val y) + E <= b -> b <= 30 -> fin (fadd x y) = true /\
  Rabs (val (fadd x y) - (X + val y)) <= E + u * b.
Proof.
intros fx fy hx hb b30; destruct qu as [u0 u1].
assert (B : Rabs (val x + val y) <= b).
{ replace (val x + val y) with ((X + val y) + (val x - X)) by ring; apply Rle_trans with (1 := Rabs_triang _ _); lra. }
assert (f : fin (fadd x y) = true) by (apply fadd_fin; [exact fx|exact fy|apply (RN_bound prec emax p0 pe prec5) with b; lra]).
split; [exact f|]; assert (r := sum_round prec emax p0 pe _ _ f).
replace (val (fadd x y) - (X + val y)) with ((val (fadd x y) - (val x + val y)) + (val x - X)) by ring; apply Rle_trans with (1 := Rabs_triang _ _).
assert (u * Rabs (val x + val y) <= u * b) by (apply Rmult_le_compat_l; lra); lra.
Qed.
(* the errors of one plus the trace, of the scalar part, and of a difference of elements, if the elements have error [e] *)
Definition trace_err (e : R) : R := 3 * e + 12 * u.
Definition scalar_err (e c : R) : R := (1 + gam 2) * (trace_err e / (4 * c)) + gam 2 * c + / 2 * eta.
Definition diff_err (e : R) : R := 2 * e + 3 * u.
Definition vector_err (e c : R) : R := let k := diff_err e in let s := scalar_err e c in let y := / (4 * (c - s)) in
  (2 + k) * (gam 2 * y + (1 + u) * (/ 2 * eta)) + / 2 * eta + (k + 4 * s) * y.
Section Back.
Variable (Q : nat -> R) (m : nat -> nat -> float) (e : R).
Hypothesis unit_Q : qnorm Q = 1.
Hypothesis Q0 : 0 < Q 0%nat.
Hypothesis e1 : e <= / 4.
Hypothesis mf : forall r c, (r < 3)%nat -> (c < 3)%nat -> fin (m r c) = true.
Hypothesis me : forall r c, (r < 3)%nat -> (c < 3)%nat -> Rabs (val (m r c) - rot_elem Q r c) <= e.
Notation c := (Q 0%nat).
Hypothesis sc : scalar_err e c < c.
Lemma e0 : 0 <= e.
Proof. apply Rle_trans with (2 := me 0 0 ltac:(lia) ltac:(lia)), Rabs_pos. Qed.
Lemma unit_sq : Q 0%nat ^ 2 + Q 1%nat ^ 2 + Q 2%nat ^ 2 + Q 3%nat ^ 2 = 1.
Proof. rewrite <- qsq, unit_Q; ring. Qed.
Lemma rot_diag : rot_elem Q 0 0 = 2 * (Q 0%nat ^ 2 + Q 1%nat ^ 2) - 1 /\ rot_elem Q 1 1 = 2 * (Q 0%nat ^ 2 + Q 2%nat ^ 2) - 1 /\ rot_elem Q 2 2 = 2 * (Q 0%nat ^ 2 + Q 3%nat ^ 2) - 1.
Proof.
assert (h := unit_sq); unfold rot_elem, rotation, hamilton, pure, qconjugate, axis; rewrite unit_Q; simpl Nat.eqb; cbv iota; repeat split; lra.
Qed.
Lemma rot_diff : rot_elem Q 2 1 - rot_elem Q 1 2 = 4 * c * Q 1%nat /\ rot_elem Q 0 2 - rot_elem Q 2 0 = 4 * c * Q 2%nat /\ rot_elem Q 1 0 - rot_elem Q 0 1 = 4 * c * Q 3%nat.
Proof.
unfold rot_elem, rotation, hamilton, pure, qconjugate, axis; rewrite unit_Q; simpl Nat.eqb; cbv iota; repeat split; lra.
Qed.
Lemma small i : (i < 4)%nat -> Rabs (Q i) <= 1.
Proof. intro h; assert (k := entry Q i h); rewrite unit_Q in k; exact k. Qed.
Lemma trace_near : fin (ftrace1 m) = true /\ Rabs (val (ftrace1 m) - 4 * c ^ 2) <= trace_err e.
Proof.
destruct qu as [u0 u1]; assert (z := e0); destruct (one_val prec emax p0 pe) as [ov fo]; assert (h := unit_sq).
assert (B : forall r, (r < 3)%nat -> Rabs (val (m r r)) <= 5 / 4).
{ intros r hr; assert (a := me r r hr hr); assert (b := rot_le1 Q r r ltac:(lra) hr hr); replace (val (m r r)) with ((val (m r r) - rot_elem Q r r) + rot_elem Q r r) by ring.
  apply Rle_trans with (1 := Rabs_triang _ _); lra. }
assert (b0 := B 0%nat ltac:(lia)); assert (b1 := B 1%nat ltac:(lia)); assert (b2 := B 2%nat ltac:(lia)).
apply Rabs_le_inv in b0; apply Rabs_le_inv in b1; apply Rabs_le_inv in b2.
destruct (add_step fone (m 0%nat 0%nat) 1 0 (9 / 4) fo (mf 0 0 ltac:(lia) ltac:(lia))) as [f1 r1]; [rewrite ov, Rminus_diag_eq, Rabs_R0 by reflexivity; lra|rewrite Rplus_0_r; apply Rabs_le; lra|lra|].
destruct (add_step _ (m 1%nat 1%nat) _ _ (15 / 4) f1 (mf 1 1 ltac:(lia) ltac:(lia)) r1) as [f2 r2]; [assert (Rabs (1 + val (m 0%nat 0%nat) + val (m 1%nat 1%nat)) <= 7 / 2) by (apply Rabs_le; lra); lra|lra|].
destruct (add_step _ (m 2%nat 2%nat) _ _ 5 f2 (mf 2 2 ltac:(lia) ltac:(lia)) r2) as [f3 r3]; [assert (Rabs (1 + val (m 0%nat 0%nat) + val (m 1%nat 1%nat) + val (m 2%nat 2%nat)) <= 19 / 4) by (apply Rabs_le; lra); lra|lra|].
split; [exact f3|]; unfold M_FloatQM.ftrace1; destruct rot_diag as [d0 [d1 d2]].
assert (a0 := me 0 0 ltac:(lia) ltac:(lia)); assert (a1 := me 1 1 ltac:(lia) ltac:(lia)); assert (a2 := me 2 2 ltac:(lia) ltac:(lia)).
rewrite d0 in a0; rewrite d1 in a1; rewrite d2 in a2; apply Rabs_le_inv in a0; apply Rabs_le_inv in a1; apply Rabs_le_inv in a2; apply Rabs_le_inv in r3; unfold trace_err; apply Rabs_le; lra.
Qed.
(* the scalar part *)
Theorem C104_scalar : fin (fmatrix_quat m 0%nat) = true /\ Rabs (val (fmatrix_quat m 0%nat) - c) <= scalar_err e c.
Proof.
destruct qu as [u0 u1], qe as [h0 h1]; destruct trace_near as [ft et]; set (t := ftrace1 m) in *; assert (z := e0); assert (g := gam0 prec p0 2).
assert (T0 : 0 <= trace_err e) by (unfold trace_err; lra); assert (c1 := small 0 ltac:(lia)); rewrite Rabs_right in c1 by lra.
assert (X0 : 0 <= trace_err e / (4 * c)) by (apply Rmult_le_pos; [lra|apply Rlt_le, Rinv_0_lt_compat; lra]).
set (X := trace_err e / (4 * c)) in *; assert (XE : trace_err e = 4 * c * X) by (unfold X; field; lra).
assert (S1 : X < c).
{ apply Rle_lt_trans with (2 := sc); unfold scalar_err; fold X; assert (0 <= gam 2 * X) by (apply Rmult_le_pos; lra); assert (0 <= gam 2 * c) by (apply Rmult_le_pos; lra); lra. }
assert (t0 : 0 <= val t) by (apply Rabs_le_inv in et; simpl pow in et; nra).
destruct (fsqrt_fin prec emax p0 pe t ft t0) as [fs _]; assert (rs := sqrt_rel prec emax p0 pe room t fs); set (w := fsqrt t) in *.
assert (D : Rabs (sqrt (val t) - 2 * c) <= 2 * X).
{ assert (q0 := sqrt_pos (val t)); assert (q1 := sqrt_sqrt (val t) t0); set (y := sqrt (val t)) in *.
  assert (k : (y - 2 * c) * (y + 2 * c) = val t - 4 * c ^ 2) by (rewrite <- q1; ring).
  assert (k2 : Rabs (y - 2 * c) * (y + 2 * c) <= 4 * c * X) by (rewrite <- XE, <- (Rabs_right (y + 2 * c)), <- Rabs_mult, k by lra; exact et).
  assert (a := Rabs_pos (y - 2 * c)); apply Rmult_le_reg_r with (2 * c); [lra|]; assert (0 <= Rabs (y - 2 * c) * y) by (apply Rmult_le_pos; lra); lra. }
set (y := sqrt (val t)) in *; assert (y0 : 0 <= y) by apply sqrt_pos; destruct (half_val prec emax p0 pe prec5 room) as [hv hf].
assert (Y : y <= 2 * c + 2 * X) by (apply Rabs_le_inv in D; lra).
assert (W : Rabs (val w) <= (1 + u) * y).
{ replace (val w) with ((val w - y) + y) by ring; apply Rle_trans with (1 := Rabs_triang _ _); rewrite (Rabs_right y) by lra; lra. }
assert (f : fin (fmul w fhalf) = true).
{ apply fmul_fin; [exact fs|exact hf|]; rewrite hv; apply (RN_bound prec emax p0 pe prec5) with 4; [|lra]; rewrite Rabs_mult, (Rabs_right (/ 2)) by lra; nra. }
change (fmatrix_quat m 0%nat) with (fmul w fhalf); split; [exact f|]; assert (r := prod_round prec emax p0 pe _ _ f); rewrite hv in r.
set (s := val (fmul w fhalf)) in *; replace (s - c) with ((s - val w * / 2) + ((val w - y) * / 2 + (y - 2 * c) * / 2)) by field.
assert (k1 := Rabs_triang (s - val w * / 2) ((val w - y) * / 2 + (y - 2 * c) * / 2)); assert (k2 := Rabs_triang ((val w - y) * / 2) ((y - 2 * c) * / 2)).
rewrite !Rabs_mult, !(Rabs_right (/ 2)) in * by lra; unfold scalar_err; fold X.
assert (u * (Rabs (val w) * / 2) <= u * ((1 + u) * y * / 2)) by (apply Rmult_le_compat_l; lra).
assert (gam 2 * (y * / 2) <= gam 2 * (c + X)) by (apply Rmult_le_compat_l; lra).
replace (gam 2) with (2 * u + u * u) in * by (unfold Props_FloatGeo.gam; ring); lra.
Qed.
(* the vector part *)
Lemma vector_part (x y : float) (v : R) : fin x = true -> fin y = true -> Rabs v <= 1 -> Rabs (4 * c * v) <= 2 -> Rabs (val x - val y - 4 * c * v) <= 2 * e ->
  let r := fmul (fsub x y) (fdiv fone (fmul ftm4 (fmatrix_quat m 0%nat))) in fin r = true -> Rabs (val r - v) <= vector_err e c.
Proof.
intros fx fy v1 v2 hd r fr; destruct qu as [u0 u1], qe as [h0 h1]; destruct C104_scalar as [fs es]; set (s := fmatrix_quat m 0%nat) in *; assert (z := e0).
assert (c1 := small 0 ltac:(lia)); rewrite Rabs_right in c1 by lra; set (S := scalar_err e c) in *; assert (S0 : 0 <= S) by (apply Rle_trans with (2 := es), Rabs_pos).
assert (sp : c - S <= val s <= c + S) by (apply Rabs_le_inv in es; lra).
destruct four_val as [fv ff]; assert (f4 : fin (fmul ftm4 s) = true).
{ apply fmul_fin; [exact ff|exact fs|]; rewrite fv; apply (RN_bound prec emax p0 pe prec5) with 8; [apply Rabs_le; lra|lra]. }
assert (e4 : val (fmul ftm4 s) = 4 * val s) by (rewrite (fmul_val _ _ _ _ _ _ f4), fv; apply quadruple_id).
destruct (fmul_inv _ _ _ _ _ _ fr) as [fd fi]; destruct (fdiv_inv prec emax p0 pe _ _ fi f4) as [_ [_ ei]]; rewrite e4, (proj1 (one_val prec emax p0 pe)) in ei.
assert (rd := diff_round prec emax p0 pe _ _ fd); assert (rr := prod_round prec emax p0 pe _ _ fr); set (d := val (fsub x y)) in *; set (i := fdiv fone (fmul ftm4 s)) in *; fold r in rr.
assert (ri := RN_error prec emax p0 (1 / (4 * val s))); rewrite <- ei in ri; set (k := diff_err e).
assert (D : Rabs (d - 4 * c * v) <= k).
{ replace (d - 4 * c * v) with ((d - (val x - val y)) + (val x - val y - 4 * c * v)) by ring; apply Rle_trans with (1 := Rabs_triang _ _).
  assert (Rabs (val x - val y) <= 2 * e + 2) by (replace (val x - val y) with ((val x - val y - 4 * c * v) + 4 * c * v) by ring; apply Rle_trans with (1 := Rabs_triang _ _); lra).
  assert (u * Rabs (val x - val y) <= u * 3) by (apply Rmult_le_compat_l; lra); unfold k, diff_err; lra. }
assert (D2 : Rabs d <= 2 + k) by (replace d with ((d - 4 * c * v) + 4 * c * v) by ring; apply Rle_trans with (1 := Rabs_triang _ _); lra).
set (Y := / (4 * (c - S))); assert (X0 : 0 < / (4 * val s)) by (apply Rinv_0_lt_compat; lra).
assert (XY : / (4 * val s) <= Y) by (apply Rinv_le_contravar; lra).
replace (1 / (4 * val s)) with (/ (4 * val s)) in ri by (field; lra); set (X := / (4 * val s)) in *; rewrite (Rabs_right X) in ri by lra.
assert (I : Rabs (val i) <= (1 + u) * X + / 2 * eta).
{ replace (val i) with ((val i - X) + X) by ring; apply Rle_trans with (1 := Rabs_triang _ _); rewrite (Rabs_right X) by lra; lra. }
assert (M : Rabs (d * X - v) <= (k + 4 * S) * X).
{ replace (d * X - v) with (((d - 4 * c * v) + 4 * ((c - val s) * v)) * X) by (unfold X; field; lra); rewrite Rabs_mult, (Rabs_right X) by lra; apply Rmult_le_compat_r; [lra|].
  apply Rle_trans with (1 := Rabs_triang _ _); rewrite !Rabs_mult, (Rabs_right 4), (Rabs_minus_sym c) by lra.
  assert (Rabs (val s - c) * Rabs v <= S * 1) by (apply Rmult_le_compat; try apply Rabs_pos; lra); lra. }
assert (k0 : 0 <= k) by (unfold k, diff_err; lra); assert (dp := Rabs_pos d).
replace (val r - v) with ((val r - d * val i) + (d * (val i - X) + (d * X - v))) by ring.
assert (t1 := Rabs_triang (val r - d * val i) (d * (val i - X) + (d * X - v))); assert (t2 := Rabs_triang (d * (val i - X)) (d * X - v)).
rewrite !Rabs_mult in *.
assert (j1 : Rabs d * Rabs (val i) <= (2 + k) * ((1 + u) * X + / 2 * eta)) by (apply Rmult_le_compat; try apply Rabs_pos; lra).
assert (j2 : Rabs d * Rabs (val i - X) <= (2 + k) * (u * X + / 2 * eta)) by (apply Rmult_le_compat; try apply Rabs_pos; lra).
assert (j3 : u * (Rabs d * Rabs (val i)) <= u * ((2 + k) * ((1 + u) * X + / 2 * eta))) by (apply Rmult_le_compat_l; lra).
assert (g := gam0 prec p0 2); unfold vector_err; fold k S Y.
assert (j4 : (k + 4 * S) * X <= (k + 4 * S) * Y) by (apply Rmult_le_compat_l; lra).
assert (j5 : (2 + k) * (gam 2 * X) <= (2 + k) * (gam 2 * Y)) by (apply Rmult_le_compat_l; [lra|]; apply Rmult_le_compat_l; lra).
replace (gam 2) with (2 * u + u * u) in * by (unfold Props_FloatGeo.gam; ring); lra.
Qed.
Theorem C104_quaternion i : (i < 4)%nat -> fin (fmatrix_quat m i) = true -> Rabs (val (fmatrix_quat m i) - Q i) <= Rmax (scalar_err e c) (vector_err e c).
Proof.
intros hi f; assert (h := unit_sq); assert (am : forall j, (0 < j < 4)%nat -> Rabs (4 * c * Q j) <= 2).
{ intros j hj; assert (w1 := pow2_ge_0 (c + Q j)); assert (w2 := pow2_ge_0 (c - Q j)); assert (s1 := pow2_ge_0 (Q 1%nat)); assert (s2 := pow2_ge_0 (Q 2%nat)); assert (s3 := pow2_ge_0 (Q 3%nat)).
  apply Rabs_le; destruct j as [|[|[|[|j]]]]; try lia; split; lra. }
destruct rot_diff as [d1 [d2 d3]].
assert (K : forall r1 c1 r2 c2 t, (r1 < 3)%nat -> (c1 < 3)%nat -> (r2 < 3)%nat -> (c2 < 3)%nat -> rot_elem Q r1 c1 - rot_elem Q r2 c2 = t -> Rabs (val (m r1 c1) - val (m r2 c2) - t) <= 2 * e).
{ intros r1 c1 r2 c2 t a1 a2 a3 a4 <-; assert (b1 := me r1 c1 a1 a2); assert (b2 := me r2 c2 a3 a4); apply Rabs_le_inv in b1; apply Rabs_le_inv in b2; apply Rabs_le; lra. }
destruct i as [|[|[|[|i]]]]; try lia.
- apply Rle_trans with (2 := Rmax_l _ _), C104_scalar.
- apply Rle_trans with (2 := Rmax_r _ _), vector_part; [apply mf; lia|apply mf; lia|apply small; lia|apply am; lia|apply K; [lia..|exact d1]|exact f].
- apply Rle_trans with (2 := Rmax_r _ _), vector_part; [apply mf; lia|apply mf; lia|apply small; lia|apply am; lia|apply K; [lia..|exact d2]|exact f].
- apply Rle_trans with (2 := Rmax_r _ _), vector_part; [apply mf; lia|apply mf; lia|apply small; lia|apply am; lia|apply K; [lia..|exact d3]|exact f].
Qed.
End Back.
(* there and back: the normalised quaternion *)
Theorem C104_round_trip (q : fquat) i : finite_quat prec emax q -> 0 < val (q 0%nat) -> qnorm (V q) ^ 2 <= 2 ->
  let e := elem_err prec emax (qnorm (V q) ^ 2) + 2 * Rabs (qnorm (V q) ^ 2 - 1) in let c := val (q 0%nat) / qnorm (V q) in
  e <= / 4 -> scalar_err e c < c -> (i < 4)%nat -> let p := fmatrix_quat (fqmatrix prec emax p0 pe q) in fin (p i) = true ->
  Rabs (val (p i) - val (q i) / qnorm (V q)) <= Rmax (scalar_err e c) (vector_err e c).
Proof.
intros fq s0 n2 e c e1 sc hi p f; assert (np : 0 < qnorm (V q)) by (assert (k := entry (V q) 0 ltac:(lia)); cbv beta in k; rewrite Rabs_right in k by lra; lra).
assert (R := fun r c hr hc => C103_rotation prec emax p0 pe prec5 q r c fq hr hc np n2).
apply (C104_quaternion (unit_quat (V q)) (fqmatrix prec emax p0 pe q) e (unit_norm _ np)); try assumption.
- apply Rdiv_lt_0_compat; assumption.
- intros r c' hr hc; apply R; assumption.
- intros r c' hr hc; rewrite unit_rot by assumption; apply R; assumption.
Qed.
End FloatQB.
Print Assumptions C104_scalar.
Print Assumptions C104_quaternion.
Print Assumptions C104_round_trip.

(** * Double precision *)
(* 3/5 + 4/5 i, rounded to double *)
Example C104_example : let q := dquat 5404319552844595 7205759403792794 0 0 (-53) in let n := qnorm (fun i => B2R (q i)) in
  let e := elem_err 53 1024 (n ^ 2) + 2 * Rabs (n ^ 2 - 1) in let c := B2R (q 0%nat) / n in let p := M_FloatQM.fmatrix_quat 53 1024 eq_refl eq_refl (fqmatrix 53 1024 eq_refl eq_refl q) in
  finite_quat 53 1024 q /\ 0 < B2R (q 0%nat) /\ n ^ 2 <= 2 /\ e <= / 4 /\ scalar_err 53 1024 e c < c /\ (forall i, (i < 4)%nat -> is_finite (p i) = true) /\
  Rmax (scalar_err 53 1024 e c) (vector_err 53 1024 e c) <= / 2 ^ 46.
Proof.
intros q n e c p; destruct C103_example as [fq [np [n2 e50]]]; fold q n in fq, np, n2, e50; fold e in e50.
assert (v0 : B2R (dbl 0 (-53)) = 0) by (dval; lra).
assert (v1 : B2R (dbl 5404319552844595 (-53)) = 5404319552844595 / 2 ^ 53) by (dval; lra).
assert (v2 : B2R (dbl 7205759403792794 (-53)) = 7205759403792794 / 2 ^ 53) by (dval; lra).
assert (E : n = sqrt ((5404319552844595 / 2 ^ 53) ^ 2 + (7205759403792794 / 2 ^ 53) ^ 2)).
{ unfold n, qnorm, q, dquat; rewrite v0, v1, v2; f_equal; ring. }
assert (C : 59 / 100 <= c <= 61 / 100) by (unfold c, q, dquat; rewrite v1, E; split; interval).
assert (u0 : Props_Float.u 53 = / 2 ^ 53) by (unfold Props_Float.u; simpl; lra).
assert (h0 := Props_FloatQ.eta_pos 53 1024); assert (h1 : Props_Float.eta 53 1024 <= / 2 ^ 100).
{ apply Rle_trans with (bpow radix2 (-100)); [apply bpow_le; lia|simpl; lra]. }
assert (z : 0 <= e).
{ assert (k := C103_rotation 53 1024 eq_refl eq_refl ltac:(lia) q 0 0 fq ltac:(lia) ltac:(lia) np n2); destruct k as [_ k]; apply Rle_trans with (2 := k), Rabs_pos. }
split; [exact fq|split; [unfold q, dquat; rewrite v1; lra|split; [exact n2|]]].
clearbody e c; split; [lra|].
unfold vector_err, diff_err, scalar_err, trace_err, Props_FloatGeo.gam; rewrite u0; set (h := Props_Float.eta 53 1024) in *.
split; [apply Rlt_le_trans with (1 / 2); [interval|lra]|split].
- intros [|[|[|[|i]]]] hi; try lia; vm_compute; reflexivity.
- apply Rmax_lub; interval.
Qed.
(* a quaternion of length 1 up to rounding whose matrix is taken for a half turn: the vector part becomes infinite or NaN *)
Theorem C104_half_turn_refuted : exists q : nat -> binary_float 53 1024, finite_quat 53 1024 q /\ 0 < B2R (q 0%nat) /\ Rabs (qnorm (fun i => B2R (q i)) ^ 2 - 1) <= / 2 ^ 59 /\
  let p := M_FloatQM.fmatrix_quat 53 1024 eq_refl eq_refl (fqmatrix 53 1024 eq_refl eq_refl q) in B2R (p 0%nat) = 0 /\ is_finite (p 1%nat) = false /\ is_nan (p 2%nat) = true /\ is_nan (p 3%nat) = true.
Proof.
exists (fun i => match i with 0%nat => dbl 1 (-30) | 1%nat => dbl 1 0 | _ => dbl 0 0 end).
assert (v0 : B2R (dbl 0 0) = 0) by (dval; lra); assert (v1 : B2R (dbl 1 0) = 1) by (dval; lra); assert (v2 : B2R (dbl 1 (-30)) = / 2 ^ 30) by (dval; lra).
split; [intros [|[|[|[|i]]]] hi; try lia; vm_compute; reflexivity|split; [rewrite v2; lra|split]].
- assert (E : forall q, qnorm q ^ 2 = q 0%nat ^ 2 + q 1%nat ^ 2 + q 2%nat ^ 2 + q 3%nat ^ 2) by (intro q; rewrite <- qsq; ring); rewrite E; cbv beta iota; rewrite v0, v1, v2; apply Rabs_le; lra.
- intro p; split; [unfold p; dval; lra|repeat split; vm_compute; reflexivity].
Qed.
Print Assumptions C104_half_turn_refuted.
