(* C96: products of quaternions and rotation of vectors in floating point. *)
From Coq Require Import ZArith List Arith Bool Reals Lia Lra Psatz.
From Flocq Require Import Core IEEE754.BinarySingleNaN.
From Interval Require Import Tactic.
From Verif Require Import M_Float P_Float P_FloatD M_FloatN P_FloatN M_FloatS M_FloatLU P_FloatLU P_FloatTri P_FloatDec P_FloatHH M_FloatQ Props_Float Props_FloatN Props_FloatS P_Norm.
Import ListNotations.
Local Open Scope R_scope.

(** * Quaternions over the reals *)
Definition hamilton (p q : nat -> R) : nat -> R := fun i =>
  match i with
  | 0%nat => p 0%nat * q 0%nat - p 1%nat * q 1%nat - p 2%nat * q 2%nat - p 3%nat * q 3%nat
  | 1%nat => p 0%nat * q 1%nat + p 1%nat * q 0%nat + p 2%nat * q 3%nat - p 3%nat * q 2%nat
  | 2%nat => p 0%nat * q 2%nat - p 1%nat * q 3%nat + p 2%nat * q 0%nat + p 3%nat * q 1%nat
  | 3%nat => p 0%nat * q 3%nat + p 1%nat * q 2%nat - p 2%nat * q 1%nat + p 3%nat * q 0%nat
  | _ => 0
  end.
Definition qnorm (q : nat -> R) : R := sqrt (q 0%nat ^ 2 + q 1%nat ^ 2 + q 2%nat ^ 2 + q 3%nat ^ 2).
Definition qconjugate (q : nat -> R) : nat -> R := fun i => match i with 0%nat => q 0%nat | _ => - q i end.
Definition pure (v : nat -> R) : nat -> R := fun i => match i with 0%nat => 0 | _ => v i end.
Definition vnorm (v : nat -> R) : R := sqrt (v 1%nat ^ 2 + v 2%nat ^ 2 + v 3%nat ^ 2).
(* the rotation of v by q: q v q^-1 *)
Definition rotation (q v : nat -> R) : nat -> R := fun i => hamilton (hamilton q (pure v)) (qconjugate q) i / qnorm q ^ 2.

Lemma qnormE q : qnorm q = nrm 4 q.
Proof. unfold qnorm, nrm, dot, lsum; simpl; f_equal; ring. Qed.
Lemma q0 q : 0 <= qnorm q. Proof. apply sqrt_pos. Qed.
Lemma qsq q : qnorm q * qnorm q = q 0%nat ^ 2 + q 1%nat ^ 2 + q 2%nat ^ 2 + q 3%nat ^ 2.
Proof. apply sqrt_sqrt; nra. Qed.
Lemma norm_mult p q : qnorm (hamilton p q) = qnorm p * qnorm q.
Proof. unfold qnorm; rewrite <- sqrt_mult by nra; f_equal; unfold hamilton; ring. Qed.
Lemma norm_conj q : qnorm (qconjugate q) = qnorm q.
Proof. unfold qnorm, qconjugate; f_equal; ring. Qed.
Lemma norm_pure v : qnorm (pure v) = vnorm v.
Proof. unfold qnorm, pure, vnorm; f_equal; ring. Qed.
Lemma norm_ext p q : (forall i, (i < 4)%nat -> p i = q i) -> qnorm p = qnorm q.
Proof. intro h; unfold qnorm; rewrite !h by lia; reflexivity. Qed.
Lemma norm_add p q : qnorm (fun i => p i + q i) <= qnorm p + qnorm q.
Proof. rewrite !qnormE; apply triangle. Qed.
Lemma norm_scal a q : qnorm (fun i => a * q i) = Rabs a * qnorm q.
Proof. rewrite !qnormE; apply nrm_scal. Qed.
Lemma norm_bound q e : 0 <= e -> (forall i, (i < 4)%nat -> Rabs (q i) <= e) -> qnorm q <= 2 * e.
Proof.
intros e0 h; unfold qnorm; rewrite <- (sqrt_square (2 * e)) by lra; apply sqrt_le_1_alt.
assert (k : forall i, (i < 4)%nat -> q i ^ 2 <= e * e).
{ intros i hi; assert (b := h i hi); rewrite <- (pow2_abs (q i)); assert (0 <= Rabs (q i)) by apply Rabs_pos; nra. }
assert (k0 := k 0%nat ltac:(lia)); assert (k1 := k 1%nat ltac:(lia)); assert (k2 := k 2%nat ltac:(lia)); assert (k3 := k 3%nat ltac:(lia)); lra.
Qed.
Lemma entry q i : (i < 4)%nat -> Rabs (q i) <= qnorm q.
Proof.
intro hi; apply Rabs_le; assert (h := qsq q); assert (n0 := q0 q); assert (k : q i ^ 2 <= qnorm q * qnorm q).
{ rewrite h; destruct i as [|[|[|[|i]]]]; try lia; nra. }
split; nra.
Qed.
Lemma ham_ext p q p' q' i : (forall i, (i < 4)%nat -> p i = p' i) -> (forall i, (i < 4)%nat -> q i = q' i) -> hamilton p q i = hamilton p' q' i.
Proof. intros h k; destruct i as [|[|[|[|i]]]]; unfold hamilton; rewrite ?h, ?k by lia; reflexivity. Qed.
Lemma ham_l p p' q i : hamilton p q i - hamilton p' q i = hamilton (fun k => p k - p' k) q i.
Proof. destruct i as [|[|[|[|i]]]]; unfold hamilton; ring. Qed.
Lemma ham_r p q q' i : hamilton p q i - hamilton p q' i = hamilton p (fun k => q k - q' k) i.
Proof. destruct i as [|[|[|[|i]]]]; unfold hamilton; ring. Qed.
Lemma ham_scal a p q i : hamilton p (fun k => a * q k) i = a * hamilton p q i.
Proof. destruct i as [|[|[|[|i]]]]; unfold hamilton; ring. Qed.
Lemma cauchy4 a0 a1 a2 a3 b0 b1 b2 b3 : Rabs (a0 * b0) + Rabs (a1 * b1) + Rabs (a2 * b2) + Rabs (a3 * b3) <=
  sqrt (a0 ^ 2 + a1 ^ 2 + a2 ^ 2 + a3 ^ 2) * sqrt (b0 ^ 2 + b1 ^ 2 + b2 ^ 2 + b3 ^ 2).
Proof.
assert (E : forall a b c d, sqrt (a ^ 2 + b ^ 2 + c ^ 2 + d ^ 2) = sqrt (Rabs a ^ 2 + Rabs b ^ 2 + Rabs c ^ 2 + Rabs d ^ 2)) by (intros; rewrite !pow2_abs; reflexivity).
rewrite (E a0), (E b0), !Rabs_mult; clear E.
generalize (Rabs a0) (Rabs a1) (Rabs a2) (Rabs a3) (Rabs b0) (Rabs b1) (Rabs b2) (Rabs b3); clear; intros a0 a1 a2 a3 b0 b1 b2 b3.
rewrite <- sqrt_mult by nra; apply Rsqr_incr_0_var; [|apply sqrt_pos]; rewrite Rsqr_sqrt by (apply Rmult_le_pos; nra); unfold Rsqr.
assert (0 <= (a0 * b1 - a1 * b0) ^ 2) by apply pow2_ge_0; assert (0 <= (a0 * b2 - a2 * b0) ^ 2) by apply pow2_ge_0; assert (0 <= (a0 * b3 - a3 * b0) ^ 2) by apply pow2_ge_0.
assert (0 <= (a1 * b2 - a2 * b1) ^ 2) by apply pow2_ge_0; assert (0 <= (a1 * b3 - a3 * b1) ^ 2) by apply pow2_ge_0; assert (0 <= (a2 * b3 - a3 * b2) ^ 2) by apply pow2_ge_0.
lra.
Qed.
(* a rotation keeps the length, and the scalar part is zero *)
Lemma rot_scalar q v : rotation q v 0%nat = 0.
Proof. unfold rotation, hamilton, qconjugate, pure; unfold Rdiv; ring. Qed.
Lemma rot_norm q v : qnorm q <> 0 -> qnorm (rotation q v) = vnorm v.
Proof.
intro nz; assert (n0 := q0 q); assert (i0 : 0 < / qnorm q ^ 2) by (apply Rinv_0_lt_compat; nra).
rewrite (norm_ext _ (fun i => / qnorm q ^ 2 * hamilton (hamilton q (pure v)) (qconjugate q) i)) by (intros; unfold rotation, Rdiv; ring).
rewrite norm_scal, Rabs_pos_eq, !norm_mult, norm_conj, norm_pure by lra; field; exact nz.
Qed.

Section FloatQ.
Variables prec emax : Z.
Context (p0 : Prec_gt_0 prec) (pe : Prec_lt_emax prec emax).
Notation float := (binary_float prec emax).
Notation val := (@B2R prec emax).
Notation fin := (@is_finite prec emax).
Notation u := (u prec).
Notation eta := (eta prec emax).
Notation fquat := (fquat prec emax).
Notation fadd := (fadd prec emax p0 pe).
Notation fmul := (fmul prec emax p0 pe).
Notation fdiv := (fdiv prec emax p0 pe).
Notation fone := (fone prec emax p0 pe).
Notation fmone := (fmone prec emax p0 pe).
Notation fqmul := (fqmul prec emax p0 pe).
Notation RN := (round radix2 (FLT_exp (SpecFloat.emin prec emax) prec) ZnearestE).
Notation V q := (fun i => val (q i)).

(* the relative error of a sum of four products, and the error of underflow *)
Definition q_g : R := (1 + u) ^ 4 - 1.
Definition q_w : R := 4 * (1 + u) ^ 4 * (/ 2 * eta).
Definition finite_quat (q : fquat) : Prop := forall i, (i < 4)%nat -> fin (q i) = true.

Lemma u_pos : 0 < u. Proof. apply bpow_gt_0. Qed.
Lemma eta_pos : 0 < eta. Proof. apply bpow_gt_0. Qed.
Lemma g0 : 0 <= q_g. Proof. unfold q_g; generalize (pow_R1_Rle (1 + u) 4) u_pos; intros h hu; assert (h' := h ltac:(lra)); lra. Qed.
Lemma w0 : 0 <= q_w.
Proof. unfold q_w; assert (h := u_pos); assert (k := eta_pos); apply Rmult_le_pos; [|lra]; apply Rmult_le_pos; [lra|apply pow_le; lra]. Qed.
Definition sgn (s : float) (z : R) : Prop := (s = fone /\ z = 1) \/ (s = fmone /\ z = -1).
Lemma sgn_val s z x : sgn s z -> fin (fmul s x) = true -> fin x = true /\ val (fmul s x) = z * val x.
Proof.
intros hs f; destruct (fmul_inv _ _ _ _ _ _ f) as [_ fx]; assert (e := fmul_val _ _ _ _ _ _ f); split; [exact fx|]; rewrite e.
destruct hs as [[-> ->]|[-> ->]]; unfold M_FloatQ.fmone; rewrite ?val_opp; unfold M_Float.fone; rewrite Bone_correct.
- rewrite !Rmult_1_l; apply RN_id.
- replace (- (1) * val x) with (- val x) by ring; rewrite RN_opp, RN_id; ring.
Qed.
Lemma lane_err s1 s2 s3 z1 z2 z3 a0 a1 a2 a3 b0 b1 b2 b3 : sgn s1 z1 -> sgn s2 z2 -> sgn s3 z3 ->
  let r := fadd (fadd (fadd (fmul a0 b0) (fmul (fmul s1 a1) b1)) (fmul (fmul s2 a2) b2)) (fmul (fmul s3 a3) b3) in fin r = true ->
  (fin a0 = true /\ fin a1 = true /\ fin a2 = true /\ fin a3 = true) /\ (fin b0 = true /\ fin b1 = true /\ fin b2 = true /\ fin b3 = true) /\
  Rabs (val r - (val a0 * val b0 + z1 * val a1 * val b1 + z2 * val a2 * val b2 + z3 * val a3 * val b3)) <=
  q_g * (sqrt (val a0 ^ 2 + val a1 ^ 2 + val a2 ^ 2 + val a3 ^ 2) * sqrt (val b0 ^ 2 + val b1 ^ 2 + val b2 ^ 2 + val b3 ^ 2)) + q_w.
Proof.
intros h1 h2 h3 r f.
destruct (fadd_inv _ _ _ _ _ _ f) as [f1 m3]; destruct (fadd_inv _ _ _ _ _ _ f1) as [f2 m2]; destruct (fadd_inv _ _ _ _ _ _ f2) as [m0 m1].
destruct (fmul_inv _ _ _ _ _ _ m0) as [fa0 fb0]; destruct (fmul_inv _ _ _ _ _ _ m1) as [k1 fb1]; destruct (fmul_inv _ _ _ _ _ _ m2) as [k2 fb2]; destruct (fmul_inv _ _ _ _ _ _ m3) as [k3 fb3].
destruct (sgn_val s1 z1 a1 h1 k1) as [fa1 e1]; destruct (sgn_val s2 z2 a2 h2 k2) as [fa2 e2]; destruct (sgn_val s3 z3 a3 h3 k3) as [fa3 e3].
split; [auto|split; [auto|]].
assert (D : fdot prec emax p0 pe 0 [a0; fmul s1 a1; fmul s2 a2; fmul s3 a3] [b0; b1; b2; b3] r).
{ unfold fdot, fsum; cbn [combine map fst snd repeat]; rewrite app_nil_r.
  apply (fred_app prec emax fadd [_; _; _] [_]); [apply (fred_app prec emax fadd [_; _] [_]); [apply (fred_app prec emax fadd [_] [_]); apply fred_one|apply fred_one]|apply fred_one]. }
assert (ne : [a0; fmul s1 a1; fmul s2 a2; fmul s3 a3] <> []) by discriminate.
assert (T := C79_dot prec emax p0 pe 0 [a0; fmul s1 a1; fmul s2 a2; fmul s3 a3] [b0; b1; b2; b3] r ne eq_refl D f).
unfold Props_FloatS.dot, dot_abs, Rsum, bound in T; cbn [combine map fst snd fold_right length] in T; rewrite e1, e2, e3 in T.
replace (val a0 * val b0 + z1 * val a1 * val b1 + z2 * val a2 * val b2 + z3 * val a3 * val b3) with
  (val a0 * val b0 + (z1 * val a1 * val b1 + (z2 * val a2 * val b2 + (z3 * val a3 * val b3 + 0)))) by ring.
apply Rle_trans with (1 := T); simpl INR; unfold q_w; replace (1 + 1 + 1 + 1) with 4 by ring; apply Rplus_le_compat_r; fold q_g; apply Rmult_le_compat_l; [apply g0|].
assert (S : forall s z x, sgn s z -> Rabs (z * x) = Rabs x).
{ intros s z x [[_ ->]|[_ ->]]; [rewrite Rmult_1_l; reflexivity|replace (-1 * x) with (- x) by ring; apply Rabs_Ropp]. }
assert (C := cauchy4 (val a0) (val a1) (val a2) (val a3) (val b0) (val b1) (val b2) (val b3)).
rewrite !Rmult_assoc, (S s1 z1 (val a1 * val b1) h1), (S s2 z2 (val a2 * val b2) h2), (S s3 z3 (val a3 * val b3) h3); lra.
Qed.

(** * C96: the product *)
Theorem C96_product (p q : fquat) i : (i < 4)%nat -> fin (fqmul p q i) = true -> finite_quat p /\ finite_quat q /\
  Rabs (val (fqmul p q i) - hamilton (V p) (V q) i) <= q_g * (qnorm (V p) * qnorm (V q)) + q_w.
Proof.
intros hi f.
assert (one : sgn fone 1) by (left; auto); assert (mone : sgn fmone (-1)) by (right; auto).
assert (F : forall q : fquat, fin (q 0%nat) = true -> fin (q 1%nat) = true -> fin (q 2%nat) = true -> fin (q 3%nat) = true -> finite_quat q).
{ intros r r0 r1 r2 r3 [|[|[|[|k]]]] hk; try lia; assumption. }
destruct i as [|[|[|[|i]]]]; try lia; unfold M_FloatQ.fqmul in f |- *.
- destruct (lane_err _ _ _ _ _ _ _ _ _ _ _ _ _ _ mone mone mone f) as [[a0 [a1 [a2 a3]]] [[b0 [b1 [b2 b3]]] T]].
  split; [apply F; assumption|split; [apply F; assumption|]]; unfold hamilton.
  replace (val (p 0%nat) * val (q 0%nat) - _ - _ - _) with (val (p 0%nat) * val (q 0%nat) + -1 * val (p 1%nat) * val (q 1%nat) + -1 * val (p 2%nat) * val (q 2%nat) + -1 * val (p 3%nat) * val (q 3%nat)) by ring.
  exact T.
- destruct (lane_err _ _ _ _ _ _ _ _ _ _ _ _ _ _ one one mone f) as [[a0 [a1 [a2 a3]]] [[b0 [b1 [b2 b3]]] T]].
  split; [apply F; assumption|split; [apply F; assumption|]]; unfold hamilton.
  replace (val (p 0%nat) * val (q 1%nat) + _ + _ - _) with (val (p 0%nat) * val (q 1%nat) + 1 * val (p 1%nat) * val (q 0%nat) + 1 * val (p 2%nat) * val (q 3%nat) + -1 * val (p 3%nat) * val (q 2%nat)) by ring.
  replace (qnorm (V q)) with (sqrt (val (q 1%nat) ^ 2 + val (q 0%nat) ^ 2 + val (q 3%nat) ^ 2 + val (q 2%nat) ^ 2)) by (unfold qnorm; f_equal; ring); exact T.
- destruct (lane_err _ _ _ _ _ _ _ _ _ _ _ _ _ _ mone one one f) as [[a0 [a1 [a2 a3]]] [[b0 [b1 [b2 b3]]] T]].
  split; [apply F; assumption|split; [apply F; assumption|]]; unfold hamilton.
  replace (val (p 0%nat) * val (q 2%nat) - _ + _ + _) with (val (p 0%nat) * val (q 2%nat) + -1 * val (p 1%nat) * val (q 3%nat) + 1 * val (p 2%nat) * val (q 0%nat) + 1 * val (p 3%nat) * val (q 1%nat)) by ring.
  replace (qnorm (V q)) with (sqrt (val (q 2%nat) ^ 2 + val (q 3%nat) ^ 2 + val (q 0%nat) ^ 2 + val (q 1%nat) ^ 2)) by (unfold qnorm; f_equal; ring); exact T.
- destruct (lane_err _ _ _ _ _ _ _ _ _ _ _ _ _ _ one mone one f) as [[a0 [a1 [a2 a3]]] [[b0 [b1 [b2 b3]]] T]].
  split; [apply F; assumption|split; [apply F; assumption|]]; unfold hamilton.
  replace (val (p 0%nat) * val (q 3%nat) + _ - _ + _) with (val (p 0%nat) * val (q 3%nat) + 1 * val (p 1%nat) * val (q 2%nat) + -1 * val (p 2%nat) * val (q 1%nat) + 1 * val (p 3%nat) * val (q 0%nat)) by ring.
  replace (qnorm (V q)) with (sqrt (val (q 3%nat) ^ 2 + val (q 2%nat) ^ 2 + val (q 1%nat) ^ 2 + val (q 0%nat) ^ 2)) by (unfold qnorm; f_equal; ring); exact T.
Qed.
Lemma product_norm (p q : fquat) : finite_quat (fqmul p q) ->
  qnorm (fun i => val (fqmul p q i) - hamilton (V p) (V q) i) <= 2 * (q_g * (qnorm (V p) * qnorm (V q)) + q_w).
Proof.
intro f; apply norm_bound; [|intros i hi; apply C96_product; [exact hi|apply f, hi]].
assert (a := g0); assert (b := w0); assert (c := q0 (V p)); assert (d := q0 (V q)); apply Rplus_le_le_0_compat; [|exact b]; repeat apply Rmult_le_pos; assumption.
Qed.
(* the length of a product *)
Theorem C96_length (p q : fquat) : finite_quat (fqmul p q) ->
  Rabs (qnorm (V (fqmul p q)) - qnorm (V p) * qnorm (V q)) <= 2 * (q_g * (qnorm (V p) * qnorm (V q)) + q_w).
Proof.
intro f; assert (h := product_norm p q f); rewrite <- norm_mult.
set (d := fun i => val (fqmul p q i) - hamilton (V p) (V q) i) in *.
assert (t1 := norm_add d (hamilton (V p) (V q))); assert (t2 := norm_add (fun i => -1 * d i) (V (fqmul p q))).
rewrite (norm_ext _ (V (fqmul p q))) in t1 by (intros; unfold d; ring).
rewrite (norm_ext _ (hamilton (V p) (V q))) in t2 by (intros; unfold d; ring).
rewrite norm_scal, Rabs_left in t2 by lra; rewrite norm_mult in t1, t2 |- *; apply Rabs_le; lra.
Qed.

(** * Products of many rotations: the length drifts, and the error grows, at most like (1 + d)^n (1 + 2g)^n *)
Section Chain.
Variable d : R.
Hypothesis d0 : 0 <= d.
Definition q_step (x : R) : R := (1 + 2 * q_g) * (1 + d) * x + 2 * q_w.
Fixpoint q_len (n : nat) (x : R) : R := match n with O => x | S n => q_len n (q_step x) end.
Lemma q_lenS n x : q_len (S n) x = q_step (q_len n x).
Proof. revert x; induction n as [|n IH]; intro x; [reflexivity|]; change (q_len (S n) (q_step x) = q_step (q_len n (q_step x))); apply IH. Qed.
Lemma step_mono x y : x <= y -> q_step x <= q_step y.
Proof. intro h; unfold q_step; assert (a := g0); apply Rplus_le_compat_r, Rmult_le_compat_l; [nra|exact h]. Qed.
Definition exact_chain (p : nat -> R) (qs : list fquat) : nat -> R := fold_left (fun a q => hamilton a (V q)) qs p.
Theorem C96_chain (qs : list fquat) (p : fquat) : Forall (fun q => qnorm (V q) <= 1 + d) qs -> finite_quat (fqchain prec emax p0 pe p qs) ->
  qnorm (V (fqchain prec emax p0 pe p qs)) <= q_len (length qs) (qnorm (V p)) /\
  qnorm (fun i => val (fqchain prec emax p0 pe p qs i) - exact_chain (V p) qs i) <= q_len (length qs) (qnorm (V p)) - (1 + d) ^ length qs * qnorm (V p).
Proof.
induction qs as [|q qs IH] using rev_ind; intros hq f.
- simpl; split; [lra|]; rewrite (norm_ext _ (fun i => 0 * val (p i))) by (intros; ring); rewrite norm_scal, Rabs_R0; lra.
- apply Forall_app in hq; destruct hq as [h1 h2]; inversion h2 as [|? ? h3 _]; subst.
  unfold fqchain, exact_chain in *; rewrite !fold_left_app, app_length, Nat.add_1_r in *; cbn [fold_left] in *.
  set (a := fold_left fqmul qs p) in *; set (e := fold_left (fun a q => hamilton a (V q)) qs (V p)) in *.
  assert (fa : finite_quat a) by (destruct (C96_product a q 0%nat ltac:(lia) (f 0%nat ltac:(lia))) as [k _]; exact k).
  destruct (IH h1 fa) as [b1 b2]; rewrite q_lenS; set (B := q_len (length qs) (qnorm (V p))) in *.
  assert (P := product_norm a q f); assert (L := C96_length a q f); apply Rabs_le_inv in L.
  assert (nq := q0 (V q)); assert (na := q0 (V a)); assert (gg := g0); assert (ww := w0).
  assert (M : qnorm (V a) * qnorm (V q) <= B * (1 + d)) by (apply Rmult_le_compat; assumption).
  assert (G : q_g * (qnorm (V a) * qnorm (V q)) <= q_g * (B * (1 + d))) by (apply Rmult_le_compat_l; assumption).
  split; [unfold q_step; lra|].
  rewrite (norm_ext _ (fun i => (val (fqmul a q i) - hamilton (V a) (V q) i) + hamilton (fun k => val (a k) - e k) (V q) i)) by (intros j _; assert (hl := ham_l (V a) e (V q) j); cbv beta in hl; change (val (fqmul a q j) - hamilton e (V q) j = val (fqmul a q j) - hamilton (V a) (V q) j + hamilton (fun k => val (a k) - e k) (V q) j); lra).
  apply Rle_trans with (1 := norm_add _ _); rewrite norm_mult.
  assert (E : qnorm (fun k => val (a k) - e k) * qnorm (V q) <= (B - (1 + d) ^ length qs * qnorm (V p)) * (1 + d)) by (apply Rmult_le_compat; try apply q0; assumption).
  change ((1 + d) ^ S (length qs)) with ((1 + d) * (1 + d) ^ length qs); unfold q_step; lra.
Qed.
(* in closed form *)
Theorem C96_chain_bound n x : 0 <= x -> q_len n x <= ((1 + 2 * q_g) * (1 + d)) ^ n * (x + INR n * (2 * q_w)).
Proof.
assert (gg := g0); assert (ww := w0); set (rho := (1 + 2 * q_g) * (1 + d)); assert (r1 : 1 <= rho) by (unfold rho; nra).
revert x; induction n as [|n IH]; intros x x0; [simpl; lra|].
assert (s0 : 0 <= q_step x) by (unfold q_step; fold rho; assert (0 <= rho * x) by (apply Rmult_le_pos; lra); lra).
change (q_len (S n) x) with (q_len n (q_step x)); apply Rle_trans with (1 := IH _ s0); rewrite S_INR; change (rho ^ S n) with (rho * rho ^ n).
rewrite (Rmult_comm rho), Rmult_assoc; apply Rmult_le_compat_l; [apply pow_le; lra|]; unfold q_step; fold rho.
assert (0 <= INR n * (2 * q_w)) by (apply Rmult_le_pos; [apply pos_INR|lra]); set (t := INR n * (2 * q_w)) in *.
replace (rho * (x + (INR n + 1) * (2 * q_w))) with (rho * x + rho * t + rho * (2 * q_w)) by (unfold t; ring).
assert (1 * t <= rho * t) by (apply Rmult_le_compat_r; lra); assert (1 * (2 * q_w) <= rho * (2 * q_w)) by (apply Rmult_le_compat_r; lra); lra.
Qed.
End Chain.

(** * Rotation of a vector *)
(* x: length of q, y: length of v *)
Definition rot_h (x : R) : R := q_g + q_w / x ^ 2.
Definition rot_k (x : R) : R := rot_h x / (1 - rot_h x) * (1 + u) + u.
Definition rot_i (x : R) : R := (1 + rot_k x) / x + eta.
Definition rot_err (x y : R) : R :=
  2 * (q_g * (x * y) + q_w) * rot_i x + x * y * (rot_k x / x + eta) + (q_g * (((1 + 2 * q_g) * (x * y) + 2 * q_w) * rot_i x) + q_w).
Lemma conj_val (q : fquat) i : (i < 4)%nat -> fin (fqconj prec emax p0 pe q i) = true -> fin (q i) = true /\ val (fqconj prec emax p0 pe q i) = qconjugate (V q) i.
Proof.
intros hi f; unfold fqconj in *; destruct (fmul_inv _ _ _ _ _ _ f) as [fx _]; assert (e := fmul_val _ _ _ _ _ _ f); split; [exact fx|]; rewrite e; unfold qconjugate.
destruct i as [|i]; unfold M_FloatQ.fmone; rewrite ?val_opp; unfold M_Float.fone; rewrite Bone_correct; [rewrite Rmult_1_r; apply RN_id|].
replace (val (q (S i)) * - (1)) with (- val (q (S i))) by ring; rewrite RN_opp, RN_id; reflexivity.
Qed.
Theorem C96_rotate (pad : nat) (q v r : fquat) (len2 : float) : fqrotate prec emax p0 pe pad q v len2 r -> fin len2 = true ->
  let x := qnorm (V q) in let y := vnorm (V v) in 0 < x -> rot_h x < 1 ->
  forall i, (1 <= i < 4)%nat -> fin (r i) = true -> Rabs (val (r i) - rotation (V q) (V v) i) <= rot_err x y.
Proof.
intros [hl ->] fl x y x0 h1 i hi fr.
assert (gg := g0); assert (ww := w0); assert (pu := u_pos); assert (pt := eta_pos).
set (a := fqmul q (fqpure prec emax v)) in *; set (b := fqinverse prec emax p0 pe q len2) in *.
destruct (C96_product a b i ltac:(lia) fr) as [fa [fb T]].
assert (fq : finite_quat q) by (destruct (C96_product _ _ 0%nat ltac:(lia) (fa 0%nat ltac:(lia))) as [k _]; exact k).
assert (PN := product_norm q (fqpure prec emax v) fa); fold a in PN.
assert (pv : forall k, val (fqpure prec emax v k) = pure (V v) k) by (intros [|k]; reflexivity).
rewrite (norm_ext (V (fqpure prec emax v)) (pure (V v))) in PN by (intros; apply pv); rewrite norm_pure in PN; fold x y in PN.
rewrite (norm_ext (fun i => val (a i) - _) (fun i => val (a i) - hamilton (V q) (pure (V v)) i)) in PN by (intros; rewrite (ham_ext (V q) (V (fqpure prec emax v)) (V q) (pure (V v))) by (intros; auto); reflexivity).
(* the squared length *)
assert (LQ : Rabs (val len2 - x * x) <= q_g * (x * x) + q_w).
{ assert (D : fdot prec emax p0 pe pad (map q (seq 0 4)) (map q (seq 0 4)) len2) by exact hl.
  assert (ne : map q (seq 0 4) <> []) by discriminate.
  assert (TT := C79_dot prec emax p0 pe pad _ _ len2 ne eq_refl D fl).
  unfold Props_FloatS.dot, dot_abs, Rsum, bound in TT; cbn [combine map fst snd fold_right length seq] in TT; simpl INR in TT; replace (1 + 1 + 1 + 1) with 4 in TT by ring.
  assert (e := qsq (V q)); fold x in e; repeat rewrite (Rabs_pos_eq (val _ * val _)) in TT by nra.
  replace (val (q 0%nat) * val (q 0%nat) + _) with (x * x) in TT by (rewrite e; ring); exact TT. }
assert (xx : 0 < x * x) by nra.
assert (hh : rot_h x * (x * x) = q_g * (x * x) + q_w) by (unfold rot_h; field; lra).
assert (h0 : 0 <= rot_h x) by (unfold rot_h; apply Rplus_le_le_0_compat; [exact gg|]; apply Rmult_le_pos; [exact ww|apply Rlt_le, Rinv_0_lt_compat; nra]).
apply Rabs_le_inv in LQ; rewrite <- hh in LQ.
assert (L0 : 0 < val len2) by nra.
(* the inverse *)
set (h := rot_h x) in *; set (k := rot_k x).
assert (IE : Rabs (/ val len2 - / (x * x)) <= h / (1 - h) * / (x * x)).
{ replace (/ val len2 - / (x * x)) with ((x * x - val len2) * (/ val len2 * / (x * x))) by (field; lra).
  rewrite Rabs_mult, (Rabs_pos_eq (/ val len2 * / (x * x))) by (apply Rlt_le, Rmult_lt_0_compat; apply Rinv_0_lt_compat; lra).
  assert (bd : Rabs (x * x - val len2) <= h * (x * x)) by (apply Rabs_le; lra).
  assert (il : / val len2 <= / ((1 - h) * (x * x))) by (apply Rinv_le_contravar; [nra|lra]).
  apply Rle_trans with (h * (x * x) * (/ ((1 - h) * (x * x)) * / (x * x))).
  - apply Rmult_le_compat; [apply Rabs_pos|apply Rlt_le, Rmult_lt_0_compat; apply Rinv_0_lt_compat; lra|exact bd|].
    apply Rmult_le_compat_r; [apply Rlt_le, Rinv_0_lt_compat; lra|exact il].
  - apply Req_le; field; split; lra. }
set (c := fun i => / (x * x) * qconjugate (V q) i).
assert (BE : forall j, (j < 4)%nat -> Rabs (val (b j) - c j) <= k / (x * x) * Rabs (qconjugate (V q) j) + / 2 * eta).
{ intros j hj; assert (fj := fb j hj); unfold b, fqinverse in fj.
  destruct (fdiv_inv prec emax p0 pe _ _ fj fl) as [fc [_ ev]].
  destruct (conj_val q j hj fc) as [_ cv]; unfold b, fqinverse; rewrite ev, cv; set (z := qconjugate (V q) j).
  assert (E1 := RN_error prec emax p0 (z / val len2)).
  replace (RN (z / val len2) - c j) with ((RN (z / val len2) - z / val len2) + z * (/ val len2 - / (x * x))) by (unfold c; fold z; unfold Rdiv; ring).
  apply Rle_trans with (1 := Rabs_triang _ _); rewrite Rabs_mult.
  assert (E2 : Rabs (z / val len2) <= Rabs z * (/ (x * x) + h / (1 - h) * / (x * x))).
  { unfold Rdiv at 1; rewrite Rabs_mult; apply Rmult_le_compat_l; [apply Rabs_pos|]; rewrite Rabs_pos_eq by (apply Rlt_le, Rinv_0_lt_compat, L0); apply Rabs_le_inv in IE; lra. }
  assert (E3 : Rabs z * Rabs (/ val len2 - / (x * x)) <= Rabs z * (h / (1 - h) * / (x * x))) by (apply Rmult_le_compat_l; [apply Rabs_pos|exact IE]).
  assert (E4 : u * Rabs (z / val len2) <= u * (Rabs z * (/ (x * x) + h / (1 - h) * / (x * x)))) by (apply Rmult_le_compat_l; [lra|exact E2]).
  replace (k / (x * x) * Rabs z) with (u * (Rabs z * (/ (x * x) + h / (1 - h) * / (x * x))) + Rabs z * (h / (1 - h) * / (x * x))) by (unfold k, rot_k; fold h; unfold Rdiv; ring).
  lra. }
assert (hp : 0 <= h / (1 - h)) by (apply Rmult_le_pos; [exact h0|apply Rlt_le, Rinv_0_lt_compat; lra]).
assert (k0 : 0 <= k) by (unfold k, rot_k; fold h; apply Rplus_le_le_0_compat; [apply Rmult_le_pos; lra|lra]).
assert (ic : 0 <= k / (x * x)) by (apply Rmult_le_pos; [exact k0|apply Rlt_le, Rinv_0_lt_compat; lra]).
assert (BN : qnorm (fun j => val (b j) - c j) <= k / x + eta).
{ rewrite qnormE; apply Rle_trans with (nrm 4 (fun j => k / (x * x) * Rabs (qconjugate (V q) j) + / 2 * eta)); [apply nrm_le; exact BE|].
  rewrite <- qnormE; apply Rle_trans with (1 := norm_add _ _); apply Rplus_le_compat.
  - rewrite norm_scal, qnormE, nrm_abs, <- qnormE, norm_conj, Rabs_pos_eq by exact ic; fold x; apply Req_le; field; lra.
  - apply Rle_trans with (2 * (/ 2 * eta)); [|lra]; apply norm_bound; [lra|]; intros; rewrite Rabs_pos_eq; lra. }
assert (CN : qnorm c = / x).
{ unfold c; rewrite norm_scal, norm_conj, Rabs_pos_eq by (apply Rlt_le, Rinv_0_lt_compat; lra); fold x; field; lra. }
assert (BB : qnorm (V b) <= rot_i x).
{ rewrite (norm_ext _ (fun j => (val (b j) - c j) + c j)) by (intros; ring); apply Rle_trans with (1 := norm_add _ _); rewrite CN; unfold rot_i; fold k.
  replace ((1 + k) / x) with (k / x + / x) by (field; lra); lra. }
assert (y0 : 0 <= y) by apply sqrt_pos; assert (xy : 0 <= x * y) by (apply Rmult_le_pos; lra).
assert (AN : qnorm (V a) <= (1 + 2 * q_g) * (x * y) + 2 * q_w).
{ rewrite (norm_ext _ (fun j => (val (a j) - hamilton (V q) (pure (V v)) j) + hamilton (V q) (pure (V v)) j)) by (intros; ring).
  apply Rle_trans with (1 := norm_add _ _); rewrite norm_mult, norm_pure; fold x y; lra. }
assert (ri : 0 <= rot_i x) by (apply Rle_trans with (2 := BB), q0).
(* the parts of the error *)
assert (RE : rotation (V q) (V v) i = hamilton (hamilton (V q) (pure (V v))) c i).
{ unfold rotation, c; fold x; rewrite ham_scal; unfold Rdiv; simpl pow; rewrite Rmult_1_r; ring. }
set (qv := hamilton (V q) (pure (V v))) in *.
replace (val (fqmul a b i) - rotation (V q) (V v) i) with ((val (fqmul a b i) - hamilton (V a) (V b) i) + (hamilton (fun j => val (a j) - qv j) (V b) i + hamilton qv (fun j => val (b j) - c j) i)).
- assert (t1 := entry (hamilton (fun j => val (a j) - qv j) (V b)) i ltac:(lia)); assert (t2 := entry (hamilton qv (fun j => val (b j) - c j)) i ltac:(lia)).
  rewrite norm_mult in t1, t2; assert (nq : qnorm qv = x * y) by (unfold qv; rewrite norm_mult, norm_pure; reflexivity); rewrite nq in t2.
  assert (t3 : qnorm (fun j => val (a j) - qv j) * qnorm (V b) <= 2 * (q_g * (x * y) + q_w) * rot_i x) by (apply Rmult_le_compat; try apply q0; assumption).
  assert (t4 : x * y * qnorm (fun j => val (b j) - c j) <= x * y * (k / x + eta)) by (apply Rmult_le_compat_l; assumption).
  assert (t5 : q_g * (qnorm (V a) * qnorm (V b)) <= q_g * (((1 + 2 * q_g) * (x * y) + 2 * q_w) * rot_i x)) by (apply Rmult_le_compat_l; [exact gg|]; apply Rmult_le_compat; try apply q0; assumption).
  apply Rle_trans with (1 := Rabs_triang _ _); unfold rot_err; fold k.
  assert (t6 := Rabs_triang (hamilton (fun j => val (a j) - qv j) (V b) i) (hamilton qv (fun j => val (b j) - c j) i)); lra.
- rewrite RE; assert (e1 := ham_l (V a) qv (V b) i); assert (e2 := ham_r qv (V b) c i); cbv beta in e1, e2; lra.
Qed.
(* so the length of the vector is kept *)
Theorem C96_rotate_length (pad : nat) (q v r : fquat) (len2 : float) : fqrotate prec emax p0 pe pad q v len2 r -> fin len2 = true ->
  let x := qnorm (V q) in let y := vnorm (V v) in 0 < x -> rot_h x < 1 -> (forall i, (1 <= i < 4)%nat -> fin (r i) = true) ->
  Rabs (vnorm (V r) - vnorm (V v)) <= 2 * rot_err x y.
Proof.
intros H fl x y x0 h1 fr; assert (E := fun i hi => C96_rotate pad q v r len2 H fl x0 h1 i hi (fr i hi)); fold x y in E.
assert (e0 : 0 <= rot_err x y) by (apply Rle_trans with (2 := E 1%nat ltac:(lia)), Rabs_pos).
set (d := fun i => pure (V r) i - rotation (V q) (V v) i).
assert (dn : qnorm d <= 2 * rot_err x y).
{ apply norm_bound; [exact e0|]; intros [|j] hj; unfold d; cbn [pure]; [rewrite rot_scalar, Rminus_0_r, Rabs_R0; exact e0|apply (E (S j)); lia]. }
assert (xz : qnorm (V q) <> 0) by (fold x; lra).
rewrite <- (rot_norm (V q) (V v) xz), <- norm_pure.
assert (t1 := norm_add d (rotation (V q) (V v))); assert (t2 := norm_add (fun i => -1 * d i) (pure (V r))).
rewrite (norm_ext _ (pure (V r))) in t1 by (intros; unfold d; ring).
rewrite (norm_ext _ (rotation (V q) (V v))) in t2 by (intros; unfold d; ring).
rewrite norm_scal, Rabs_left in t2 by lra; apply Rabs_le; lra.
Qed.
End FloatQ.
Print Assumptions C96_product.
Print Assumptions C96_length.
Print Assumptions C96_chain.
Print Assumptions C96_rotate.
Print Assumptions C96_rotate_length.
Print Assumptions C96_chain_bound.

(** * Examples in double precision *)
Definition dquat (a b c d : Z) (e : Z) : nat -> binary_float 53 1024 := fun i => match i with 0%nat => dbl a e | 1%nat => dbl b e | 2%nat => dbl c e | _ => dbl d e end.
Notation dqadd := (M_Float.fadd 53 1024 eq_refl eq_refl).
Notation dqmul := (M_Float.fmul 53 1024 eq_refl eq_refl).
Definition dlen2 (q : nat -> binary_float 53 1024) : binary_float 53 1024 :=
  dqadd (dqadd (dqadd (dqmul (q 0%nat) (q 0%nat)) (dqmul (q 1%nat) (q 1%nat))) (dqmul (q 2%nat) (q 2%nat))) (dqmul (q 3%nat) (q 3%nat)).
Definition drotate (q v : nat -> binary_float 53 1024) : nat -> binary_float 53 1024 :=
  M_FloatQ.fqmul 53 1024 eq_refl eq_refl (M_FloatQ.fqmul 53 1024 eq_refl eq_refl q (fqpure 53 1024 v)) (fqinverse 53 1024 eq_refl eq_refl q (dlen2 q)).
Lemma drotateP q v : fqrotate 53 1024 eq_refl eq_refl 0 q v (dlen2 q) (drotate q v).
Proof.
split; [|reflexivity]; unfold dlen2.
apply (fred_app 53 1024 dqadd [_; _; _] [_]); [apply (fred_app 53 1024 dqadd [_; _] [_]); [apply (fred_app 53 1024 dqadd [_] [_])|]|]; apply fred_one.
Qed.
(* rotation of (1, 2, 3) by 3 + 4i, which need not have length 1 *)
Example C96_example : let q := dquat 3 4 0 0 0 in let v := dquat 0 1 2 3 0 in
  fqrotate 53 1024 eq_refl eq_refl 0 q v (dlen2 q) (drotate q v) /\ is_finite (dlen2 q) = true /\ (forall i, (i < 4)%nat -> is_finite (drotate q v i) = true) /\
  qnorm (fun i => B2R (q i)) = 5 /\ vnorm (fun i => B2R (v i)) = sqrt 14 /\ rot_h 53 1024 5 < 1 /\ rot_err 53 1024 5 (sqrt 14) <= / 2 ^ 47.
Proof.
intros q v; split; [apply drotateP|split; [vm_compute; reflexivity|split]].
{ intros [|[|[|[|i]]]] hi; try lia; vm_compute; reflexivity. }
assert (v0 : B2R (dbl 0 0) = 0) by (dval; lra); assert (v1 : B2R (dbl 1 0) = 1) by (dval; lra); assert (v2 : B2R (dbl 2 0) = 2) by (dval; lra).
assert (v3 : B2R (dbl 3 0) = 3) by (dval; lra); assert (v4 : B2R (dbl 4 0) = 4) by (dval; lra).
assert (e0 := eta_pos 53 1024); assert (e1 : Props_Float.eta 53 1024 <= / 2 ^ 100).
{ apply Rle_trans with (bpow radix2 (-100)); [apply bpow_le; lia|simpl; lra]. }
assert (eu : Props_Float.u 53 = / 2 ^ 53) by (unfold Props_Float.u; simpl; lra).
split; [|split; [|split]].
- unfold qnorm, q, dquat; rewrite v0, v3, v4; replace (3 ^ 2 + 4 ^ 2 + 0 ^ 2 + 0 ^ 2) with (5 * 5) by ring; apply sqrt_square; lra.
- unfold vnorm, v, dquat; rewrite v1, v2, v3; f_equal; ring.
- unfold rot_h, q_g, q_w; rewrite eu; set (e := Props_Float.eta 53 1024) in *; interval.
- unfold rot_err, rot_i, rot_k, rot_h, q_g, q_w; rewrite eu; set (e := Props_Float.eta 53 1024) in *; interval with (i_prec 100).
Qed.
(* a chain of rotations by 3/5 + 4/5 i, rounded to double *)
Example C96_chain_example : let q := dquat 5404319552844595 7205759403792794 0 0 (-53) in
  Forall (fun q => qnorm (fun i => B2R (q i)) <= 1 + / 2 ^ 52) (repeat q 4) /\ finite_quat 53 1024 (fqchain 53 1024 eq_refl eq_refl q (repeat q 4)).
Proof.
intro q; split.
- apply Forall_forall; intros x hx; apply repeat_spec in hx; subst x; unfold qnorm, q, dquat.
  assert (v0 : B2R (dbl 0 (-53)) = 0) by (dval; lra).
  assert (v1 : B2R (dbl 5404319552844595 (-53)) = 5404319552844595 / 2 ^ 53) by (dval; lra).
  assert (v2 : B2R (dbl 7205759403792794 (-53)) = 7205759403792794 / 2 ^ 53) by (dval; lra).
  rewrite v0, v1, v2; interval with (i_prec 150).
- intros [|[|[|[|i]]]] hi; try lia; vm_compute; reflexivity.
Qed.
(* without the condition on the squared length: a quaternion of length 2^600 rotates (1, 0, 0) to (0, 0, 0) *)
Theorem C96_rotate_refuted : exists (q v r : nat -> binary_float 53 1024) (len2 : binary_float 53 1024), fqrotate 53 1024 eq_refl eq_refl 0 q v len2 r /\
  finite_quat 53 1024 q /\ finite_quat 53 1024 v /\ finite_quat 53 1024 r /\ qnorm (fun i => B2R (q i)) = bpow radix2 600 /\
  (forall i, (i < 4)%nat -> rotation (fun i => B2R (q i)) (fun i => B2R (v i)) i = B2R (v i)) /\ vnorm (fun i => B2R (v i)) = 1 /\
  (forall i, (i < 4)%nat -> B2R (r i) = 0).
Proof.
set (q := fun i : nat => match i with 0%nat => dbl 1 600 | _ => dbl 0 0 end : binary_float 53 1024); set (v := dquat 0 1 0 0 0).
exists q, v, (drotate q v), (dlen2 q).
assert (v0 : B2R (dbl 0 0) = 0) by (dval; lra); assert (v1 : B2R (dbl 1 0) = 1) by (dval; lra).
assert (vq : B2R (dbl 1 600) = bpow radix2 600).
{ rewrite <- SF2R_B2SF; match goal with |- context [B2SF ?x] => let y := eval vm_compute in (B2SF x) in change (B2SF x) with y end; unfold SF2R, F2R; cbn [cond_Zopp Fnum Fexp].
  change 4503599627370496%Z with (2 ^ 52)%Z; rewrite (IZR_Zpower radix2) by lia; rewrite <- bpow_plus; reflexivity. }
assert (bp : 0 < bpow radix2 600) by apply bpow_gt_0.
assert (qn : qnorm (fun i => B2R (q i)) = bpow radix2 600).
{ unfold qnorm, q; rewrite vq, v0; replace (_ + _) with (bpow radix2 600 * bpow radix2 600) by ring; apply sqrt_square; lra. }
split; [apply drotateP|split; [|split; [|split; [|split; [exact qn|split; [|split]]]]]].
- intros [|[|[|[|i]]]] hi; try lia; vm_compute; reflexivity.
- intros [|[|[|[|i]]]] hi; try lia; vm_compute; reflexivity.
- intros [|[|[|[|i]]]] hi; try lia; vm_compute; reflexivity.
- intros i hi; unfold rotation; rewrite qn; unfold q, v, dquat; destruct i as [|[|[|[|i]]]]; try lia; unfold hamilton, pure, qconjugate; rewrite vq, v0, ?v1; field; lra.
- unfold vnorm, v, dquat; rewrite v0, v1; replace (_ + _) with 1 by ring; apply sqrt_1.
- intros [|[|[|[|i]]]] hi; try lia; dval; lra.
Qed.
Print Assumptions C96_rotate_refuted.
