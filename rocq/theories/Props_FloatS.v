(* Property C79: rounding errors of sums, dot products and matrix products. *)
From Coq Require Import ZArith List Bool Reals Lia Lra.
From Flocq Require Import Core IEEE754.BinarySingleNaN.
From Verif Require Import M_Float P_Float P_FloatD M_FloatN P_FloatN M_FloatS Props_Float.
Import ListNotations.
Local Open Scope R_scope.

Section C79.
Variables prec emax : Z.
Context (p0 : Prec_gt_0 prec) (pe : Prec_lt_emax prec emax).
Hypothesis prec1 : (1 < prec)%Z.
Notation float := (binary_float prec emax).
Notation val := (@B2R prec emax).
Notation fin := (@is_finite prec emax).
Notation u := (u prec).
Notation eta := (eta prec emax).
Notation RN := (round radix2 (FLT_exp (SpecFloat.emin prec emax) prec) ZnearestE).
Notation fadd := (fadd prec emax p0 pe).
Notation fmul := (fmul prec emax p0 pe).
Notation ffma := (ffma prec emax p0 pe).
Notation fmadd := (fmadd prec emax p0 pe).
Notation freduce := (freduce prec emax).

(* the exact sums *)
Definition total (v : list float) : R := Rsum (map val v).
Definition total_abs (v : list float) : R := Rsum (map (fun x => Rabs (val x)) v).
Definition dot (l r : list float) : R := Rsum (map (fun p => val (fst p) * val (snd p)) (combine l r)).
Definition dot_abs (l r : list float) : R := Rsum (map (fun p => Rabs (val (fst p) * val (snd p))) (combine l r)).

Lemma u0 : 0 < u. Proof. apply bpow_gt_0. Qed.
Lemma eta0 : 0 < eta. Proof. apply bpow_gt_0. Qed.
Lemma Rsum_app a b : Rsum (a ++ b) = Rsum a + Rsum b.
Proof. unfold Rsum; induction a as [|x a IH]; simpl; [ring|rewrite IH; ring]. Qed.
Lemma total_app a b : total (a ++ b) = total a + total b.
Proof. unfold total; rewrite map_app; apply Rsum_app. Qed.
Lemma total_abs_app a b : total_abs (a ++ b) = total_abs a + total_abs b.
Proof. unfold total_abs; rewrite map_app; apply Rsum_app. Qed.
Lemma total_abs_pos v : 0 <= total_abs v.
Proof. unfold total_abs, Rsum; induction v as [|x v IH]; simpl; [lra|]; generalize (Rabs_pos (val x)); lra. Qed.
Lemma total_le v : Rabs (total v) <= total_abs v.
Proof.
unfold total, total_abs, Rsum; induction v as [|x v IH]; simpl; [rewrite Rabs_R0; lra|].
apply Rle_trans with (1 := Rabs_triang _ _); lra.
Qed.
Lemma epsE : bpow radix2 (SpecFloat.emin prec emax - 1) = / 2 * eta.
Proof.
unfold Props_Float.eta; replace (SpecFloat.emin prec emax - 1)%Z with (3 - emax - prec + -1)%Z by (unfold SpecFloat.emin; lia).
rewrite bpow_plus; change (bpow radix2 (-1)) with (/ 2); ring.
Qed.
Lemma RN_error t : Rabs (RN t - t) <= u * Rabs t + / 2 * eta.
Proof. rewrite <- epsE; apply RN_err; exact p0. Qed.

(* the number of nonzero terms *)
Definition terms (v : list float) : nat := length (filter (fun x => negb (Req_bool (val x) 0)) v).
Lemma terms_app a b : terms (a ++ b) = (terms a + terms b)%nat.
Proof. unfold terms; rewrite filter_app, app_length; reflexivity. Qed.
Lemma terms0 v : terms v = 0%nat -> total_abs v = 0.
Proof.
unfold terms, total_abs, Rsum; induction v as [|x v IH]; simpl; [reflexivity|].
destruct (Req_bool_spec (val x) 0) as [e|e]; simpl; [|discriminate]; intro h; rewrite (IH h), e, Rabs_R0; ring.
Qed.
Lemma terms_le v : (terms v <= length v)%nat.
Proof. unfold terms; induction v as [|x v IH]; simpl; [lia|]; destruct (negb _); simpl; lia. Qed.
Lemma pow1 (m : nat) : 1 <= (1 + u) ^ m.
Proof. apply pow_R1_Rle; generalize u0; lra. Qed.

Lemma sum_core lanes r : freduce fadd lanes r -> fin r = true ->
  Forall (fun x => fin x = true) lanes /\ Rabs (val r - total lanes) <= ((1 + u) ^ Nat.pred (terms lanes) - 1) * total_abs lanes.
Proof.
assert (pu := u0).
intro H; induction H as [x|s1 s2 a b H1 IH1 H2 IH2|s1 s2 a H IH]; intro f.
- split; [constructor; [exact f|constructor]|]; unfold total, total_abs, Rsum, terms; simpl.
  replace (val x - (val x + 0)) with 0 by ring; rewrite Rabs_R0; destruct (negb _); simpl; generalize (Rabs_pos (val x)); lra.
- destruct (fadd_inv _ _ _ _ _ _ f) as [fa fb]; destruct (IH1 fa) as [g1 e1]; destruct (IH2 fb) as [g2 e2].
  split; [apply Forall_app; tauto|]; rewrite (fadd_val _ _ _ _ _ _ f), total_app, total_abs_app, terms_app.
  assert (t1 := total_le s1); assert (t2 := total_le s2); assert (q1 := total_abs_pos s1); assert (q2 := total_abs_pos s2).
  destruct (terms s1) as [|n1] eqn:E1; [|destruct (terms s2) as [|n2] eqn:E2].
  + rewrite (terms0 _ E1) in *; assert (total s1 = 0) by (apply Rabs_le_inv in t1; lra).
    assert (va : val a = 0) by (simpl in e1; rewrite Rmult_0_r in e1; apply Rabs_le_inv in e1; lra).
    rewrite va, Rplus_0_l, round_generic by (auto with typeclass_instances || apply format_val); simpl plus.
    replace (val b - (total s1 + total s2)) with (val b - total s2) by lra; rewrite Rplus_0_l; exact e2.
  + rewrite (terms0 _ E2) in *; assert (total s2 = 0) by (apply Rabs_le_inv in t2; lra).
    assert (vb : val b = 0) by (simpl in e2; rewrite Rmult_0_r in e2; apply Rabs_le_inv in e2; lra).
    rewrite vb, Rplus_0_r, round_generic by (auto with typeclass_instances || apply format_val).
    replace (val a - (total s1 + total s2)) with (val a - total s1) by lra; rewrite Nat.add_0_r, Rplus_0_r; exact e1.
  + cbn [Nat.pred plus] in *; replace (n1 + S n2)%nat with (n1 + n2 + 1)%nat by lia.
    assert (er := add_error prec emax _ _ _ (format_val prec emax a) (format_val prec emax b)).
    change (bpow radix2 (- prec)) with u in er.
    set (T1 := total s1) in *; set (T2 := total s2) in *; set (A1 := total_abs s1) in *; set (A2 := total_abs s2) in *.
    set (P := (1 + u) ^ (n1 + n2)).
    assert (h1 : (1 + u) ^ n1 <= P) by (apply Rle_pow; [lra|lia]); assert (h2 : (1 + u) ^ n2 <= P) by (apply Rle_pow; [lra|lia]).
    assert (P1 : 1 <= P) by apply pow1.
    rewrite pow_add, pow_1; fold P.
    assert (c1 : ((1 + u) ^ n1 - 1) * A1 <= (P - 1) * A1) by (apply Rmult_le_compat_r; lra).
    assert (c2 : ((1 + u) ^ n2 - 1) * A2 <= (P - 1) * A2) by (apply Rmult_le_compat_r; lra).
    assert (d : Rabs (val a + val b - (T1 + T2)) <= (P - 1) * (A1 + A2)).
    { replace (val a + val b - (T1 + T2)) with ((val a - T1) + (val b - T2)) by ring; apply Rle_trans with (1 := Rabs_triang _ _); lra. }
    assert (s : Rabs (val a + val b) <= P * (A1 + A2)).
    { replace (val a + val b) with ((val a + val b - (T1 + T2)) + (T1 + T2)) by ring; apply Rle_trans with (1 := Rabs_triang _ _).
      generalize (Rabs_triang T1 T2); lra. }
    set (x := RN (val a + val b)) in *.
    replace (x - (T1 + T2)) with ((x - (val a + val b)) + (val a + val b - (T1 + T2))) by ring.
    apply Rle_trans with (1 := Rabs_triang _ _).
    assert (u * Rabs (val a + val b) <= u * (P * (A1 + A2))) by (apply Rmult_le_compat_l; lra).
    lra.
- destruct (IH f) as [g e]; split; [apply Forall_app in g; apply Forall_app; tauto|].
  rewrite total_app, total_abs_app, terms_app in *.
  rewrite (Rplus_comm (total s2)), (Rplus_comm (total_abs s2)), (Nat.add_comm (terms s2)); exact e.
Qed.
Lemma total_zeros n : total (repeat (fzero prec emax) n) = 0.
Proof. unfold total, Rsum; induction n as [|n IH]; simpl; [reflexivity|]; simpl in IH; rewrite IH; ring. Qed.
Lemma total_abs_zeros n : total_abs (repeat (fzero prec emax) n) = 0.
Proof. unfold total_abs, Rsum; induction n as [|n IH]; simpl; [reflexivity|]; simpl in IH; rewrite IH, Rabs_R0; ring. Qed.
Lemma terms_zeros n : terms (repeat (fzero prec emax) n) = 0%nat.
Proof. unfold terms; induction n as [|n IH]; simpl; [reflexivity|]; rewrite Req_bool_true by reflexivity; exact IH. Qed.

(* Sum, in any order of summation. Neither padding nor other zeros contribute to the error *)
Theorem C79_sum (pad : nat) (v : list float) (r : float) : fsum prec emax p0 pe pad v r -> fin r = true ->
  Rabs (val r - total v) <= ((1 + u) ^ Nat.pred (terms v) - 1) * total_abs v.
Proof.
intros H f; destruct (sum_core _ _ H f) as [_ e]; rewrite total_app, total_abs_app, terms_app, total_zeros, total_abs_zeros, terms_zeros in e.
rewrite Nat.add_0_r, !Rplus_0_r in e; exact e.
Qed.

Lemma sum_fin lanes r : freduce fadd lanes r -> Forall (fun x => fin x = true) lanes ->
  (1 + u) ^ length lanes * total_abs lanes < bpow radix2 emax -> fin r = true.
Proof.
assert (pu := u0).
intro H; induction H as [x|s1 s2 a b H1 IH1 H2 IH2|s1 s2 a H IH]; intros f l.
- inversion f; assumption.
- apply Forall_app in f; destruct f as [f1 f2]; rewrite app_length, total_abs_app in l.
  assert (q1 := total_abs_pos s1); assert (q2 := total_abs_pos s2).
  assert (N1 : (1 <= length s1)%nat) by (clear - H1; induction H1; rewrite ?app_length in *; simpl; lia).
  assert (N2 : (1 <= length s2)%nat) by (clear - H2; induction H2; rewrite ?app_length in *; simpl; lia).
  set (P := (1 + u) ^ (length s1 + length s2)) in *; assert (P1 : 1 <= P) by apply pow1.
  assert (l1 : (1 + u) ^ length s1 <= P) by (apply Rle_pow; [lra|lia]); assert (l2 : (1 + u) ^ length s2 <= P) by (apply Rle_pow; [lra|lia]).
  assert (m1 : (1 + u) ^ length s1 * total_abs s1 <= P * total_abs s1) by (apply Rmult_le_compat_r; lra).
  assert (m2 : (1 + u) ^ length s2 * total_abs s2 <= P * total_abs s2) by (apply Rmult_le_compat_r; lra).
  assert (z1 : 0 <= P * total_abs s1) by (apply Rmult_le_pos; lra); assert (z2 : 0 <= P * total_abs s2) by (apply Rmult_le_pos; lra).
  assert (fa : fin a = true) by (apply IH1; [exact f1|lra]); assert (fb : fin b = true) by (apply IH2; [exact f2|lra]).
  apply fadd_fin; [exact fa|exact fb|].
  destruct (sum_core _ _ H1 fa) as [_ e1]; destruct (sum_core _ _ H2 fb) as [_ e2].
  assert (er := add_error prec emax _ _ _ (format_val prec emax a) (format_val prec emax b)); change (bpow radix2 (- prec)) with u in er.
  set (Q := (1 + u) ^ (length s1 + length s2 - 1)).
  assert (PQ : P = (1 + u) * Q) by (unfold P, Q; replace (length s1 + length s2)%nat with (S (length s1 + length s2 - 1))%nat at 1 by lia; reflexivity).
  assert (Q1 : 1 <= Q) by apply pow1.
  assert (k1 := terms_le s1); assert (k2 := terms_le s2).
  assert (j1 : (1 + u) ^ Nat.pred (terms s1) <= Q) by (apply Rle_pow; [lra|lia]).
  assert (j2 : (1 + u) ^ Nat.pred (terms s2) <= Q) by (apply Rle_pow; [lra|lia]).
  assert (a1 : Rabs (val a) <= Q * total_abs s1).
  { replace (val a) with ((val a - total s1) + total s1) by ring; apply Rle_trans with (1 := Rabs_triang _ _).
    generalize (total_le s1); assert (((1 + u) ^ Nat.pred (terms s1) - 1) * total_abs s1 <= (Q - 1) * total_abs s1) by (apply Rmult_le_compat_r; lra); lra. }
  assert (a2 : Rabs (val b) <= Q * total_abs s2).
  { replace (val b) with ((val b - total s2) + total s2) by ring; apply Rle_trans with (1 := Rabs_triang _ _).
    generalize (total_le s2); assert (((1 + u) ^ Nat.pred (terms s2) - 1) * total_abs s2 <= (Q - 1) * total_abs s2) by (apply Rmult_le_compat_r; lra); lra. }
  assert (tr := Rabs_triang (val a) (val b)).
  set (x := RN (val a + val b)) in *; replace x with ((x - (val a + val b)) + (val a + val b)) by ring.
  apply Rle_lt_trans with (1 := Rabs_triang _ _); apply Rle_lt_trans with (2 := l); rewrite PQ.
  assert (s : Rabs (val a + val b) <= Q * (total_abs s1 + total_abs s2)) by lra.
  assert (u * Rabs (val a + val b) <= u * (Q * (total_abs s1 + total_abs s2))) by (apply Rmult_le_compat_l; lra); lra.
- apply IH; [apply Forall_app; apply Forall_app in f; tauto|].
  rewrite app_length, total_abs_app in *; rewrite (Nat.add_comm (length s1)), (Rplus_comm (total_abs s1)); exact l.
Qed.
(* it does not overflow if the sum of the magnitudes is within the range *)
Theorem C79_sum_finite (pad : nat) (v : list float) (r : float) : fsum prec emax p0 pe pad v r -> Forall (fun x => fin x = true) v ->
  (1 + u) ^ (length v + pad) * total_abs v < bpow radix2 emax -> fin r = true.
Proof.
intros H f l; apply (sum_fin _ _ H).
- apply Forall_app; split; [exact f|]; apply Forall_forall; intros x hx; apply repeat_spec in hx; subst x; reflexivity.
- rewrite app_length, repeat_length, total_abs_app, total_abs_zeros, Rplus_0_r; exact l.
Qed.

(** * Products *)
Definition pdot (ps : list (float * float)) : R := Rsum (map (fun p => val (fst p) * val (snd p)) ps).
Definition pdot_abs (ps : list (float * float)) : R := Rsum (map (fun p => Rabs (val (fst p) * val (snd p))) ps).
Lemma pdot_abs_pos ps : 0 <= pdot_abs ps.
Proof. unfold pdot_abs, Rsum; induction ps as [|x v IH]; simpl; [lra|]; generalize (Rabs_pos (val (fst x) * val (snd x))); lra. Qed.
Lemma pdot_le ps : Rabs (pdot ps) <= pdot_abs ps.
Proof.
unfold pdot, pdot_abs, Rsum; induction ps as [|x v IH]; simpl; [rewrite Rabs_R0; lra|].
apply Rle_trans with (1 := Rabs_triang _ _); lra.
Qed.
Lemma products ps : Forall (fun p => fin (fmul (fst p) (snd p)) = true) ps ->
  let q := map (fun p => fmul (fst p) (snd p)) ps in
  Rabs (total q - pdot ps) <= u * pdot_abs ps + INR (length ps) * (/ 2 * eta) /\
  total_abs q <= (1 + u) * pdot_abs ps + INR (length ps) * (/ 2 * eta).
Proof.
assert (pu := u0); assert (et := eta0).
unfold total, total_abs, pdot, pdot_abs, Rsum; induction ps as [|[a b] ps IH]; intro hF; cbv zeta.
- simpl; rewrite Rminus_0_r, Rabs_R0; lra.
- inversion hF as [|? ? f hF']; subst; destruct (IH hF') as [e1 e2]; clear IH; cbn [map fold_right fst snd length] in *.
  rewrite (fmul_val _ _ _ _ _ _ f), S_INR; assert (er := RN_error (val a * val b)).
  set (t := val a * val b) in *; set (x := RN t) in *.
  set (T := fold_right Rplus 0 (map val _)) in *; set (A := fold_right Rplus 0 (map (fun x0 => Rabs (val x0)) _)) in *.
  set (D := fold_right Rplus 0 (map (fun p => val (fst p) * val (snd p)) ps)) in *; set (B := fold_right Rplus 0 _) in *.
  split.
  + replace (x + T - (t + D)) with ((x - t) + (T - D)) by ring; apply Rle_trans with (1 := Rabs_triang _ _); lra.
  + assert (Rabs x <= Rabs (x - t) + Rabs t) by (replace x with ((x - t) + t) at 1 by ring; apply Rabs_triang); lra.
Qed.

(* the bound for n products *)
Definition bound (n : nat) (d : R) : R := ((1 + u) ^ n - 1) * d + INR n * (1 + u) ^ n * (/ 2 * eta).

Lemma dot_core pad ps r : ps <> [] -> fsum prec emax p0 pe pad (map (fun p => fmul (fst p) (snd p)) ps) r -> fin r = true ->
  Rabs (val r - pdot ps) <= bound (length ps) (pdot_abs ps).
Proof.
intros nn H f; assert (pu := u0); assert (et := eta0).
assert (g := proj1 (sum_core _ _ H f)); apply Forall_app in g; destruct g as [g _]; rewrite Forall_map in g.
assert (e := C79_sum pad _ r H f); destruct (products ps g) as [e1 e2]; cbv zeta in e1, e2.
set (q := map (fun p => fmul (fst p) (snd p)) ps) in *.
assert (k := terms_le q); assert (lq : length q = length ps) by apply map_length.
destruct (length ps) as [|n] eqn:E; [destruct ps; [tauto|discriminate]|].
set (P := (1 + u) ^ n); assert (P1 : 1 <= P) by apply pow1.
assert (c : (1 + u) ^ Nat.pred (terms q) <= P) by (apply Rle_pow; [lra|lia]).
assert (a0 := total_abs_pos q); assert (d0 := pdot_abs_pos ps).
unfold bound; change ((1 + u) ^ S n) with ((1 + u) * P); set (m := INR (S n)) in *; assert (m0 : 0 <= m) by apply pos_INR.
assert (c' : ((1 + u) ^ Nat.pred (terms q) - 1) * total_abs q <= (P - 1) * total_abs q) by (apply Rmult_le_compat_r; lra).
assert (c2 : (P - 1) * total_abs q <= (P - 1) * ((1 + u) * pdot_abs ps + m * (/ 2 * eta))) by (apply Rmult_le_compat_l; lra).
replace (val r - pdot ps) with ((val r - total q) + (total q - pdot ps)) by ring; apply Rle_trans with (1 := Rabs_triang _ _).
assert (z : 0 <= m * (/ 2 * eta) * (u * P)) by (repeat apply Rmult_le_pos; lra).
set (me := m * (/ 2 * eta)) in *; replace (m * ((1 + u) * P) * (/ 2 * eta)) with (me * P + me * (u * P)) by (unfold me; ring).
lra.
Qed.
(* Dot, in any order of summation *)
Theorem C79_dot (pad : nat) (lhs rhs : list float) (r : float) : lhs <> [] -> length lhs = length rhs ->
  fdot prec emax p0 pe pad lhs rhs r -> fin r = true ->
  Rabs (val r - dot lhs rhs) <= bound (length lhs) (dot_abs lhs rhs).
Proof.
intros nl el H f.
assert (E : length lhs = length (combine lhs rhs)) by (rewrite combine_length, el; lia).
rewrite E; apply (dot_core pad); [|exact H|exact f]; intro h; rewrite h in E; destruct lhs; [tauto|discriminate].
Qed.

Lemma bound_pos n d : 0 <= d -> 0 <= bound n d.
Proof.
intro h; assert (p := pow1 n); assert (q := pos_INR n); assert (et := eta0); unfold bound; apply Rplus_le_le_0_compat; repeat apply Rmult_le_pos; lra.
Qed.
Lemma madd_step fused (a b acc : float) (S D : R) n : (1 <= n)%nat -> fin (fmadd fused a b acc) = true -> Rabs S <= D -> Rabs (val acc - S) <= bound n D ->
  let t := val a * val b in fin acc = true /\ Rabs (val (fmadd fused a b acc) - (t + S)) <= bound (n + 1) (Rabs t + D).
Proof.
intros hn f hS e t; assert (pu := u0); assert (et := eta0); assert (D0 : 0 <= D) by (apply Rle_trans with (2 := hS), Rabs_pos).
assert (t0 := Rabs_pos t); assert (P1 := pow1 n); unfold bound in *; rewrite pow_add, pow_1, plus_INR; change (INR 1) with 1.
assert (Pu : 1 + u <= (1 + u) ^ n) by (rewrite <- (pow_1 (1 + u)) at 1; apply Rle_pow; [lra|exact hn]).
set (P := (1 + u) ^ n) in *; set (m := INR n) in *; assert (m0 : 0 <= m) by apply pos_INR.
set (h := / 2 * eta) in *; assert (h0 : 0 < h) by (unfold h; lra).
assert (X : Rabs (t + val acc) <= Rabs t + D + ((P - 1) * D + m * P * h)).
{ replace (t + val acc) with (t + S + (val acc - S)) by ring; apply Rle_trans with (1 := Rabs_triang _ _).
  generalize (Rabs_triang t S); lra. }
assert (z1 : 0 <= m * P * h) by (repeat apply Rmult_le_pos; lra).
assert (z2 : 0 <= (P - 1) * (Rabs t)) by (repeat apply Rmult_le_pos; lra).
assert (z3 : h <= P * h) by (rewrite <- (Rmult_1_l h) at 1; apply Rmult_le_compat_r; lra).
assert (z4 : 0 <= u * (P * h)) by (repeat apply Rmult_le_pos; lra).
assert (z5 : (1 + u) * (1 + u) * Rabs t <= P * (1 + u) * Rabs t) by (apply Rmult_le_compat_r; [lra|]; apply Rmult_le_compat_r; lra).
assert (z6 : 0 <= u * ((P - 1) * Rabs t)) by (apply Rmult_le_pos; lra).
destruct fused; unfold M_FloatS.fmadd in *.
- destruct (ffma_inv _ _ _ _ _ _ _ f) as [_ [_ fa]]; split; [exact fa|]; rewrite (ffma_val _ _ _ _ _ _ _ f); fold t.
  assert (er := RN_error (t + val acc)); fold h in er; set (x := RN (t + val acc)) in *.
  replace (x - (t + S)) with ((x - (t + val acc)) + (val acc - S)) by ring; apply Rle_trans with (1 := Rabs_triang _ _).
  assert (u * Rabs (t + val acc) <= u * (Rabs t + D + ((P - 1) * D + m * P * h))) by (apply Rmult_le_compat_l; lra).
  lra.
- destruct (fadd_inv _ _ _ _ _ _ f) as [fp fa]; split; [exact fa|]; rewrite (fadd_val _ _ _ _ _ _ f), (fmul_val _ _ _ _ _ _ fp); fold t.
  assert (e1 := RN_error t); fold h in e1; assert (F : generic_format radix2 (FLT_exp (SpecFloat.emin prec emax) prec) (RN t)).
  { apply generic_format_round; auto with typeclass_instances. }
  assert (e2 := add_error prec emax _ _ _ F (format_val prec emax acc)); change (bpow radix2 (- prec)) with u in e2.
  set (y := RN t) in *; set (x := RN (y + val acc)) in *.
  assert (Y : Rabs (y + val acc) <= (u * Rabs t + h) + (Rabs t + D + ((P - 1) * D + m * P * h))).
  { replace (y + val acc) with ((y - t) + (t + val acc)) by ring; apply Rle_trans with (1 := Rabs_triang _ _); lra. }
  replace (x - (t + S)) with ((x - (y + val acc)) + ((y - t) + (val acc - S))) by ring; apply Rle_trans with (1 := Rabs_triang _ _).
  assert (tr := Rabs_triang (y - t) (val acc - S)).
  assert (u * Rabs (y + val acc) <= u * ((u * Rabs t + h) + (Rabs t + D + ((P - 1) * D + m * P * h)))) by (apply Rmult_le_compat_l; lra).
  assert (h * u <= u * (P * h)) by (rewrite (Rmult_comm h u); apply Rmult_le_compat_l; lra).
  lra.
Qed.
Lemma Rsum_snoc l x : Rsum (l ++ [x]) = x + Rsum l.
Proof. rewrite Rsum_app; unfold Rsum; simpl; ring. Qed.
(* the element accumulated by MultiplyAdd, fused or not *)
Lemma run_core fused ps p : let r := fold_left (fun acc q => fmadd fused (fst q) (snd q) acc) ps (fmul (fst p) (snd p)) in fin r = true ->
  Rabs (val r - pdot (p :: ps)) <= bound (length (p :: ps)) (pdot_abs (p :: ps)).
Proof.
induction ps as [|q ps IH] using rev_ind; cbv zeta.
- intro f; cbn [fold_left] in f |- *; rewrite (fmul_val _ _ _ _ _ _ f); unfold pdot, pdot_abs, Rsum, bound; cbn [map fold_right length]; rewrite !Rplus_0_r, pow_1.
  set (t := val (fst p) * val (snd p)); assert (er := RN_error t); change (INR 1) with 1; assert (pu := u0); assert (et := eta0).
  assert (0 <= u * (/ 2 * eta)) by (apply Rmult_le_pos; lra); lra.
- rewrite fold_left_app; cbn [fold_left]; intro f.
  set (acc := fold_left _ ps _) in *; cbv zeta in IH.
  rewrite app_comm_cons; unfold pdot, pdot_abs in *; rewrite !map_app; cbn [map]; rewrite !Rsum_snoc, app_length; cbn [length].
  assert (fa : fin acc = true).
  { destruct fused; unfold M_FloatS.fmadd in f; [apply ffma_inv in f|apply fadd_inv in f]; tauto. }
  apply madd_step; [simpl; lia|exact f|apply (pdot_le (p :: ps))|exact (IH fa)].
Qed.
Theorem C79_run (fused : bool) (lhs rhs : list float) : lhs <> [] -> length lhs = length rhs ->
  let r := frun prec emax p0 pe fused lhs rhs in fin r = true ->
  Rabs (val r - dot lhs rhs) <= bound (length lhs) (dot_abs lhs rhs).
Proof.
intros nl el r; unfold r, frun, dot, dot_abs.
assert (E : length lhs = length (combine lhs rhs)) by (rewrite combine_length, el; lia); rewrite E.
destruct (combine lhs rhs) as [|p ps]; [destruct lhs; [tauto|discriminate]|]; apply run_core.
Qed.

(* matrix products, for every combination of layouts, with fused multiplication and addition or without *)
Lemma sum_f (f : nat -> R) k : Rsum (map f (seq 0 k)) = match k with O => 0 | S m => sum_f_R0 f m end.
Proof.
induction k as [|k IH]; [reflexivity|]; rewrite seq_S, map_app; simpl map; rewrite Rsum_snoc, IH; destruct k; simpl; ring.
Qed.
Lemma combine_map (f g : nat -> float) l : combine (map f l) (map g l) = map (fun i => (f i, g i)) l.
Proof. induction l as [|x l IH]; simpl; [reflexivity|rewrite IH; reflexivity]. Qed.
Theorem C79_product (rm1 rm2 fused : bool) (pad n : nat) (A B : nat -> nat -> float) (i j : nat) (r : float) :
  fproduct prec emax p0 pe rm1 rm2 fused pad (S n) A B i j r -> fin r = true ->
  Rabs (val r - sum_f_R0 (fun l => val (A i l) * val (B l j)) n) <=
  bound (S n) (sum_f_R0 (fun l => Rabs (val (A i l) * val (B l j))) n).
Proof.
intros H f.
assert (X : Rabs (val r - dot (row_of prec emax (S n) A i) (column_of prec emax (S n) B j)) <=
  bound (length (row_of prec emax (S n) A i)) (dot_abs (row_of prec emax (S n) A i) (column_of prec emax (S n) B j))).
{ unfold fproduct in H; assert (nl : row_of prec emax (S n) A i <> []) by discriminate.
  assert (el : length (row_of prec emax (S n) A i) = length (column_of prec emax (S n) B j)) by (unfold row_of, column_of; rewrite !map_length; reflexivity).
  destruct (rm1 && negb rm2)%bool; [apply (C79_dot pad); assumption|]; subst r; apply C79_run; assumption. }
unfold dot, dot_abs, row_of, column_of in X; rewrite combine_map, !map_map, map_length, seq_length in X; cbn [fst snd] in X.
rewrite (sum_f (fun l => val (A i l) * val (B l j)) (S n)), (sum_f (fun l => Rabs (val (A i l) * val (B l j))) (S n)) in X; exact X.
Qed.
(* vector x matrix *)
Theorem C79_vector_matrix (rm fused : bool) (pad n : nat) (v : list float) (B : nat -> nat -> float) (j : nat) (r : float) :
  length v = S n -> fvec_mat prec emax p0 pe rm fused pad (S n) v B j r -> fin r = true ->
  Rabs (val r - dot v (column_of prec emax (S n) B j)) <= bound (S n) (dot_abs v (column_of prec emax (S n) B j)).
Proof.
intros lv H f; replace (bound (S n)) with (bound (length v)) by (rewrite lv; reflexivity); assert (nv : v <> []) by (destruct v; discriminate).
assert (el : length v = length (column_of prec emax (S n) B j)) by (unfold column_of; rewrite map_length, seq_length; exact lv).
unfold fvec_mat in H; destruct rm; [subst r; apply C79_run; assumption|apply (C79_dot pad); assumption].
Qed.

(** * Small integers, and their multiples by a power of two, are summed exactly *)
Definition grid (e : Z) (t : R) : Prop := exists m, t = IZR m * bpow radix2 e.
Lemma grid_add e s t : grid e s -> grid e t -> grid e (s + t).
Proof. intros [m ->] [n ->]; exists (m + n)%Z; rewrite plus_IZR; ring. Qed.
Lemma grid_exact e t : (SpecFloat.emin prec emax <= e)%Z -> grid e t -> Rabs t <= bpow radix2 (prec + e) -> RN t = t.
Proof. intros he [m ->] h; apply round_generic; [auto with typeclass_instances|]; apply format_multiple; assumption. Qed.
Lemma sum_exact e lanes r : (SpecFloat.emin prec emax <= e)%Z -> freduce fadd lanes r ->
  Forall (fun x => fin x = true /\ grid e (val x)) lanes -> total_abs lanes <= bpow radix2 (prec + e) -> total_abs lanes < bpow radix2 emax ->
  fin r = true /\ val r = total lanes /\ grid e (val r).
Proof.
intros he H; induction H as [x|s1 s2 a b H1 IH1 H2 IH2|s1 s2 a H IH]; intros hF l1 l2.
- inversion hF; split; [tauto|]; split; [unfold total, Rsum; simpl; ring|tauto].
- apply Forall_app in hF; rewrite total_abs_app in l1, l2; assert (q1 := total_abs_pos s1); assert (q2 := total_abs_pos s2).
  destruct IH1 as [f1 [v1 g1]]; [tauto|lra|lra|]; destruct IH2 as [f2 [v2 g2]]; [tauto|lra|lra|].
  assert (g := grid_add e _ _ g1 g2).
  assert (A : Rabs (val a + val b) <= total_abs s1 + total_abs s2).
  { rewrite v1, v2; apply Rle_trans with (1 := Rabs_triang _ _); generalize (total_le s1) (total_le s2); lra. }
  assert (E : RN (val a + val b) = val a + val b) by (apply (grid_exact e); [exact he|exact g|lra]).
  assert (f : fin (fadd a b) = true) by (apply fadd_fin; [exact f1|exact f2|rewrite E; lra]).
  split; [exact f|]; rewrite (fadd_val _ _ _ _ _ _ f), E, total_app, <- v1, <- v2; split; [reflexivity|exact g].
- rewrite total_abs_app, total_app in *; rewrite Rplus_comm in l1, l2 |- *; apply IH; [|exact l1|exact l2]; apply Forall_app; apply Forall_app in hF; tauto.
Qed.
Lemma mul_exact e (a b : float) : (SpecFloat.emin prec emax <= e)%Z -> fin a = true -> fin b = true -> grid e (val a * val b) ->
  Rabs (val a * val b) <= bpow radix2 (prec + e) -> Rabs (val a * val b) < bpow radix2 emax ->
  fin (fmul a b) = true /\ val (fmul a b) = val a * val b.
Proof.
intros he fa fb g l1 l2; assert (E : RN (val a * val b) = val a * val b) by (apply (grid_exact e); assumption).
assert (f : fin (fmul a b) = true) by (apply fmul_fin; [exact fa|exact fb|rewrite E; exact l2]).
split; [exact f|]; rewrite (fmul_val _ _ _ _ _ _ f); exact E.
Qed.
Lemma run_exact e fused ps p : (SpecFloat.emin prec emax <= e)%Z ->
  Forall (fun p => fin (fst p) = true /\ fin (snd p) = true /\ grid e (val (fst p) * val (snd p))) (p :: ps) ->
  pdot_abs (p :: ps) <= bpow radix2 (prec + e) -> pdot_abs (p :: ps) < bpow radix2 emax ->
  let r := fold_left (fun acc q => fmadd fused (fst q) (snd q) acc) ps (fmul (fst p) (snd p)) in
  fin r = true /\ val r = pdot (p :: ps) /\ grid e (val r).
Proof.
intro he; induction ps as [|q ps IH] using rev_ind; cbv zeta.
- intros hF l1 l2; unfold pdot_abs, pdot, Rsum in *; cbn [map fold_right fold_left] in *; rewrite Rplus_0_r in *.
  inversion hF as [|? ? [f1 [f2 g]] _]; subst; destruct (mul_exact e _ _ he f1 f2 g l1 l2) as [f E]; rewrite E; tauto.
- intros hF l1 l2; rewrite fold_left_app; cbn [fold_left]; set (acc := fold_left _ ps _) in *; cbv zeta in IH.
  rewrite app_comm_cons in hF, l1, l2 |- *; apply Forall_app in hF; destruct hF as [hF hq]; inversion hq as [|? ? [f1 [f2 g]] _]; subst.
  unfold pdot, pdot_abs in *; rewrite map_app in l1, l2 |- *; cbn [map] in l1, l2 |- *; fold (pdot_abs (p :: ps)) in *.
  change (val (fst p) * val (snd p) :: map (fun p1 => val (fst p1) * val (snd p1)) ps) with (map (fun p1 => val (fst p1) * val (snd p1)) (p :: ps)).
  change (Rabs (val (fst p) * val (snd p)) :: map (fun p1 => Rabs (val (fst p1) * val (snd p1))) ps) with (map (fun p1 => Rabs (val (fst p1) * val (snd p1))) (p :: ps)) in *.
  rewrite Rsum_snoc in l1, l2 |- *; fold (pdot (p :: ps)) (pdot_abs (p :: ps)) in *.
  assert (d0 := pdot_abs_pos (p :: ps)); set (t := val (fst q) * val (snd q)) in *; assert (t0 := Rabs_pos t).
  destruct IH as [fa [va ga]]; [exact hF|lra|lra|].
  assert (G := grid_add e _ _ g ga).
  assert (A : Rabs (t + val acc) <= Rabs t + pdot_abs (p :: ps)).
  { rewrite va; apply Rle_trans with (1 := Rabs_triang _ _); generalize (pdot_le (p :: ps)); lra. }
  assert (E : RN (t + val acc) = t + val acc) by (apply (grid_exact e); [exact he|exact G|lra]).
  assert (R : fin (fmadd fused (fst q) (snd q) acc) = true /\ val (fmadd fused (fst q) (snd q) acc) = t + val acc).
  { destruct fused; unfold M_FloatS.fmadd.
    - assert (f : fin (ffma (fst q) (snd q) acc) = true) by (apply ffma_fin; [exact f1|exact f2|exact fa|fold t; rewrite E; lra]).
      split; [exact f|]; rewrite (ffma_val _ _ _ _ _ _ _ f); exact E.
    - destruct (mul_exact e (fst q) (snd q) he f1 f2 g) as [fm em]; [fold t; lra|fold t; lra|]; fold t in em.
      assert (f : fin (fadd (fmul (fst q) (snd q)) acc) = true) by (apply fadd_fin; [exact fm|exact fa|rewrite em, E; lra]).
      split; [exact f|]; rewrite (fadd_val _ _ _ _ _ _ f), em; exact E. }
  destruct R as [R1 R2]; split; [exact R1|]; rewrite R2; split; [rewrite va; reflexivity|exact G].
Qed.
(* all layouts give the exact, hence the same, result *)
Theorem C79_exact (rm1 rm2 fused : bool) (pad n : nat) (A B : nat -> nat -> float) (i j : nat) (r : float) (e : Z) :
  (SpecFloat.emin prec emax <= e)%Z ->
  (forall l, (l <= n)%nat -> fin (A i l) = true /\ fin (B l j) = true /\ exists m, val (A i l) * val (B l j) = IZR m * bpow radix2 e) ->
  sum_f_R0 (fun l => Rabs (val (A i l) * val (B l j))) n <= bpow radix2 (prec + e) ->
  sum_f_R0 (fun l => Rabs (val (A i l) * val (B l j))) n < bpow radix2 emax ->
  fproduct prec emax p0 pe rm1 rm2 fused pad (S n) A B i j r ->
  fin r = true /\ val r = sum_f_R0 (fun l => val (A i l) * val (B l j)) n.
Proof.
intros he hF l1 l2 H; set (ps := combine (row_of prec emax (S n) A i) (column_of prec emax (S n) B j)).
assert (D : pdot_abs ps = sum_f_R0 (fun l => Rabs (val (A i l) * val (B l j))) n).
{ unfold ps, pdot_abs, row_of, column_of; rewrite combine_map, map_map; cbn [fst snd].
  rewrite (sum_f (fun l => Rabs (val (A i l) * val (B l j))) (S n)); reflexivity. }
assert (D' : pdot ps = sum_f_R0 (fun l => val (A i l) * val (B l j)) n).
{ unfold ps, pdot, row_of, column_of; rewrite combine_map, map_map; cbn [fst snd].
  rewrite (sum_f (fun l => val (A i l) * val (B l j)) (S n)); reflexivity. }
rewrite <- D in l1, l2; rewrite <- D'.
assert (F : Forall (fun p => fin (fst p) = true /\ fin (snd p) = true /\ grid e (val (fst p) * val (snd p))) ps).
{ unfold ps, row_of, column_of; rewrite combine_map, Forall_map; apply Forall_forall; intros l hl; apply in_seq in hl; cbn [fst snd].
  apply hF; lia. }
unfold fproduct in H; destruct (rm1 && negb rm2)%bool.
- unfold fdot in H; fold ps in H.
  assert (Q : Forall (fun p => fin (fmul (fst p) (snd p)) = true /\ val (fmul (fst p) (snd p)) = val (fst p) * val (snd p)) ps).
  { assert (M : forall p, In p ps -> Rabs (val (fst p) * val (snd p)) <= pdot_abs ps).
    { clear; intros p; unfold pdot_abs, Rsum; induction ps as [|q ps IH]; [intros []|]; cbn [map fold_right]; intros [->|h].
      - generalize (pdot_abs_pos ps); unfold pdot_abs, Rsum; lra.
      - generalize (IH h) (Rabs_pos (val (fst q) * val (snd q))); lra. }
    apply Forall_forall; intros p hp; rewrite Forall_forall in F; destruct (F p hp) as [f1 [f2 g]]; specialize (M p hp).
    apply (mul_exact e); [exact he|exact f1|exact f2|exact g|lra|lra]. }
  assert (T : total (map (fun p => fmul (fst p) (snd p)) ps) = pdot ps /\ total_abs (map (fun p => fmul (fst p) (snd p)) ps) = pdot_abs ps).
  { clear - Q; unfold total, total_abs, pdot, pdot_abs; rewrite !map_map; split; f_equal; apply map_ext_in; intros p hp;
      rewrite Forall_forall in Q; rewrite (proj2 (Q p hp)); reflexivity. }
  destruct T as [T1 T2]; unfold fsum in H.
  destruct (sum_exact e _ r he H) as [f [v _]].
  + apply Forall_app; split.
    * rewrite Forall_map, Forall_forall; intros p hp; rewrite Forall_forall in F, Q; destruct (Q p hp) as [q1 q2]; rewrite q2; split; [exact q1|apply F, hp].
    * apply Forall_forall; intros x hx; apply repeat_spec in hx; subst x; split; [reflexivity|]; exists 0%Z; simpl; ring.
  + rewrite total_abs_app, total_abs_zeros, T2, Rplus_0_r; exact l1.
  + rewrite total_abs_app, total_abs_zeros, T2, Rplus_0_r; exact l2.
  + split; [exact f|]; rewrite v, total_app, total_zeros, T1; ring.
- subst r; unfold frun; fold ps.
  destruct ps as [|p ps'] eqn:E; [discriminate|]; destruct (run_exact e fused ps' p he F l1 l2) as [f [v _]]; split; [exact f|exact v].
Qed.
End C79.
Print Assumptions C79_sum.
Print Assumptions C79_sum_finite.
Print Assumptions C79_dot.
Print Assumptions C79_run.
Print Assumptions C79_product.
Print Assumptions C79_vector_matrix.
Print Assumptions C79_exact.

(** * Concrete cases in double precision *)
(* the order of summation matters: (2^60 + 1) - 2^60 = 0, (2^60 - 2^60) + 1 = 1; both are within the bound of C79_sum *)
Example C79_order : let v := [dbl 1 60; dbl 1 0; dbl (-1) 60] in
  exists r1 r2, fsum 53 1024 eq_refl eq_refl 0 v r1 /\ fsum 53 1024 eq_refl eq_refl 0 v r2 /\
    is_finite r1 = true /\ is_finite r2 = true /\ B2R r1 = 0 /\ B2R r2 = 1.
Proof.
cbv zeta; set (x := dbl 1 60); set (y := dbl 1 0); set (z := dbl (-1) 60).
exists (dadd (dadd x y) z), (dadd (dadd z x) y); split; [|split; [|repeat split; try (vm_compute; reflexivity); dval; lra]].
- apply (fred_app 53 1024 dadd [x; y] [z]); [apply (fred_app 53 1024 dadd [x] [y])|]; apply fred_one.
- apply (fred_swap 53 1024 dadd [z] [x; y]), (fred_app 53 1024 dadd [z; x] [y]); [apply (fred_app 53 1024 dadd [z] [x])|]; apply fred_one.
Qed.
(* the layouts can give different results: (2^27 + 1)(2^27 - 1) - 2^27 2^27 with and without fused operations *)
Example C79_layouts : let A := fun i l : nat => match l with O => dbl 134217728 0 | _ => dbl 134217729 0 end in
  let B := fun l j : nat => match l with O => dbl (-134217728) 0 | _ => dbl 134217727 0 end in
  exists r1 r2, fproduct 53 1024 eq_refl eq_refl true true true 0 2 A B 0 0 r1 /\ fproduct 53 1024 eq_refl eq_refl true true false 0 2 A B 0 0 r2 /\
    is_finite r1 = true /\ is_finite r2 = true /\ B2R r1 = -1 /\ B2R r2 = 0.
Proof.
cbv zeta; eexists; eexists; split; [reflexivity|]; split; [reflexivity|]; repeat split; try (vm_compute; reflexivity).
set (t := frun _ _ _ _ _ _ _); change (B2R t = -1); unfold t; dval; lra.
Qed.
(* integers: the hypotheses of C79_exact with e = 0 *)
Example C79_integers : let A := fun i l : nat => dbl (Z.of_nat (i + l)) 0 in let B := fun l j : nat => dbl 3 0 in
  (forall l, (l <= 1)%nat -> is_finite (A 1%nat l) = true /\ is_finite (B l 0%nat) = true /\ exists m, B2R (A 1%nat l) * B2R (B l 0%nat) = IZR m * bpow radix2 0) /\
  sum_f_R0 (fun l => Rabs (B2R (A 1%nat l) * B2R (B l 0%nat))) 1 = 9.
Proof.
assert (v1 : B2R (dbl (Z.of_nat 1) 0) = 1) by (dval; lra); assert (v2 : B2R (dbl (Z.of_nat 2) 0) = 2) by (dval; lra); assert (v3 : B2R (dbl 3 0) = 3) by (dval; lra).
cbv zeta; split.
- intros [|[|l]] hl; [| |lia]; cbn [plus]; (split; [reflexivity|split; [reflexivity|]]).
  + exists 3%Z; rewrite v1, v3; simpl; ring.
  + exists 6%Z; rewrite v2, v3; simpl; ring.
- cbn [sum_f_R0 plus]; rewrite v1, v2, v3, !Rabs_pos_eq by lra; ring.
Qed.
