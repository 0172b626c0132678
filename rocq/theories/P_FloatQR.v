(* Lemmas for C92: one reflection of the floating point QR decomposition. *)
From Coq Require Import ZArith List Arith Bool Reals Lia Lra Psatz.
From Flocq Require Import Core IEEE754.BinarySingleNaN Mult_error.
From Verif Require Import M_Float P_Float P_FloatD M_FloatN P_FloatN M_FloatS M_FloatLU P_FloatLU P_FloatTri M_FloatQR Props_Float Props_FloatN Props_FloatS P_Norm.
Import ListNotations.
Local Open Scope R_scope.

Section FloatQR.
Variables prec emax : Z.
Context (p0 : Prec_gt_0 prec) (pe : Prec_lt_emax prec emax).
Hypothesis prec1 : (1 < prec)%Z.
Notation float := (binary_float prec emax).
Notation val := (@B2R prec emax).
Notation fin := (@is_finite prec emax).
Notation u := (u prec).
Notation eta := (eta prec emax).
Notation RN := (round radix2 (FLT_exp (SpecFloat.emin prec emax) prec) ZnearestE).
Notation format := (generic_format radix2 (FLT_exp (SpecFloat.emin prec emax) prec)).
Notation fmat := (fmat prec emax).
Variable fmax : float -> float -> float.
Variable fused : bool.
Notation freflect := (freflect prec emax p0 pe fused).
Notation frun := (frun prec emax p0 pe fused).
Notation fsub := (fsub prec emax p0 pe).
Notation fmul := (fmul prec emax p0 pe).
Notation fdiv := (fdiv prec emax p0 pe).
Notation fzero := (fzero prec emax).
Notation fone := (fone prec emax p0 pe).
Notation ftwo := (ftwo prec emax p0 pe).
Notation fmadd := (fmadd prec emax p0 pe).

Lemma up' : 0 < u. Proof. apply bpow_gt_0. Qed.
Lemma eta0' : 0 < eta. Proof. apply bpow_gt_0. Qed.
Lemma two_val : fin ftwo = true -> val ftwo = 2.
Proof.
intro h; unfold M_FloatQR.ftwo in *; rewrite (fadd_val _ _ _ _ _ _ h); unfold fone; rewrite Bone_correct; replace (1 + 1) with 2 by ring.
apply round_generic; [auto with typeclass_instances|]; change 2 with (bpow radix2 1); apply generic_format_bpow; unfold FLT_exp, SpecFloat.emin; generalize (prec_lt_emax prec emax); lia.
Qed.
Lemma double_val x : fin (fmul ftwo x) = true -> fin x = true /\ val (fmul ftwo x) = 2 * val x.
Proof.
intro h; destruct (fmul_inv _ _ _ _ _ _ h) as [h2 hx]; split; [exact hx|]; rewrite (fmul_val _ _ _ _ _ _ h), (two_val h2).
apply round_generic; [auto with typeclass_instances|].
replace (2 * val x) with (val x * bpow radix2 1) by (simpl; lra); apply mult_bpow_pos_exact_FLT; [apply format_val|lia].
Qed.
Lemma combine_self (f g : nat -> float) l : combine (map f l) (map g l) = map (fun i => (f i, g i)) l.
Proof. induction l as [|x l IH]; simpl; [reflexivity|rewrite IH; reflexivity]. Qed.
Lemma Rsum_lsum (f : nat -> R) l : Rsum (map f l) = lsum f l.
Proof. induction l as [|x l IH]; [reflexivity|]; unfold Rsum, lsum in *; simpl; rewrite IH; reflexivity. Qed.
Lemma run_fin a b : length a = length b -> fin (frun a b) = true -> Forall (fun x => fin x = true) a /\ Forall (fun x => fin x = true) b.
Proof.
unfold frun; destruct a as [|x a]; destruct b as [|y b]; try discriminate; intros hl; [repeat constructor|]; injection hl as hl; cbn [combine].
assert (K : forall a b z, length a = length b -> fin (fold_left (fun acc q => fmadd fused (fst q) (snd q) acc) (combine a b) z) = true ->
  fin z = true /\ Forall (fun x => fin x = true) a /\ Forall (fun x => fin x = true) b).
{ clear; induction a as [|x a IH]; intros [|y b] z hl; try discriminate; simpl; [intro; repeat constructor; assumption|].
  injection hl as hl; intro h; destruct (IH b _ hl h) as [h1 [h2 h3]].
  assert (h4 : fin x = true /\ fin y = true /\ fin z = true).
  { unfold M_FloatS.fmadd in h1; destruct fused; [exact (ffma_inv _ _ _ _ _ _ _ h1)|].
    destruct (fadd_inv _ _ _ _ _ _ h1) as [h5 h6]; destruct (fmul_inv _ _ _ _ _ _ h5); auto. }
  destruct h4 as [? [? ?]]; repeat constructor; assumption. }
intro h; destruct (K a b _ hl h) as [h1 [h2 h3]]; destruct (fmul_inv _ _ _ _ _ _ h1); split; constructor; assumption.
Qed.

(* one element of R - 2 v (v R) *)
Definition gm (m : nat) : R := (1 + u) ^ (m + 2) - 1.
Lemma sub_rel a b : Rabs (RN (val a - val b) - (val a - val b)) <= u * Rabs (val a - val b).
Proof. replace (val a - val b) with (val a + - val b) by ring; apply add_error; [exact p0|apply format_val|apply generic_format_opp, format_val]. Qed.
Lemma reflect_element (m : nat) (v : nat -> float) (X : fmat) i j : (0 < m)%nat -> fin (freflect m v X i j) = true ->
  fin (X i j) = true /\ fin (v i) = true /\ (forall l, (l < m)%nat -> fin (v l) = true /\ fin (X l j) = true) /\
  Rabs (val (freflect m v X i j) - (val (X i j) - 2 * val (v i) * dot m (fun l => val (v l)) (fun l => val (X l j)))) <=
  u * Rabs (val (X i j)) + 2 * Rabs (val (v i)) * (gm m * lsum (fun l => Rabs (val (v l) * val (X l j))) (seq 0 m) + (1 + u) ^ (m + 2) * (INR m * (/ 2 * eta))) + (1 + u) * (/ 2 * eta).
Proof.
intros m0 h; unfold M_FloatQR.freflect in *; set (w := frun (elements prec emax m v) (column_of prec emax m X j)) in *.
change (frun [fmul ftwo (v i)] [w]) with (fmul (fmul ftwo (v i)) w) in *.
destruct (fsub_inv _ _ _ _ _ _ h) as [hx ht]; destruct (fmul_inv _ _ _ _ _ _ ht) as [ha hw]; destruct (double_val _ ha) as [hv ev].
assert (L : length (elements prec emax m v) = length (column_of prec emax m X j)) by (unfold elements, column_of; rewrite !map_length; reflexivity).
assert (nl : elements prec emax m v <> []) by (unfold elements; destruct m; [lia|discriminate]).
assert (W := C79_run prec emax p0 pe fused (elements prec emax m v) (column_of prec emax m X j) nl L hw).
destruct (run_fin _ _ L hw) as [fv fX]; unfold elements, column_of in fv, fX; rewrite Forall_map, Forall_forall in fv; rewrite Forall_map, Forall_forall in fX.
split; [exact hx|split; [exact hv|split]].
{ intros l hl; split; [apply fv|apply fX]; apply in_seq; lia. }
fold w in W; unfold Props_FloatS.bound, Props_FloatS.dot, dot_abs in W; unfold elements, column_of in W; rewrite map_length, seq_length, combine_self, !map_map, !Rsum_lsum in W; cbn [fst snd] in W.
change (lsum (fun x => val (v x) * val (X x j)) (seq 0 m)) with (dot m (fun l => val (v l)) (fun l => val (X l j))) in W.
rewrite (fsub_val _ _ _ _ _ _ h); assert (S := sub_rel (X i j) (fmul (fmul ftwo (v i)) w)); revert S; rewrite (fmul_val _ _ _ _ _ _ ht), ev; intro S.
assert (T := RN_err prec emax p0 (2 * val (v i) * val w)); rewrite epsE in T; change (bpow radix2 (- prec)) with u in T.
assert (DT : Rabs (dot m (fun l => val (v l)) (fun l => val (X l j))) <= lsum (fun l => Rabs (val (v l) * val (X l j))) (seq 0 m)) by apply lsum_abs.
set (D := dot m _ _) in *; set (TT := lsum _ (seq 0 m)) in *; set (t := RN (2 * val (v i) * val w)) in *; set (r := RN (val (X i j) - t)) in *.
set (a := 2 * val (v i)) in *; replace (2 * Rabs (val (v i))) with (Rabs a) by (unfold a; rewrite Rabs_mult, (Rabs_pos_eq 2) by lra; reflexivity).
unfold gm; rewrite pow_add; set (q := (1 + u) ^ m) in *; assert (q1 : 1 <= q) by (apply pow_R1_Rle; generalize up'; lra).
assert (u0 := up'); assert (e0 := eta0'); set (e := / 2 * eta) in *; assert (e0' : 0 < e) by (unfold e; lra).
assert (wD : Rabs (val w) <= Rabs D + Rabs (val w - D)) by (replace (val w) with (D + (val w - D)) at 1 by ring; apply Rabs_triang).
assert (a0 := Rabs_pos a); assert (n0 := pos_INR m); set (n := INR m) in *.
assert (T1 : Rabs (t - a * D) <= Rabs a * (((1 + u) * q - 1) * TT + (1 + u) * (q * n * e)) + e).
{ replace (t - a * D) with ((t - a * val w) + a * (val w - D)) by ring; apply Rle_trans with (1 := Rabs_triang _ _); rewrite Rabs_mult.
  rewrite Rabs_mult in T.
  assert (k1 : Rabs a * Rabs (val w) <= Rabs a * (TT + ((q - 1) * TT + n * q * e))) by (apply Rmult_le_compat_l; [exact a0|lra]).
  assert (k2 : Rabs a * Rabs (val w - D) <= Rabs a * ((q - 1) * TT + n * q * e)) by (apply Rmult_le_compat_l; assumption).
  assert (k3 := Rmult_le_compat_l u _ _ (Rlt_le _ _ u0) k1); lra. }
assert (aD : Rabs (a * D) <= Rabs a * TT) by (rewrite Rabs_mult; apply Rmult_le_compat_l; assumption).
assert (xt : Rabs (val (X i j) - t) <= Rabs (val (X i j)) + Rabs a * TT + Rabs (t - a * D)).
{ replace (val (X i j) - t) with (val (X i j) + (- (a * D) + - (t - a * D))) by ring; apply Rle_trans with (1 := Rabs_triang _ _).
  rewrite Rplus_assoc; apply Rplus_le_compat_l; apply Rle_trans with (1 := Rabs_triang _ _); rewrite !Rabs_Ropp; lra. }
replace (r - (val (X i j) - a * D)) with ((r - (val (X i j) - t)) + - (t - a * D)) by ring; apply Rle_trans with (1 := Rabs_triang _ _); rewrite Rabs_Ropp.
assert (k4 := Rmult_le_compat_l u _ _ (Rlt_le _ _ u0) xt).
assert (k5 := Rmult_le_compat_l (1 + u) _ _ ltac:(lra) T1).
simpl ((1 + u) ^ 2).
lra.
Qed.

(** * One column. [b]: the rows considered; the reflection leaves the others alone *)
Definition msk (b : nat -> bool) (f : nat -> R) : nat -> R := fun i => if b i then f i else 0.
Definition EE (m : nat) (d : R) : R := u + 2 * gm m * (1 + d).
Definition FF (m : nat) (d : R) : R := (1 + u) ^ (m + 2) * (INR m * (3 + 2 * d)) * (/ 2 * eta).
Lemma gm0 m : 0 <= gm m.
Proof. unfold gm; assert (1 <= (1 + u) ^ (m + 2)) by (apply pow_R1_Rle; generalize up'; lra); lra. Qed.
Lemma column_step (m : nat) (v : nat -> float) (X : fmat) j b d : (0 < m)%nat -> 0 <= d -> (forall i, (i < m)%nat -> fin (freflect m v X i j) = true) ->
  (forall i, b i = false -> val (v i) = 0) ->
  let vr := fun l => val (v l) in let x := msk b (fun l => val (X l j)) in let y := msk b (fun l => val (freflect m v X l j)) in
  Rabs (dot m vr vr - 1) <= d -> nrm m (fun i => y i - reflect m vr x i) <= EE m d * nrm m x + FF m d.
Proof.
intros m0 d0 hf hb vr x y hd.
assert (eD : dot m vr (fun l => val (X l j)) = dot m vr x).
{ apply lsum_ext; intros l _; unfold x, msk, vr; destruct (b l) eqn:e; [reflexivity|]; rewrite (hb l e); ring. }
assert (eT : lsum (fun l => Rabs (val (v l) * val (X l j))) (seq 0 m) = lsum (fun l => Rabs (vr l) * Rabs (x l)) (seq 0 m)).
{ apply lsum_ext; intros l _; rewrite Rabs_mult; unfold x, msk, vr; destruct (b l) eqn:e; [reflexivity|]; rewrite (hb l e), Rabs_R0; ring. }
assert (u0 := up'); assert (e0 := eta0'); assert (g0 := gm0 m).
assert (n1 : 1 <= INR m) by (replace 1 with (INR 1) by reflexivity; apply le_INR; lia).
set (q := (1 + u) ^ (m + 2)) in *; assert (q1 : 1 + u <= q).
{ unfold q; replace (m + 2)%nat with (S (m + 1)) by lia; assert (1 <= (1 + u) ^ (m + 1)) by (apply pow_R1_Rle; lra); simpl; nra. }
set (T := lsum (fun l => Rabs (vr l) * Rabs (x l)) (seq 0 m)) in *.
assert (T0 : 0 <= T) by (apply lsum_pos; intros; apply Rmult_le_pos; apply Rabs_pos).
assert (TN : T <= nrm m vr * nrm m x).
{ unfold T; change (lsum _ _) with (dot m (fun l => Rabs (vr l)) (fun l => Rabs (x l))); apply Rle_trans with (1 := dot_le _ _ _); rewrite !nrm_abs; lra. }
set (c := 2 * (gm m * T + q * (INR m * (/ 2 * eta)))) in *; set (c0 := (1 + u) * (/ 2 * eta)).
assert (cc : 0 <= c) by (unfold c; apply Rmult_le_pos; [lra|]; apply Rplus_le_le_0_compat; repeat apply Rmult_le_pos; lra).
assert (cc0 : 0 <= c0) by (unfold c0; apply Rmult_le_pos; lra).
apply Rle_trans with (nrm m (fun i => u * Rabs (x i) + (c * Rabs (vr i) + c0))).
{ apply nrm_le; intros i hi; unfold y, reflect, msk; destruct (b i) eqn:e.
  - destruct (reflect_element m v X i j m0 (hf i hi)) as [_ [_ [_ H]]]; fold vr in H; rewrite eD, eT in H; fold q T in H; unfold x at 1, msk; rewrite e; fold x; unfold x at 2, msk; rewrite e.
    replace (val (freflect m v X i j) - (val (X i j) + -2 * dot m vr x * vr i)) with (val (freflect m v X i j) - (val (X i j) - 2 * val (v i) * dot m vr x)) by (unfold vr; ring).
    apply Rle_trans with (1 := H); unfold c, c0, vr; apply Req_le; ring.
  - assert (xi : x i = 0) by (unfold x, msk; rewrite e; reflexivity).
    assert (vi : vr i = 0) by exact (hb i e).
    rewrite xi, vi, Rmult_0_r, Rplus_0_r, Rminus_0_r, Rabs_R0; lra. }
apply Rle_trans with (1 := triangle _ _ _).
rewrite nrm_scal, nrm_abs, (Rabs_pos_eq u) by lra.
assert (h2 : nrm m (fun i => c * Rabs (vr i) + c0) <= c * nrm m vr + INR m * c0).
{ apply Rle_trans with (1 := triangle _ _ _); rewrite nrm_scal, nrm_abs, (Rabs_pos_eq c) by exact cc; apply Rplus_le_compat_l, nrm_const, cc0. }
apply Rle_trans with (u * nrm m x + (c * nrm m vr + INR m * c0)); [lra|].
assert (vp := nrm_pos m vr); assert (xp := nrm_pos m x).
assert (vs : nrm m vr * nrm m vr <= 1 + d) by (rewrite nrm_sq; apply Rabs_le_inv in hd; lra).
assert (v1 : nrm m vr <= 1 + d) by nra.
unfold EE, FF, c, c0; fold q.
assert (k1 : T * nrm m vr <= (1 + d) * nrm m x).
{ apply Rle_trans with (nrm m vr * nrm m x * nrm m vr); [apply Rmult_le_compat_r; assumption|].
  replace (nrm m vr * nrm m x * nrm m vr) with (nrm m vr * nrm m vr * nrm m x) by ring; apply Rmult_le_compat_r; assumption. }
assert (k2 := Rmult_le_compat_l _ _ _ g0 k1).
set (e := / 2 * eta) in *; assert (ep : 0 < e) by (unfold e; lra).
assert (k3 : INR m * ((1 + u) * e) <= INR m * (q * e)) by (apply Rmult_le_compat_l; [lra|apply Rmult_le_compat_r; lra]).
assert (k4 : q * (INR m * e) * nrm m vr <= q * (INR m * e) * (1 + d)) by (apply Rmult_le_compat_l; [apply Rmult_le_pos; [lra|nra]|exact v1]).
lra.
Qed.
End FloatQR.
