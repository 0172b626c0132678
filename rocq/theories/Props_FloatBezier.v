(* C98: Bezier curves in floating point. *)
From Coq Require Import ZArith List Arith Bool Reals Lia Lra Psatz.
From Flocq Require Import Core IEEE754.BinarySingleNaN.
From Verif Require Import M_Float P_Float P_FloatD M_FloatN P_FloatN M_FloatS M_FloatLU P_FloatLU P_FloatHH M_FloatBezier Props_Float Props_FloatS.
Import ListNotations.
Local Open Scope R_scope.

(** * The exact curve: the Bernstein polynomials *)
Definition bernstein (n : nat) (x : nat -> R) (t : R) : R := sum_f_R0 (fun k => C n k * t ^ k * (1 - t) ^ (n - k) * x k) n.
Lemma bernstein_step n x t : bernstein (S n) x t = bernstein n (fun k => (1 - t) * x k + t * x (S k)) t.
Proof.
unfold bernstein.
rewrite (sum_eq (fun k => C n k * t ^ k * (1 - t) ^ (n - k) * ((1 - t) * x k + t * x (S k)))
  (fun k => C n k * t ^ k * (1 - t) ^ (S n - k) * x k + C n k * t ^ S k * (1 - t) ^ (n - k) * x (S k)) n).
2: { intros k hk; replace (S n - k)%nat with (S (n - k)) by lia; cbn [pow]; ring. }
rewrite sum_plus; destruct n as [|n].
{ simpl; unfold C; simpl; field. }
rewrite (decomp_sum (fun k => C (S (S n)) k * t ^ k * (1 - t) ^ (S (S n) - k) * x k)) by lia.
rewrite (decomp_sum (fun k => C (S n) k * t ^ k * (1 - t) ^ (S (S n) - k) * x k)) by lia.
cbn [Nat.pred].
rewrite !tech5.
assert (C0 : forall m, C m 0 = 1) by (intro m; unfold C; rewrite Nat.sub_0_r; simpl fact; rewrite Rmult_1_l; unfold Rdiv; apply Rinv_r, INR_fact_neq_0).
assert (Cn : forall m, C m m = 1) by (intro m; unfold C; rewrite Nat.sub_diag; simpl fact; rewrite Rmult_1_r; unfold Rdiv; apply Rinv_r, INR_fact_neq_0).
rewrite !C0, !Cn.
rewrite (sum_eq (fun i => C (S (S n)) (S i) * t ^ S i * (1 - t) ^ (S (S n) - S i) * x (S i))
  (fun i => C (S n) (S i) * t ^ S i * (1 - t) ^ (S (S n) - S i) * x (S i) + C (S n) i * t ^ S i * (1 - t) ^ (S n - i) * x (S i)) n).
2: { intros i hi; rewrite <- (pascal (S n) i) by lia; replace (S (S n) - S i)%nat with (S n - i)%nat by lia; ring. }
rewrite sum_plus; replace (S (S n) - S (S n))%nat with 0%nat by lia; replace (S n - S n)%nat with 0%nat by lia; ring.
Qed.
Lemma bernstein0 x t : bernstein 0 x t = x 0%nat.
Proof. unfold bernstein, C; simpl; field. Qed.
Lemma bernstein_hull n : forall x t lo hi, 0 <= t <= 1 -> (forall k, (k <= n)%nat -> lo <= x k <= hi) -> lo <= bernstein n x t <= hi.
Proof.
induction n as [|n IH]; intros x t lo hi ht h; [rewrite bernstein0; apply h; lia|].
rewrite bernstein_step; apply IH; [exact ht|]; intros k hk; assert (a := h k ltac:(lia)); assert (b := h (S k) ltac:(lia)); nra.
Qed.

Section FloatBezier.
Variables prec emax : Z.
Context (p0 : Prec_gt_0 prec) (pe : Prec_lt_emax prec emax).
Notation float := (binary_float prec emax).
Notation val := (@B2R prec emax).
Notation fin := (@is_finite prec emax).
Notation u := (u prec).
Notation eta := (eta prec emax).
Notation fadd := (fadd prec emax p0 pe).
Notation fsub := (fsub prec emax p0 pe).
Notation fmul := (fmul prec emax p0 pe).
Notation fone := (fone prec emax p0 pe).
Notation fmat := (fmat prec emax).
Notation fbezier := (fbezier prec emax p0 pe).
Notation RN := (round radix2 (FLT_exp (SpecFloat.emin prec emax) prec) ZnearestE).
Notation bp := (bpow radix2).

(* the growth of the elements over the rows *)
Fixpoint bez_len (n : nat) (x : R) : R := match n with O => x | S n => (1 + u) ^ 3 * bez_len n x + (1 + u) * eta end.
Lemma u0 : 0 < u. Proof. apply bpow_gt_0. Qed.
Lemma e0 : 0 < eta. Proof. apply bpow_gt_0. Qed.
Lemma g1 : 1 < (1 + u) ^ 3. Proof. assert (h := u0); assert (0 < u * u) by nra; assert (0 < u * u * u) by nra; replace ((1 + u) ^ 3) with (1 + 3 * u + 3 * (u * u) + u * u * u) by ring; lra. Qed.
Lemma len_pos n x : 0 <= x -> x <= bez_len n x.
Proof. intro h; induction n as [|n IH]; cbn [bez_len]; [lra|]; assert (a := g1); assert (b := u0); assert (c := e0); assert (0 < (1 + u) * eta) by nra; nra. Qed.
Lemma len_add n k x : bez_len (n + k) x = bez_len n (bez_len k x).
Proof. induction n as [|n IH]; cbn [bez_len Nat.add]; [reflexivity|rewrite IH; reflexivity]. Qed.
Theorem C98_growth n x : 0 <= x -> bez_len n x <= (1 + u) ^ (3 * n) * (x + INR n * ((1 + u) * eta)).
Proof.
intro h; induction n as [|n IH]; [simpl; lra|]; cbn [bez_len]; rewrite S_INR; assert (a := u0); assert (b := e0); set (w := (1 + u) * eta) in *; assert (w0 : 0 < w) by (unfold w; nra).
replace (3 * S n)%nat with (3 + 3 * n)%nat by lia; rewrite pow_add.
assert (g : 1 <= (1 + u) ^ (3 * n)) by (apply pow_R1_Rle; lra); assert (g' := g1).
apply Rle_trans with ((1 + u) ^ 3 * ((1 + u) ^ (3 * n) * (x + INR n * w)) + (1 + u) ^ 3 * (1 + u) ^ (3 * n) * w); [|apply Req_le; ring].
apply Rplus_le_compat; [apply Rmult_le_compat_l; [lra|exact IH]|]; rewrite <- (Rmult_1_l w) at 1; apply Rmult_le_compat_r; [lra|]; nra.
Qed.

Lemma RNadd x y : Rabs (RN (val x + val y) - (val x + val y)) <= u * Rabs (val x + val y).
Proof.
apply Rle_trans with (1 := add_err _ _ p0 _ _ (format_val prec emax x) (format_val prec emax y)); change (bpow radix2 (- prec)) with u; apply Rmult_le_compat_r; [apply Rabs_pos|].
assert (h := u0); apply Rmult_le_reg_r with (1 + u); [lra|]; unfold Rdiv; rewrite Rmult_assoc, Rinv_l by lra; nra.
Qed.
Section At.
Variable t : float.
Hypothesis ft : fin t = true.
Hypothesis t01 : 0 <= val t <= 1.
Let v := fsub fone t.
Lemma vP : fin v = true /\ 0 <= val v <= 1 /\ Rabs (val v - (1 - val t)) <= u * (1 - val t).
Proof.
assert (one : val fone = 1 /\ fin fone = true) by (split; [apply Bone_correct|apply is_finite_Bone]); destruct one as [v1 f1].
assert (A : Rabs (RN (1 - val t)) <= 1).
{ assert (h := P_Float.RN_le prec emax p0 (1 - val t) (val fone) (format_val prec emax fone)); rewrite v1, Rabs_R1 in h; apply h; apply Rabs_le; lra. }
assert (L1 : 1 < bp emax) by (change 1 with (bp 0); apply bpow_lt; unfold Prec_gt_0, Prec_lt_emax in *; lia).
assert (f : fin v = true) by (apply fsub_fin; [exact f1|exact ft|]; rewrite v1; lra).
assert (e : val v = RN (1 - val t)) by (unfold v; rewrite (fsub_val _ _ _ _ _ _ f), v1; reflexivity).
split; [exact f|]; assert (P : 0 <= RN (1 - val t)).
{ rewrite <- (round_0 radix2 (FLT_exp (SpecFloat.emin prec emax) prec) ZnearestE); apply round_le; [apply FLT_exp_valid; exact p0|auto with typeclass_instances|lra]. }
rewrite Rabs_pos_eq in A by exact P; rewrite e; split; [lra|].
assert (h := RNadd fone (Bopp t)); rewrite B2R_Bopp, v1 in h; rewrite (Rabs_pos_eq (1 + - val t)) in h by lra; exact h.
Qed.
Definition comb (a b : float) : float := fadd (fmul v a) (fmul t b).
Lemma combP a b x : fin a = true -> fin b = true -> Rabs (val a) <= x -> Rabs (val b) <= x -> bez_len 1 x < bp emax ->
  fin (comb a b) = true /\ Rabs (val (comb a b) - ((1 - val t) * val a + val t * val b)) <= bez_len 1 x - x.
Proof.
cbn [bez_len]; intros fa fb ha hb hx; destruct vP as [fv [v01 ve]]; assert (a0 := u0); assert (b0 := e0).
assert (x0 : 0 <= x) by (assert (h := Rabs_pos (val a)); lra).
assert (E1 := RN_error prec emax p0 (val v * val a)); assert (E2 := RN_error prec emax p0 (val t * val b)).
rewrite !Rabs_mult, (Rabs_pos_eq (val v)) in E1 by lra; rewrite !Rabs_mult, (Rabs_pos_eq (val t)) in E2 by lra.
assert (ve' : val v <= (1 + u) * (1 - val t)) by (apply Rabs_le_inv in ve; lra).
assert (M1 : val v * Rabs (val a) <= x) by (assert (h := Rabs_pos (val a)); nra).
assert (M2 : val t * Rabs (val b) <= x) by (assert (h := Rabs_pos (val b)); nra).
assert (M1' : val v * Rabs (val a) <= (1 + u) * (1 - val t) * x) by (apply Rmult_le_compat; try lra; apply Rabs_pos).
assert (M2' : val t * Rabs (val b) <= val t * x) by (apply Rmult_le_compat_l; lra).
assert (big : (1 + u) * x + / 2 * eta < bp emax).
{ assert (uu : 0 <= u * x) by nra; assert (0 <= u * (u * x)) by nra; assert (0 <= u * (u * (u * x))) by nra; assert (0 < u * eta) by nra; replace ((1 + u) ^ 3 * x + (1 + u) * eta) with (x + 3 * (u * x) + 3 * (u * (u * x)) + u * (u * (u * x)) + eta + u * eta) in hx by ring; lra. }
assert (B1 : Rabs (RN (val v * val a)) <= (1 + u) * (val v * Rabs (val a)) + / 2 * eta).
{ replace (RN (val v * val a)) with ((RN (val v * val a) - val v * val a) + val v * val a) by ring; apply Rle_trans with (1 := Rabs_triang _ _); rewrite (Rabs_mult (val v)), (Rabs_pos_eq (val v)) by lra; lra. }
assert (B2 : Rabs (RN (val t * val b)) <= (1 + u) * (val t * Rabs (val b)) + / 2 * eta).
{ replace (RN (val t * val b)) with ((RN (val t * val b) - val t * val b) + val t * val b) by ring; apply Rle_trans with (1 := Rabs_triang _ _); rewrite (Rabs_mult (val t)), (Rabs_pos_eq (val t)) by lra; lra. }
assert (f1 : fin (fmul v a) = true) by (apply fmul_fin; [exact fv|exact fa|]; nra).
assert (f2 : fin (fmul t b) = true) by (apply fmul_fin; [exact ft|exact fb|]; nra).
assert (e1 := fmul_val _ _ _ _ _ _ f1); assert (e2 := fmul_val _ _ _ _ _ _ f2).
set (p := fmul v a) in *; set (q := fmul t b) in *; rewrite <- e1 in *; rewrite <- e2 in *.
assert (D1 : Rabs (val p - (1 - val t) * val a) <= ((1 + u) ^ 2 - 1) * ((1 - val t) * x) + / 2 * eta).
{ replace (val p - (1 - val t) * val a) with ((val p - val v * val a) + (val v - (1 - val t)) * val a) by ring; apply Rle_trans with (1 := Rabs_triang _ _); rewrite Rabs_mult.
  assert (Rabs (val v - (1 - val t)) * Rabs (val a) <= u * (1 - val t) * x) by (apply Rmult_le_compat; try apply Rabs_pos; assumption).
  assert (u * (val v * Rabs (val a)) <= u * ((1 + u) * (1 - val t) * x)) by (apply Rmult_le_compat_l; lra).
  replace (((1 + u) ^ 2 - 1) * ((1 - val t) * x)) with (u * ((1 + u) * (1 - val t) * x) + u * (1 - val t) * x) by ring; lra. }
assert (D2 : Rabs (val q - val t * val b) <= ((1 + u) ^ 2 - 1) * (val t * x) + / 2 * eta).
{ assert (u * (val t * Rabs (val b)) <= u * (val t * x)) by (apply Rmult_le_compat_l; lra).
  assert (0 <= val t * x) by nra; assert (0 <= u * (val t * x)) by nra; assert (0 <= u * (u * (val t * x))) by nra.
  replace (((1 + u) ^ 2 - 1) * (val t * x)) with (2 * (u * (val t * x)) + u * (u * (val t * x))) by ring; lra. }
assert (S1 := RNadd p q).
set (E := (1 - val t) * val a + val t * val b).
assert (EX : Rabs E <= x).
{ unfold E; apply Rle_trans with (1 := Rabs_triang _ _); rewrite !Rabs_mult, (Rabs_pos_eq (1 - val t)), (Rabs_pos_eq (val t)) by lra; assert (h1 := Rabs_pos (val a)); assert (h2 := Rabs_pos (val b)); nra. }
assert (Z : Rabs (val p + val q - E) <= ((1 + u) ^ 2 - 1) * x + eta).
{ unfold E; replace (val p + val q - ((1 - val t) * val a + val t * val b)) with ((val p - (1 - val t) * val a) + (val q - val t * val b)) by ring; apply Rle_trans with (1 := Rabs_triang _ _).
  replace (((1 + u) ^ 2 - 1) * x) with (((1 + u) ^ 2 - 1) * ((1 - val t) * x) + ((1 + u) ^ 2 - 1) * (val t * x)) by ring; lra. }
assert (Z1 : Rabs (val p + val q) <= (1 + u) ^ 2 * x + eta).
{ replace (val p + val q) with ((val p + val q - E) + E) by ring; apply Rle_trans with (1 := Rabs_triang _ _); lra. }
assert (T : Rabs (RN (val p + val q) - E) <= (1 + u) ^ 3 * x + (1 + u) * eta - x).
{ replace (RN (val p + val q) - E) with ((RN (val p + val q) - (val p + val q)) + (val p + val q - E)) by ring; apply Rle_trans with (1 := Rabs_triang _ _).
  assert (u * Rabs (val p + val q) <= u * ((1 + u) ^ 2 * x + eta)) by (apply Rmult_le_compat_l; lra).
  replace ((1 + u) ^ 3 * x + (1 + u) * eta - x) with (u * ((1 + u) ^ 2 * x + eta) + (((1 + u) ^ 2 - 1) * x + eta)) by ring; lra. }
assert (f : fin (comb a b) = true).
{ apply fadd_fin; [exact f1|exact f2|]; fold p q; replace (RN (val p + val q)) with ((RN (val p + val q) - E) + E) by ring; apply Rle_lt_trans with (1 := Rabs_triang _ _); lra. }
split; [exact f|]; unfold comb; rewrite (fadd_val _ _ _ _ _ _ f); exact T.
Qed.

(* the rows *)
Lemma row i red : forall k c, fbezier_row prec emax p0 pe v t i red k c = if Nat.ltb k i then comb (red k c) (red (S k) c) else red k c.
Proof.
induction i as [|i IH]; intros k c; [reflexivity|]; unfold fbezier_row; rewrite seq_S, fold_left_app; cbn [fold_left]; fold (fbezier_row prec emax p0 pe v t i red).
unfold fbezier_point; replace (1 + i - 1)%nat with i by lia.
destruct (Nat.eqb_spec k i) as [->|ne].
- rewrite !IH, Nat.ltb_irrefl; replace (Nat.ltb (1 + i) i) with false by (symmetry; apply Nat.ltb_ge; lia); replace (Nat.ltb i (S i)) with true by (symmetry; apply Nat.ltb_lt; lia); reflexivity.
- rewrite IH; destruct (Nat.ltb_spec k i), (Nat.ltb_spec k (S i)); try lia; reflexivity.
Qed.
Lemma curve c n : forall j (red : fmat) (X : nat -> R) M,
  (forall k, (k <= n)%nat -> Rabs (X k) <= M) -> bez_len (n + j) M < bp emax ->
  (forall k, (k <= n)%nat -> fin (red k c) = true /\ Rabs (val (red k c) - X k) <= bez_len j M - M) ->
  let r := fold_left (fun red i => fbezier_row prec emax p0 pe v t i red) (rev (seq 1 n)) red 0%nat c in
  fin r = true /\ Rabs (val r - bernstein n X (val t)) <= bez_len (n + j) M - M.
Proof.
induction n as [|n IH]; intros j red X M hX hL h.
- cbn [seq rev fold_left Nat.add]; rewrite bernstein0; apply h; lia.
- rewrite seq_S, rev_app_distr; cbn [rev app fold_left]; rewrite bernstein_step; replace (S n + j)%nat with (n + S j)%nat in * by lia.
  assert (M0 : 0 <= M) by (assert (a := hX 0%nat ltac:(lia)); assert (b := Rabs_pos (X 0%nat)); lra).
  apply IH; [|exact hL|].
  + intros k hk; assert (a := hX k ltac:(lia)); assert (b := hX (S k) ltac:(lia)); apply Rle_trans with (1 := Rabs_triang _ _); rewrite !Rabs_mult, (Rabs_pos_eq (1 - val t)), (Rabs_pos_eq (val t)) by lra; nra.
  + intros k hk; replace (1 + n)%nat with (S n) by lia; rewrite row; replace (Nat.ltb k (S n)) with true by (symmetry; apply Nat.ltb_lt; lia).
    destruct (h k ltac:(lia)) as [fa ha]; destruct (h (S k) ltac:(lia)) as [fb hb].
    assert (A : Rabs (val (red k c)) <= bez_len j M) by (replace (val (red k c)) with ((val (red k c) - X k) + X k) by ring; apply Rle_trans with (1 := Rabs_triang _ _); assert (a := hX k ltac:(lia)); lra).
    assert (B : Rabs (val (red (S k) c)) <= bez_len j M) by (replace (val (red (S k) c)) with ((val (red (S k) c) - X (S k)) + X (S k)) by ring; apply Rle_trans with (1 := Rabs_triang _ _); assert (a := hX (S k) ltac:(lia)); lra).
    assert (L1 : bez_len 1 (bez_len j M) < bp emax).
    { rewrite <- (len_add 1 j M); apply Rle_lt_trans with (2 := hL); replace (n + S j)%nat with (n + (1 + j))%nat by lia; rewrite (len_add n (1 + j)); apply len_pos; apply Rle_trans with (1 := M0), len_pos, M0. }
    destruct (combP _ _ _ fa fb A B L1) as [f e]; split; [exact f|].
    rewrite <- (len_add 1 j M) in e; cbn [Nat.add] in e.
    replace (val (comb (red k c) (red (S k) c)) - ((1 - val t) * X k + val t * X (S k))) with
      ((val (comb (red k c) (red (S k) c)) - ((1 - val t) * val (red k c) + val t * val (red (S k) c))) + ((1 - val t) * (val (red k c) - X k) + val t * (val (red (S k) c) - X (S k)))) by ring.
    apply Rle_trans with (1 := Rabs_triang _ _).
    assert (Rabs ((1 - val t) * (val (red k c) - X k) + val t * (val (red (S k) c) - X (S k))) <= bez_len j M - M).
    { apply Rle_trans with (1 := Rabs_triang _ _); rewrite !Rabs_mult, (Rabs_pos_eq (1 - val t)), (Rabs_pos_eq (val t)) by lra; nra. }
    lra.
Qed.
Section Curve.
Variables (n : nat) (P : fmat) (c : nat) (M : R).
Hypothesis fP : forall k, (k <= n)%nat -> fin (P k c) = true /\ Rabs (val (P k c)) <= M.
Hypothesis big : bez_len n M < bp emax.
(* the point is finite and near the point of the exact curve *)
Theorem C98_curve : fin (fbezier n P t c) = true /\
  Rabs (val (fbezier n P t c) - sum_f_R0 (fun k => C n k * val t ^ k * (1 - val t) ^ (n - k) * val (P k c)) n) <= bez_len n M - M.
Proof.
assert (h := curve c n 0 P (fun k => val (P k c)) M (fun k hk => proj2 (fP k hk))); rewrite Nat.add_0_r in h; apply h; [exact big|].
intros k hk; split; [apply fP, hk|]; rewrite Rminus_diag_eq by reflexivity; rewrite Rabs_R0; simpl; lra.
Qed.
(* it does not leave the box around the control points by more than the rounding errors *)
Theorem C98_hull lo hi : (forall k, (k <= n)%nat -> lo <= val (P k c) <= hi) ->
  lo - (bez_len n M - M) <= val (fbezier n P t c) <= hi + (bez_len n M - M).
Proof.
intro h; destruct C98_curve as [_ e]; assert (b := bernstein_hull n (fun k => val (P k c)) (val t) lo hi t01 h); apply Rabs_le_inv in e; unfold bernstein in b; lra.
Qed.
End Curve.
End At.
(* the ends of the curve are exact *)
Lemma ends c n (t : float) : forall (red : fmat), (forall k, (k <= n)%nat -> fin (red k c) = true) -> fin t = true ->
  let r := fold_left (fun red i => fbezier_row prec emax p0 pe (fsub fone t) t i red) (rev (seq 1 n)) red 0%nat c in
  (val t = 0 -> fin r = true /\ val r = val (red 0%nat c)) /\ (val t = 1 -> fin r = true /\ val r = val (red n c)).
Proof.
intros red h ft; revert red h; induction n as [|n IH]; intros red h; [cbn [seq rev fold_left]; split; intros _; split; auto; apply h; lia|].
assert (one : val fone = 1 /\ fin fone = true) by (split; [apply Bone_correct|apply is_finite_Bone]); destruct one as [v1 f1].
assert (bpe : 0 < bp emax) by apply bpow_gt_0.
assert (L1 : 1 < bp emax) by (change 1 with (bp 0); apply bpow_lt; unfold Prec_gt_0, Prec_lt_emax in *; lia).
assert (vz : forall x : float, Rabs (val x) < bp emax) by (intro x; apply abs_B2R_lt_emax).
assert (R0 : RN 0 = 0) by (apply round_0; auto with typeclass_instances).
rewrite seq_S, rev_app_distr; cbn [rev app fold_left].
assert (K : (val t = 0 -> forall a b : float, fin a = true -> fin b = true -> fin (comb t a b) = true /\ val (comb t a b) = val a) /\
  (val t = 1 -> forall a b : float, fin a = true -> fin b = true -> fin (comb t a b) = true /\ val (comb t a b) = val b)).
{ split; intros tz a b fa fb.
  - assert (fv : fin (fsub fone t) = true) by (apply fsub_fin; auto; rewrite v1, tz, Rminus_0_r, RN_one, Rabs_R1 by assumption; exact L1).
    assert (ev : val (fsub fone t) = 1) by (rewrite (fsub_val _ _ _ _ _ _ fv), v1, tz, Rminus_0_r; apply RN_one; assumption).
    assert (fm : fin (fmul (fsub fone t) a) = true) by (apply fmul_fin; auto; rewrite ev, Rmult_1_l, RN_id by assumption; apply vz).
    assert (em : val (fmul (fsub fone t) a) = val a) by (rewrite (fmul_val _ _ _ _ _ _ fm), ev, Rmult_1_l; apply RN_id; assumption).
    assert (fq : fin (fmul t b) = true) by (apply fmul_fin; auto; rewrite tz, Rmult_0_l, R0, Rabs_R0; exact bpe).
    assert (eq : val (fmul t b) = 0) by (rewrite (fmul_val _ _ _ _ _ _ fq), tz, Rmult_0_l; exact R0).
    assert (f : fin (comb t a b) = true) by (apply fadd_fin; auto; rewrite em, eq, Rplus_0_r, RN_id by assumption; apply vz).
    split; [exact f|]; unfold comb; rewrite (fadd_val _ _ _ _ _ _ f), em, eq, Rplus_0_r; apply RN_id; assumption.
  - assert (fv : fin (fsub fone t) = true) by (apply fsub_fin; auto; rewrite v1, tz, Rminus_diag_eq, R0, Rabs_R0 by reflexivity; exact bpe).
    assert (ev : val (fsub fone t) = 0) by (rewrite (fsub_val _ _ _ _ _ _ fv), v1, tz, Rminus_diag_eq by reflexivity; exact R0).
    assert (fm : fin (fmul (fsub fone t) a) = true) by (apply fmul_fin; auto; rewrite ev, Rmult_0_l, R0, Rabs_R0; exact bpe).
    assert (em : val (fmul (fsub fone t) a) = 0) by (rewrite (fmul_val _ _ _ _ _ _ fm), ev, Rmult_0_l; exact R0).
    assert (fq : fin (fmul t b) = true) by (apply fmul_fin; auto; rewrite tz, Rmult_1_l, RN_id by assumption; apply vz).
    assert (eq : val (fmul t b) = val b) by (rewrite (fmul_val _ _ _ _ _ _ fq), tz, Rmult_1_l; apply RN_id; assumption).
    assert (f : fin (comb t a b) = true) by (apply fadd_fin; auto; rewrite em, eq, Rplus_0_l, RN_id by assumption; apply vz).
    split; [exact f|]; unfold comb; rewrite (fadd_val _ _ _ _ _ _ f), em, eq, Rplus_0_l; apply RN_id; assumption. }
destruct K as [K0 K1].
assert (E : forall k, (k <= n)%nat -> fbezier_row prec emax p0 pe (fsub fone t) t (1 + n) red k c = comb t (red k c) (red (S k) c)).
{ intros k hk; rewrite row; replace (Nat.ltb k (1 + n)) with true by (symmetry; apply Nat.ltb_lt; lia); reflexivity. }
split; intro tz.
- destruct (IH (fbezier_row prec emax p0 pe (fsub fone t) t (1 + n) red)) as [A _].
  { intros k hk; rewrite E by exact hk; apply K0; auto; apply h; lia. }
  destruct (A tz) as [fr er]; split; [exact fr|]; rewrite er, E by lia; apply K0; auto; apply h; lia.
- destruct (IH (fbezier_row prec emax p0 pe (fsub fone t) t (1 + n) red)) as [_ A].
  { intros k hk; rewrite E by exact hk; apply K1; auto; apply h; lia. }
  destruct (A tz) as [fr er]; split; [exact fr|]; rewrite er, E by lia; apply K1; auto; apply h; lia.
Qed.
Theorem C98_ends n (P : fmat) (c : nat) (t : float) : (forall k, (k <= n)%nat -> fin (P k c) = true) -> fin t = true ->
  (val t = 0 -> fin (fbezier n P t c) = true /\ val (fbezier n P t c) = val (P 0%nat c)) /\
  (val t = 1 -> fin (fbezier n P t c) = true /\ val (fbezier n P t c) = val (P n c)).
Proof. intros h ft; exact (ends c n t P h ft). Qed.
End FloatBezier.
Print Assumptions C98_growth.
Print Assumptions C98_curve.
Print Assumptions C98_hull.
Print Assumptions C98_ends.

(* the point may leave the box: both control points 62 + 2^-47 *)
Definition twice : fmat 53 1024 := fun _ _ => dbl 0x1f000000000001 (-47).
Theorem C98_box_refuted : exists (P : fmat 53 1024) (t : binary_float 53 1024) (hi : R), is_finite t = true /\ 0 <= B2R t <= 1 /\
  (forall k, (k <= 1)%nat -> is_finite (P k 0%nat) = true /\ B2R (P k 0%nat) <= hi) /\
  is_finite (fbezier 53 1024 eq_refl eq_refl 1 P t 0) = true /\ hi < B2R (fbezier 53 1024 eq_refl eq_refl 1 P t 0).
Proof.
exists twice, (dbl 0x1a000001 (-30)), (IZR 0x1f000000000001 * / IZR (2 ^ 47)); split; [vm_compute; reflexivity|].
assert (e : B2R (twice 0%nat 0%nat) = IZR 0x1f000000000001 * / IZR (2 ^ 47)) by (dval; lra).
split; [split; dval; lra|]; split; [intros k _; split; [vm_compute; reflexivity|change (twice k 0%nat) with (twice 0%nat 0%nat); rewrite e; lra]|].
split; [vm_compute; reflexivity|]; dval; simpl; lra.
Qed.
Print Assumptions C98_box_refuted.

(* the quadratic curve with control points (0, 0), (1, 2), (3, 0) at t = 1/2 and t = 1/3 *)
Definition third : binary_float 53 1024 := fdiv 53 1024 eq_refl eq_refl (dbl 1 0) (dbl 3 0).
Definition quad : fmat 53 1024 := fun k c => match k, c with 0%nat, _ => dbl 0 0 | 1%nat, 0%nat => dbl 1 0 | 1%nat, _ => dbl 2 0 | _, 0%nat => dbl 3 0 | _, _ => dbl 0 0 end.
Example C98_example : is_finite third = true /\ 0 <= B2R third <= 1 /\ (forall k c, (k <= 2)%nat -> is_finite (quad k c) = true /\ Rabs (B2R (quad k c)) <= 3) /\
  bez_len 53 1024 2 3 < bpow radix2 1024 /\ B2R (fbezier 53 1024 eq_refl eq_refl 2 quad (dbl 1 (-1)) 0) = 5 / 4 /\ B2R (fbezier 53 1024 eq_refl eq_refl 2 quad (dbl 1 (-1)) 1) = 1 /\
  Rabs (B2R (fbezier 53 1024 eq_refl eq_refl 2 quad third 0) - 7 / 9) < / 10 ^ 15.
Proof.
split; [vm_compute; reflexivity|]; split; [split; dval; lra|]; split; [|split; [|split; [|split]]].
- intros k c hk; destruct k as [|[|[|k]]]; try lia; destruct c; split; try (vm_compute; reflexivity); match goal with |- Rabs ?x <= 3 => assert (0 <= x <= 3); [split; dval; lra|apply Rabs_le; lra] end.
- assert (u1 : u 53 <= 1) by (change 1 with (bpow radix2 0); apply bpow_le; lia); assert (e1 : eta 53 1024 <= 1) by (change 1 with (bpow radix2 0); apply bpow_le; lia).
  assert (u2 : 0 < u 53) by apply bpow_gt_0; assert (e2 : 0 < eta 53 1024) by apply bpow_gt_0.
  apply Rle_lt_trans with (bpow radix2 10); [|apply bpow_lt; lia].
  assert (g : (1 + u 53) ^ 3 <= 8) by (replace 8 with (2 ^ 3) by ring; apply pow_incr; lra); assert (g0 : 0 < (1 + u 53) ^ 3) by (apply pow_lt; lra); cbn [bez_len].
  assert (w : (1 + u 53) * eta 53 1024 <= 2) by nra; simpl bpow; nra.
- dval; lra.
- dval; lra.
- apply Rabs_def1; dval; lra.
Qed.
