(* C99: determinants and inverses of small matrices in floating point. *)
From Coq Require Import ZArith List Arith Bool Reals Lia Lra Psatz.
From Flocq Require Import Core IEEE754.BinarySingleNaN.
From Verif Require Import M_Float P_Float P_FloatD M_FloatN P_FloatN M_FloatS M_FloatLU P_FloatLU P_FloatTri P_Norm P_FloatHH M_FloatDet Props_Float Props_FloatS.
Import ListNotations.
Local Open Scope R_scope.

(** * Determinants, permanents and cofactors of real matrices, by expansion along the first row *)
Definition skip (r i : nat) : nat := if Nat.ltb i r then i else S i.
Definition rminor (A : nat -> nat -> R) (r c : nat) : nat -> nat -> R := fun i j => A (skip r i) (skip c j).
Fixpoint rdet (n : nat) (A : nat -> nat -> R) : R :=
  match n with O => 1 | S n => sum_f_R0 (fun j => (-1) ^ j * A 0%nat j * rdet n (rminor A 0 j)) n end.
Fixpoint rper (n : nat) (A : nat -> nat -> R) : R :=
  match n with O => 1 | S n => sum_f_R0 (fun j => A 0%nat j * rper n (rminor A 0 j)) n end.

Ltac expand := cbn [rdet rper sum_f_R0 pow rminor skip Nat.ltb Nat.leb]; unfold rminor, skip; cbn [Nat.ltb Nat.leb].

Section FloatDet.
Variables prec emax : Z.
Context (p0 : Prec_gt_0 prec) (pe : Prec_lt_emax prec emax).
Hypothesis prec5 : (5 <= prec)%Z.
Notation float := (binary_float prec emax).
Notation val := (@B2R prec emax).
Notation fin := (@is_finite prec emax).
Notation u := (u prec).
Notation eta := (eta prec emax).
Notation fadd := (fadd prec emax p0 pe).
Notation fsub := (fsub prec emax p0 pe).
Notation fmul := (fmul prec emax p0 pe).
Notation fdiv := (fdiv prec emax p0 pe).
Notation fone := (fone prec emax p0 pe).
Notation fm1 := (fm1 prec emax p0 pe).
Notation fmat := (fmat prec emax).
Notation RN := (round radix2 (FLT_exp (SpecFloat.emin prec emax) prec) ZnearestE).
Lemma du0 : 0 < u <= / 32.
Proof. split; [apply bpow_gt_0|]; replace (/ 32) with (bpow radix2 (-5)) by (simpl; lra); apply bpow_le; lia. Qed.
Lemma de0 : 0 < eta <= 1.
Proof. split; [apply bpow_gt_0|]; change 1 with (bpow radix2 0); apply bpow_le; unfold Prec_gt_0, Prec_lt_emax in *; lia. Qed.
Lemma pow2 k : (k <= 20)%nat -> 1 <= (1 + u) ^ k <= 2.
Proof.
intro h; destruct du0; split; [apply pow_R1_Rle; lra|]; apply Rle_trans with ((33 / 32) ^ 20); [|lra].
apply Rle_trans with ((33 / 32) ^ k); [apply pow_incr; lra|apply Rle_pow; [lra|exact h]].
Qed.
Lemma powS k : (1 + u) ^ k <= (1 + u) ^ S k.
Proof. destruct du0; simpl; assert (0 < (1 + u) ^ k) by (apply pow_lt; lra); nra. Qed.

(** * Error bounds of polynomials *)
Variable M : R.
Hypothesis M0 : 0 <= M.
Notation pm d := ((1 + M) ^ d).
(* x is e up to k roundings relative to a and K eta (1+M)^d; a bounds |e| and is at most c (1+M)^d *)
Definition apx (k d : nat) (c K : R) (x : float) (e a : R) : Prop := fin x = true ->
  Rabs (val x - e) <= ((1 + u) ^ k - 1) * a + K * eta * pm d /\ Rabs e <= a /\ a <= c * pm d /\ 0 <= c /\ 0 <= K.
Lemma pm1 d : 1 <= pm d. Proof. apply pow_R1_Rle; lra. Qed.
Lemma apx_mag k d c K x e a : apx k d c K x e a -> fin x = true -> Rabs (val x) <= (1 + u) ^ k * a + K * eta * pm d.
Proof. intros h f; destruct (h f) as [h1 [h2 _]]; replace (val x) with ((val x - e) + e) by ring; apply Rle_trans with (1 := Rabs_triang _ _); lra. Qed.
Lemma apx_leaf x : Rabs (val x) <= M -> apx 0 1 1 0 x (val x) (Rabs (val x)).
Proof. intros h f; rewrite Rminus_diag_eq, Rabs_R0 by reflexivity; simpl; repeat split; try lra. Qed.
Lemma apx_one : apx 0 0 1 0 fone 1 1.
Proof. intros f; replace (val fone) with 1 by (symmetry; apply Bone_correct); rewrite Rminus_diag_eq, Rabs_R0, Rabs_R1 by reflexivity; simpl; repeat split; lra. Qed.
Lemma apx_m1 : apx 0 0 1 0 fm1 (-1) 1.
Proof.
intros f; unfold M_FloatDet.fm1; rewrite B2R_Bopp; replace (val fone) with 1 by (symmetry; apply Bone_correct); replace (- (1) - -1) with 0 by ring; rewrite Rabs_R0; replace (-1) with (- (1)) by ring; rewrite Rabs_Ropp, Rabs_R1; simpl; repeat split; lra.
Qed.
Lemma apx_mul k1 k2 d1 d2 c1 c2 K1 K2 x y e1 e2 a1 a2 : (k1 + k2 < 20)%nat -> apx k1 d1 c1 K1 x e1 a1 -> apx k2 d2 c2 K2 y e2 a2 ->
  apx (k1 + k2 + 1) (d1 + d2) (c1 * c2) (2 * (c1 * K2) + 2 * (c2 * K1) + 2 * (K1 * K2) + 1) (fmul x y) (e1 * e2) (a1 * a2).
Proof.
intros hk h1 h2 f; destruct (fmul_inv _ _ _ _ _ _ f) as [fx fy]; assert (m1 := apx_mag _ _ _ _ _ _ _ h1 fx); assert (m2 := apx_mag _ _ _ _ _ _ _ h2 fy).
destruct (h1 fx) as [r1 [b1 [g1 [c10 K10]]]]; destruct (h2 fy) as [r2 [b2 [g2 [c20 K20]]]]; destruct du0 as [u0 u1]; destruct de0 as [e0 e1'].
assert (P1 := pm1 d1); assert (P2 := pm1 d2); rewrite !pow_add, pow_1.
assert (a10 : 0 <= a1) by (assert (h := Rabs_pos e1); lra); assert (a20 : 0 <= a2) by (assert (h := Rabs_pos e2); lra).
set (X := (1 + u) ^ k1 * a1 + K1 * eta * pm d1) in *; set (Y := (1 + u) ^ k2 * a2 + K2 * eta * pm d2) in *.
assert (Q : Rabs (val x * val y - e1 * e2) <= X * Y - a1 * a2).
{ replace (val x * val y - e1 * e2) with ((val x - e1) * val y + e1 * (val y - e2)) by ring; apply Rle_trans with (1 := Rabs_triang _ _); rewrite !Rabs_mult.
  assert (Rabs (val x - e1) * Rabs (val y) <= (X - a1) * Y) by (apply Rmult_le_compat; try apply Rabs_pos; [unfold X; lra|exact m2]).
  assert (Rabs e1 * Rabs (val y - e2) <= a1 * (Y - a2)) by (apply Rmult_le_compat; try apply Rabs_pos; [exact b1|unfold Y; lra]). nra. }
assert (N := RN_error prec emax p0 (val x * val y)); rewrite (fmul_val _ _ _ _ _ _ f).
assert (XY : Rabs (val x * val y) <= X * Y) by (rewrite Rabs_mult; apply Rmult_le_compat; try apply Rabs_pos; assumption).
assert (T : Rabs (RN (val x * val y) - e1 * e2) <= (1 + u) * (X * Y) - a1 * a2 + / 2 * eta).
{ replace (RN (val x * val y) - e1 * e2) with ((RN (val x * val y) - val x * val y) + (val x * val y - e1 * e2)) by ring; apply Rle_trans with (1 := Rabs_triang _ _).
  assert (u * Rabs (val x * val y) <= u * (X * Y)) by (apply Rmult_le_compat_l; lra); lra. }
split; [|split; [rewrite Rabs_mult; apply Rmult_le_compat; try apply Rabs_pos; assumption|split; [|split; [nra|]]]].
- apply Rle_trans with (1 := T).
  assert (q1 : (1 + u) * (1 + u) ^ k1 <= 2) by (apply (pow2 (S k1)); lia); assert (q2 : (1 + u) * (1 + u) ^ k2 <= 2) by (apply (pow2 (S k2)); lia).
  assert (q10 : 0 < (1 + u) * (1 + u) ^ k1) by (apply (pow_lt (1 + u) (S k1)); lra); assert (q20 : 0 < (1 + u) * (1 + u) ^ k2) by (apply (pow_lt (1 + u) (S k2)); lra).
  replace ((1 + u) * (X * Y)) with ((1 + u) ^ k1 * (1 + u) ^ k2 * (1 + u) * (a1 * a2) + ((1 + u) * (1 + u) ^ k1 * a1 * (K2 * eta * pm d2) + (1 + u) * (1 + u) ^ k2 * a2 * (K1 * eta * pm d1) + (1 + u) * (K1 * eta * pm d1 * (K2 * eta * pm d2)))) by (unfold X, Y; ring).
  set (z1 := K1 * eta * pm d1) in *; set (z2 := K2 * eta * pm d2) in *.
  assert (z10 : 0 <= z1) by (unfold z1; apply Rmult_le_pos; [apply Rmult_le_pos; lra|lra]); assert (z20 : 0 <= z2) by (unfold z2; apply Rmult_le_pos; [apply Rmult_le_pos; lra|lra]).
  assert (t1 : (1 + u) * (1 + u) ^ k1 * a1 * z2 <= 2 * (c1 * K2) * eta * (pm d1 * pm d2)).
  { apply Rle_trans with (2 * (c1 * pm d1) * z2); [apply Rmult_le_compat_r; [exact z20|apply Rmult_le_compat; lra]|unfold z2; apply Req_le; ring]. }
  assert (t2 : (1 + u) * (1 + u) ^ k2 * a2 * z1 <= 2 * (c2 * K1) * eta * (pm d1 * pm d2)).
  { apply Rle_trans with (2 * (c2 * pm d2) * z1); [apply Rmult_le_compat_r; [exact z10|apply Rmult_le_compat; lra]|unfold z1; apply Req_le; ring]. }
  assert (t3 : (1 + u) * (z1 * z2) <= 2 * (K1 * K2) * eta * (pm d1 * pm d2)).
  { apply Rle_trans with (2 * (z1 * z2)); [apply Rmult_le_compat_r; [nra|lra]|]; unfold z1, z2.
    replace (2 * (K1 * eta * pm d1 * (K2 * eta * pm d2))) with (2 * (K1 * K2) * (eta * eta) * (pm d1 * pm d2)) by ring.
    apply Rmult_le_compat_r; [nra|]; apply Rmult_le_compat_l; [nra|nra]. }
  assert (t4 : / 2 * eta <= 1 * eta * (pm d1 * pm d2)) by (assert (1 <= pm d1 * pm d2) by nra; nra).
  replace ((2 * (c1 * K2) + 2 * (c2 * K1) + 2 * (K1 * K2) + 1) * eta * (pm d1 * pm d2)) with
    (2 * (c1 * K2) * eta * (pm d1 * pm d2) + 2 * (c2 * K1) * eta * (pm d1 * pm d2) + 2 * (K1 * K2) * eta * (pm d1 * pm d2) + 1 * eta * (pm d1 * pm d2)) by ring.
  lra.
- replace (c1 * c2 * (pm d1 * pm d2)) with (c1 * pm d1 * (c2 * pm d2)) by ring; apply Rmult_le_compat; assumption.
- assert (0 <= c1 * K2) by nra; assert (0 <= c2 * K1) by nra; assert (0 <= K1 * K2) by nra; lra.
Qed.
Lemma apx_weak k k' d c c' K K' x e a : (k <= k')%nat -> c <= c' -> K <= K' -> apx k d c K x e a -> apx k' d c' K' x e a.
Proof.
intros hk hc hK h f; destruct (h f) as [h1 [h2 [h3 [h4 h5]]]]; destruct du0; destruct de0; assert (P := pm1 d).
assert (a0 : 0 <= a) by (assert (q := Rabs_pos e); lra).
split; [|split; [exact h2|split; [|split; lra]]].
- apply Rle_trans with (1 := h1); apply Rplus_le_compat; [apply Rmult_le_compat_r; [exact a0|]; assert ((1 + u) ^ k <= (1 + u) ^ k') by (apply Rle_pow; [lra|exact hk]); lra|].
  apply Rmult_le_compat_r; [lra|]; apply Rmult_le_compat_r; lra.
- apply Rle_trans with (1 := h3); apply Rmult_le_compat_r; lra.
Qed.
Lemma apx_plus k d c1 c2 K1 K2 x y z e1 e2 e a1 a2 : (k < 20)%nat -> (fin z = true -> fin x = true /\ fin y = true /\ Rabs (val z - e) <= u * (Rabs (val x) + Rabs (val y)) + Rabs (val x - e1) + Rabs (val y - e2)) ->
  Rabs e <= Rabs e1 + Rabs e2 -> apx k d c1 K1 x e1 a1 -> apx k d c2 K2 y e2 a2 -> apx (k + 1) d (c1 + c2) (2 * (K1 + K2)) z e (a1 + a2).
Proof.
intros hk hz he h1 h2 f; destruct (hz f) as [fx [fy B]]; assert (m1 := apx_mag _ _ _ _ _ _ _ h1 fx); assert (m2 := apx_mag _ _ _ _ _ _ _ h2 fy).
destruct (h1 fx) as [r1 [b1 [g1 [c10 K10]]]]; destruct (h2 fy) as [r2 [b2 [g2 [c20 K20]]]]; destruct du0 as [u0 u1]; destruct de0 as [e0 e1'].
assert (P := pm1 d); rewrite pow_add, pow_1; set (q := (1 + u) ^ k) in *; set (z1 := K1 * eta * pm d) in *; set (z2 := K2 * eta * pm d) in *.
assert (z10 : 0 <= z1) by (unfold z1; apply Rmult_le_pos; [apply Rmult_le_pos; lra|lra]); assert (z20 : 0 <= z2) by (unfold z2; apply Rmult_le_pos; [apply Rmult_le_pos; lra|lra]).
split; [|split; [lra|split; [lra|split; lra]]].
apply Rle_trans with (1 := B).
assert (u * (Rabs (val x) + Rabs (val y)) <= u * (q * a1 + z1 + (q * a2 + z2))) by (apply Rmult_le_compat_l; lra).
replace ((q * (1 + u) - 1) * (a1 + a2) + 2 * (K1 + K2) * eta * pm d) with (u * (q * a1 + q * a2) + (q - 1) * a1 + (q - 1) * a2 + 2 * (z1 + z2)) by (unfold z1, z2; ring); nra.
Qed.
Lemma apx_add k1 k2 d c1 c2 K1 K2 x y e1 e2 a1 a2 : (Nat.max k1 k2 < 20)%nat -> apx k1 d c1 K1 x e1 a1 -> apx k2 d c2 K2 y e2 a2 ->
  apx (Nat.max k1 k2 + 1) d (c1 + c2) (2 * (K1 + K2)) (fadd x y) (e1 + e2) (a1 + a2).
Proof.
intros hk h1 h2; apply (apx_plus _ _ _ _ _ _ x y _ e1 e2); [exact hk| |apply Rabs_triang|apply (apx_weak k1 _ d c1 _ K1); [lia|lra|lra|exact h1]|apply (apx_weak k2 _ d c2 _ K2); [lia|lra|lra|exact h2]].
intro f; destruct (fadd_inv _ _ _ _ _ _ f) as [fx fy]; split; [exact fx|split; [exact fy|]]; rewrite (fadd_val _ _ _ _ _ _ f).
assert (N := add_err _ _ p0 _ _ (format_val prec emax x) (format_val prec emax y)); change (bpow radix2 (- prec)) with u in N; destruct du0 as [u0 u1].
assert (u / (1 + u) * Rabs (val x + val y) <= u * (Rabs (val x) + Rabs (val y))).
{ apply Rmult_le_compat; [apply Rmult_le_pos; [lra|apply Rlt_le, Rinv_0_lt_compat; lra]|apply Rabs_pos| |apply Rabs_triang].
  apply Rmult_le_reg_r with (1 + u); [lra|]; unfold Rdiv; rewrite Rmult_assoc, Rinv_l by lra; nra. }
match type of N with Rabs (?r - _) <= _ => replace (r - (e1 + e2)) with ((r - (val x + val y)) + ((val x - e1) + (val y - e2))) by ring; set (w := r) in * end.
apply Rle_trans with (1 := Rabs_triang _ _); assert (T := Rabs_triang (val x - e1) (val y - e2)); lra.
Qed.
Lemma apx_opp k d c K x e a : apx k d c K x e a -> apx k d c K (Bopp x) (- e) a.
Proof.
intros h f; rewrite is_finite_Bopp in f; destruct (h f) as [h1 [h2 h3]]; rewrite B2R_Bopp; replace (- val x - - e) with (- (val x - e)) by ring; rewrite !Rabs_Ropp; auto.
Qed.
Lemma apx_sub k1 k2 d c1 c2 K1 K2 x y e1 e2 a1 a2 : (Nat.max k1 k2 < 20)%nat -> apx k1 d c1 K1 x e1 a1 -> apx k2 d c2 K2 y e2 a2 ->
  apx (Nat.max k1 k2 + 1) d (c1 + c2) (2 * (K1 + K2)) (fsub x y) (e1 - e2) (a1 + a2).
Proof.
intros hk h1 h2; apply (apx_plus _ _ _ _ _ _ x y _ e1 e2); [exact hk| | |apply (apx_weak k1 _ d c1 _ K1); [lia|lra|lra|exact h1]|apply (apx_weak k2 _ d c2 _ K2); [lia|lra|lra|exact h2]].
2: { unfold Rminus; apply Rle_trans with (1 := Rabs_triang _ _); rewrite Rabs_Ropp; lra. }
intro f; destruct (fsub_inv _ _ _ _ _ _ f) as [fx fy]; split; [exact fx|split; [exact fy|]]; rewrite (fsub_val _ _ _ _ _ _ f).
assert (N := add_err _ _ p0 _ _ (format_val prec emax x) (format_val prec emax (Bopp y))); rewrite B2R_Bopp in N; change (bpow radix2 (- prec)) with u in N; destruct du0 as [u0 u1].
assert (u / (1 + u) * Rabs (val x + - val y) <= u * (Rabs (val x) + Rabs (val y))).
{ apply Rmult_le_compat; [apply Rmult_le_pos; [lra|apply Rlt_le, Rinv_0_lt_compat; lra]|apply Rabs_pos| |apply Rle_trans with (1 := Rabs_triang _ _); rewrite Rabs_Ropp; lra].
  apply Rmult_le_reg_r with (1 + u); [lra|]; unfold Rdiv; rewrite Rmult_assoc, Rinv_l by lra; nra. }
fold (val x - val y) in N.
match type of N with Rabs (?r - _) <= _ => replace (r - (e1 - e2)) with ((r - (val x - val y)) + ((val x - e1) + - (val y - e2))) by ring; set (w := r) in * end.
apply Rle_trans with (1 := Rabs_triang _ _); assert (T := Rabs_triang (val x - e1) (- (val y - e2))); rewrite Rabs_Ropp in T; unfold Rminus at 1 in N; unfold Rminus in *; lra.
Qed.
(* sums in any order *)
Lemma apx_sum k d c K pad (l : list float) (es bs : list R) r : (k + length l <= 20)%nat -> fsum prec emax p0 pe pad l r ->
  Forall2 (fun x p => apx k d c K x (fst p) (snd p)) l (combine es bs) -> length es = length l -> length bs = length l -> (0 < length l)%nat ->
  apx (k + (length l - 1)) d (INR (length l) * c) (2 * INR (length l) * K) r (Rsum es) (Rsum bs).
Proof.
intros hk H F le lb l0 f.
assert (fl : Forall (fun x => fin x = true) l).
{ destruct (sum_core prec emax p0 pe _ _ H f) as [h _]; apply Forall_app in h; apply h. }
assert (E := C79_sum prec emax p0 pe pad l r H f).
destruct du0 as [u0 u1]; destruct de0 as [e0 e1]; assert (P := pm1 d).
assert (W : total_abs prec emax l <= (1 + u) ^ k * Rsum bs + INR (length l) * (K * eta * pm d) /\
  Rabs (total prec emax l - Rsum es) <= ((1 + u) ^ k - 1) * Rsum bs + INR (length l) * (K * eta * pm d) /\ Rabs (Rsum es) <= Rsum bs /\ Rsum bs <= INR (length l) * c * pm d).
{ clear E H hk l0; revert es bs F le lb; induction l as [|x l IH]; intros es bs F le lb.
  - destruct es; [|discriminate]; destruct bs; [|discriminate]; unfold total, total_abs, Rsum; simpl; rewrite !Rminus_0_r, Rabs_R0; repeat split; lra.
  - destruct es as [|e es]; [discriminate|]; destruct bs as [|b bs]; [discriminate|]; cbn [combine] in F; inversion F as [|? ? ? ? h1 h2]; subst; inversion fl as [|? ? f1 f2]; subst.
    injection le as le; injection lb as lb; destruct (IH f2 es bs h2 le lb) as [i1 [i2 [i3 i4]]]; cbn [fst snd] in h1; assert (m := apx_mag _ _ _ _ _ _ _ h1 f1); destruct (h1 f1) as [g1 [g2 [g3 _]]].
    unfold total, total_abs, Rsum in *; cbn [map fold_right length]; rewrite S_INR; set (A1 := fold_right Rplus 0 (map (fun x => Rabs (val x)) l)) in *; set (A2 := fold_right Rplus 0 (map val l)) in *; set (A3 := fold_right Rplus 0 bs) in *; set (A4 := fold_right Rplus 0 es) in *.
    set (z := K * eta * pm d) in *; set (q := (1 + u) ^ k) in *; set (nn := INR (length l)) in *.
    split; [nra|split; [|split]].
    + replace (val x + A2 - (e + A4)) with ((val x - e) + (A2 - A4)) by ring; apply Rle_trans with (1 := Rabs_triang _ _); lra.
    + apply Rle_trans with (1 := Rabs_triang _ _); lra.
    + lra. }
assert (cK : 0 <= c /\ 0 <= K).
{ destruct l as [|x l]; [simpl in l0; lia|]; destruct es as [|e es]; [discriminate|]; destruct bs as [|b bs]; [discriminate|]; cbn [combine] in F; inversion F as [|? ? ? ? h1 h2]; subst; inversion fl; subst; cbn [fst snd] in h1; apply h1; assumption. }
destruct W as [w1 [w2 [w3 w4]]]; destruct cK as [c0 K0].
assert (n0 : 0 <= INR (length l)) by apply pos_INR.
split; [|split; [exact w3|split; [exact w4|split; [apply Rmult_le_pos; assumption|apply Rmult_le_pos; [lra|exact K0]]]]].
assert (T : (terms prec emax l <= length l)%nat) by (unfold terms; clear; induction l as [|x l IH]; [reflexivity|]; cbn [filter length]; destruct (negb _); cbn [length]; lia).
assert (G : (1 + u) ^ Nat.pred (terms prec emax l) <= (1 + u) ^ (length l - 1)) by (apply Rle_pow; [lra|lia]).
set (g := (1 + u) ^ (length l - 1)) in *; assert (g1 : 1 <= g <= 2) by (apply pow2; lia).
rewrite pow_add; fold g; set (q := (1 + u) ^ k) in *; set (z := K * eta * pm d) in *.
assert (z0 : 0 <= z) by (unfold z; apply Rmult_le_pos; [apply Rmult_le_pos; lra|lra]).
assert (ta : 0 <= total_abs prec emax l) by (apply Rle_trans with (2 := total_le prec emax l); apply Rabs_pos).
assert (E' : Rabs (val r - total prec emax l) <= (g - 1) * (q * Rsum bs + INR (length l) * z)).
{ apply Rle_trans with (1 := E); apply Rle_trans with ((g - 1) * total_abs prec emax l); [apply Rmult_le_compat_r; [exact ta|lra]|apply Rmult_le_compat_l; lra]. }
replace (val r - Rsum es) with ((val r - total prec emax l) + (total prec emax l - Rsum es)) by ring; apply Rle_trans with (1 := Rabs_triang _ _).
assert (zz : 0 <= INR (length l) * z) by (apply Rmult_le_pos; assumption).
replace ((q * g - 1) * Rsum bs + 2 * INR (length l) * K * eta * pm d) with ((g - 1) * (q * Rsum bs) + (q - 1) * Rsum bs + 2 * (INR (length l) * z)) by (unfold z; ring); nra.
Qed.
Lemma apx_sum3 k d c K pad x1 x2 x3 e1 e2 e3 a1 a2 a3 r : (k <= 17)%nat -> apx k d c K x1 e1 a1 -> apx k d c K x2 e2 a2 -> apx k d c K x3 e3 a3 ->
  fsum prec emax p0 pe pad [x1; x2; x3] r -> apx (k + 2) d (3 * c) (6 * K) r (e1 + e2 + e3) (a1 + a2 + a3).
Proof.
intros hk h1 h2 h3 H; assert (T := apx_sum k d c K pad [x1; x2; x3] [e1; e2; e3] [a1; a2; a3] r); cbn [length Nat.sub INR] in T.
replace (e1 + e2 + e3) with (Rsum [e1; e2; e3]) by (unfold Rsum; simpl; ring); replace (a1 + a2 + a3) with (Rsum [a1; a2; a3]) by (unfold Rsum; simpl; ring).
replace (3 * c) with ((1 + 1 + 1) * c) by ring; replace (6 * K) with (2 * (1 + 1 + 1) * K) by ring; apply T; [lia|exact H|cbn [combine]; do 3 (apply Forall2_cons; [assumption|]); apply Forall2_nil|reflexivity|reflexivity|lia].
Qed.
Lemma apx_sum4 k d c K pad x1 x2 x3 x4 e1 e2 e3 e4 a1 a2 a3 a4 r : (k <= 16)%nat -> apx k d c K x1 e1 a1 -> apx k d c K x2 e2 a2 -> apx k d c K x3 e3 a3 -> apx k d c K x4 e4 a4 ->
  fsum prec emax p0 pe pad [x1; x2; x3; x4] r -> apx (k + 3) d (4 * c) (8 * K) r (e1 + e2 + e3 + e4) (a1 + a2 + a3 + a4).
Proof.
intros hk h1 h2 h3 h4 H; assert (T := apx_sum k d c K pad [x1; x2; x3; x4] [e1; e2; e3; e4] [a1; a2; a3; a4] r); cbn [length Nat.sub INR] in T.
replace (e1 + e2 + e3 + e4) with (Rsum [e1; e2; e3; e4]) by (unfold Rsum; simpl; ring); replace (a1 + a2 + a3 + a4) with (Rsum [a1; a2; a3; a4]) by (unfold Rsum; simpl; ring).
replace (4 * c) with ((1 + 1 + 1 + 1) * c) by ring; replace (8 * K) with (2 * (1 + 1 + 1 + 1) * K) by ring; apply T; [lia|exact H|cbn [combine]; do 4 (apply Forall2_cons; [assumption|]); apply Forall2_nil|reflexivity|reflexivity|lia].
Qed.
Lemma apx_eq k k' d d' c c' K K' x e e' a a' : apx k d c K x e a -> (k <= k')%nat -> d = d' -> c <= c' -> K <= K' -> e = e' -> a = a' -> apx k' d' c' K' x e' a'.
Proof. intros h hk <- hc hK <- <-; exact (apx_weak _ _ _ _ _ _ _ _ _ _ hk hc hK h). Qed.

Lemma apx_add' k1 k2 d1 d2 c1 c2 K1 K2 x y e1 e2 a1 a2 : apx k1 d1 c1 K1 x e1 a1 -> apx k2 d2 c2 K2 y e2 a2 -> (Nat.max k1 k2 < 20)%nat -> d1 = d2 ->
  apx (Nat.max k1 k2 + 1) d1 (c1 + c2) (2 * (K1 + K2)) (fadd x y) (e1 + e2) (a1 + a2).
Proof. intros h1 h2 hk <-; apply apx_add; assumption. Qed.
Lemma apx_sub' k1 k2 d1 d2 c1 c2 K1 K2 x y e1 e2 a1 a2 : apx k1 d1 c1 K1 x e1 a1 -> apx k2 d2 c2 K2 y e2 a2 -> (Nat.max k1 k2 < 20)%nat -> d1 = d2 ->
  apx (Nat.max k1 k2 + 1) d1 (c1 + c2) (2 * (K1 + K2)) (fsub x y) (e1 - e2) (a1 + a2).
Proof. intros h1 h2 hk <-; apply apx_sub; assumption. Qed.

Section Matrix.
Variables (E : fmat).
Notation A := (fun i j => val (E i j)).
Notation absA := (fun i j => Rabs (val (E i j))).
Definition bounded (n : nat) : Prop := forall i j, (i < n)%nat -> (j < n)%nat -> Rabs (val (E i j)) <= M.
Ltac apxs h := lazymatch goal with
  | |- apx _ _ _ _ (M_Float.fmul _ _ _ _ _ _) _ _ => eapply apx_mul; cycle 1; [apxs h|apxs h|cbn; lia]
  | |- apx _ _ _ _ (M_Float.fadd _ _ _ _ _ _) _ _ => eapply apx_add'; [apxs h|apxs h|cbn; lia|reflexivity]
  | |- apx _ _ _ _ (M_Float.fsub _ _ _ _ _ _) _ _ => eapply apx_sub'; [apxs h|apxs h|cbn; lia|reflexivity]
  | |- apx _ _ _ _ (M_FloatDet.fm1 _ _ _ _) _ _ => apply apx_m1
  | |- apx _ _ _ _ (E _ _) _ _ => apply apx_leaf; apply h; lia
  | |- apx _ _ _ _ (Bopp (E _ _)) _ _ => apply apx_opp, apx_leaf; apply h; lia
  | H : M_FloatN.fsum _ _ _ _ _ [_; _; _; _] ?x |- apx _ _ _ _ ?x _ _ => eapply apx_sum4; [ | | | | |exact H]; cycle 1; [apxs h|apxs h|apxs h|apxs h|cbn; lia]
  | H : M_FloatN.fsum _ _ _ _ _ [_; _; _] ?x |- apx _ _ _ _ ?x _ _ => eapply apx_sum3; [ | | | |exact H]; cycle 1; [apxs h|apxs h|apxs h|cbn; lia]
  | |- apx _ _ _ _ _ _ _ => apply apx_one
  end.
Ltac fin_apx := [> cbn; lia | reflexivity | try lra | try lra | expand; ring | expand; ring ].
Ltac apx_all h := eapply apx_eq; [apxs h|cbn; lia|reflexivity|lra|lra|expand; ring|expand; ring].
Lemma det2_apx : bounded 2 -> apx 2 2 2 4 (fdet2 prec emax p0 pe E) (rdet 2 A) (rper 2 absA).
Proof. intro h; eapply apx_eq; [unfold fdet2; apxs h|..]; fin_apx. Qed.
Lemma det2_apx' : bounded 2 -> apx 2 2 2 4 (fsub (fmul (E 0%nat 0%nat) (E 1%nat 1%nat)) (fmul (E 0%nat 1%nat) (E 1%nat 0%nat))) (rdet 2 A) (rper 2 absA).
Proof. intro h; eapply apx_eq; [apxs h|..]; fin_apx. Qed.
Lemma det3_apx pad r : bounded 3 -> fdet3 prec emax p0 pe pad E r -> apx 5 3 6 54 r (rdet 3 A) (rper 3 absA).
Proof.
intros h H; unfold fdet3, fdet3_lanes, fvmul, fvsub, fsw in H; cbn [map combine fst snd] in H.
eapply apx_eq; [apxs h|..]; fin_apx.
Qed.
Lemma det4_apx pad r : bounded 4 -> fdet4 prec emax p0 pe pad E r -> apx 11 4 24 5454 r (rdet 4 A) (rper 4 absA).
Proof.
intros h [s1 [s2 [s3 [s4 [s5 [H1 [H2 [H3 [H4 [H5 ->]]]]]]]]]].
unfold fdet4_lanes1, fdet4_lanes2, fdet4_lanes3, fdet4_lanes4, fdet4_lanes5, feven_pair, fodd_pair, fvmul, fvsub, fsw in *; cbn [map combine fst snd] in *.
eapply apx_eq; [apxs h|..]; fin_apx.
Qed.
(* the cofactors: element s t of the adjugate *)
Definition radj (n : nat) (B : nat -> nat -> R) (s t : nat) : R := (-1) ^ (s + t) * rdet n (rminor B t s).
Definition padj (n : nat) (B : nat -> nat -> R) (s t : nat) : R := rper n (rminor B t s).
Ltac cofs h := intros [|[|[|[|s]]]] [|[|[|[|t]]]] hs ht; try lia; unfold radj, padj; cbn [Nat.add nth map combine fst snd]; apx_all h.
Lemma cof2_apx : bounded 2 -> forall s t, (s < 2)%nat -> (t < 2)%nat -> apx 0 1 1 0 (fcof2 prec emax E s t) (radj 1 A s t) (padj 1 absA s t).
Proof. intro h; unfold fcof2; cofs h. Qed.
Lemma cof3_apx : bounded 3 -> forall s t, (s < 3)%nat -> (t < 3)%nat -> apx 2 2 2 4 (fcof3 prec emax p0 pe E s t) (radj 2 A s t) (padj 2 absA s t).
Proof. intro h; unfold fcof3, fvmul, fvsub, fsw; cofs h. Qed.
Lemma cof4_apx : bounded 4 -> forall s t, (s < 4)%nat -> (t < 4)%nat -> apx 8 3 6 1000 (fcof4 prec emax p0 pe E s t) (radj 3 A s t) (padj 3 absA s t).
Proof. intro h; unfold fcof4, feven, fodd, fvmul, fvadd, fvsub, fsw; cofs h. Qed.

(** * Determinants *)
Theorem C99_det2 : bounded 2 -> fin (fdet2 prec emax p0 pe E) = true -> Rabs (val (fdet2 prec emax p0 pe E) - rdet 2 A) <= ((1 + u) ^ 2 - 1) * rper 2 absA + 4 * eta * (1 + M) ^ 2.
Proof. intros h f; apply (det2_apx h f). Qed.
(* two by two, the sign is never wrong: a determinant computed to be positive or negative is *)
Theorem C99_sign2 : fin (fdet2 prec emax p0 pe E) = true -> (0 < val (fdet2 prec emax p0 pe E) -> 0 < rdet 2 A) /\ (val (fdet2 prec emax p0 pe E) < 0 -> rdet 2 A < 0).
Proof.
unfold fdet2; intro f; destruct (fsub_inv _ _ _ _ _ _ f) as [f1 f2]; rewrite (fsub_val _ _ _ _ _ _ f), (fmul_val _ _ _ _ _ _ f1), (fmul_val _ _ _ _ _ _ f2).
replace (rdet 2 A) with (val (E 0%nat 0%nat) * val (E 1%nat 1%nat) - val (E 1%nat 0%nat) * val (E 0%nat 1%nat)) by (expand; ring).
set (a := val (E 0%nat 0%nat) * _); set (b := val (E 1%nat 0%nat) * _); assert (z : RN 0 = 0) by apply round_0, valid_rnd_N.
assert (rle : forall x y, x <= y -> RN x <= RN y) by (intros x y h; apply round_le; [apply FLT_exp_valid; exact p0|apply valid_rnd_N|exact h]).
split; intro h.
- destruct (Rlt_le_dec b a) as [l|l]; [lra|]; assert (L := rle a b l).
  assert (L2 := rle (RN a - RN b) 0 ltac:(lra)); rewrite z in L2; lra.
- destruct (Rlt_le_dec a b) as [l|l]; [lra|]; assert (L := rle b a l).
  assert (L2 := rle 0 (RN a - RN b) ltac:(lra)); rewrite z in L2; lra.
Qed.
Theorem C99_det3 pad r : bounded 3 -> fdet3 prec emax p0 pe pad E r -> fin r = true -> Rabs (val r - rdet 3 A) <= ((1 + u) ^ 5 - 1) * rper 3 absA + 54 * eta * (1 + M) ^ 3.
Proof. intros h H f; apply (det3_apx pad r h H f). Qed.
Theorem C99_det4 pad r : bounded 4 -> fdet4 prec emax p0 pe pad E r -> fin r = true -> Rabs (val r - rdet 4 A) <= ((1 + u) ^ 11 - 1) * rper 4 absA + 5454 * eta * (1 + M) ^ 4.
Proof. intros h H f; apply (det4_apx pad r h H f). Qed.

(** * Inverses *)
Definition one_at (i j : nat) : R := if Nat.eqb i j then 1 else 0.
(* the error of element s t of the result *)
Definition elem_err (n k : nat) (K : R) (det : float) (X : fmat) (s t : nat) : R :=
  u * Rabs (val (X s t)) + / 2 * eta + (((1 + u) ^ k - 1) * padj n absA s t + K * eta * (1 + M) ^ n) / Rabs (val det).
Definition det_err (n k : nat) (K : R) (det : float) : R := (((1 + u) ^ k - 1) * rper n absA + K * eta * (1 + M) ^ n) / Rabs (val det).
Lemma elem n k K c (cof : fmat) det X : (forall s t, (s < S n)%nat -> (t < S n)%nat -> apx k n c K (cof s t) (radj n A s t) (padj n absA s t)) ->
  X = (fun s t => fdiv (cof s t) det) -> fin det = true -> (forall s t, (s < S n)%nat -> (t < S n)%nat -> fin (X s t) = true) ->
  val det <> 0 /\ forall s t, (s < S n)%nat -> (t < S n)%nat -> Rabs (val (X s t) - radj n A s t / val det) <= elem_err n k K det X s t.
Proof.
intros h eX fd fX; assert (nz : val det <> 0).
{ assert (f := fX 0%nat 0%nat ltac:(lia) ltac:(lia)); rewrite eX in f; apply (fdiv_inv prec emax p0 pe _ _ f fd). }
split; [exact nz|]; intros s t hs ht; assert (f := fX s t hs ht); rewrite eX in f; destruct (fdiv_inv prec emax p0 pe _ _ f fd) as [fc [_ e]].
assert (ex : X s t = fdiv (cof s t) det) by (rewrite eX; reflexivity); rewrite <- ex in e; destruct (h s t hs ht fc) as [b _].
assert (N := RN_err_r prec emax p0 (val (cof s t) / val det)); rewrite <- e, epsE in N; change (bpow radix2 (- prec)) with u in N; rewrite Rabs_minus_sym in N.
assert (d0 : 0 < / Rabs (val det)) by (apply Rinv_0_lt_compat, Rabs_pos_lt, nz).
replace (val (X s t) - radj n A s t / val det) with ((val (X s t) - val (cof s t) / val det) + (val (cof s t) - radj n A s t) * / val det) by (field; exact nz).
apply Rle_trans with (1 := Rabs_triang _ _); unfold elem_err, Rdiv; rewrite Rabs_mult, Rabs_inv; apply Rplus_le_compat; [exact N|apply Rmult_le_compat_r; [lra|exact b]].
Qed.
Lemma residual n k kd K Kd c cd (cof : fmat) det X : (forall s t, (s < S n)%nat -> (t < S n)%nat -> apx k n c K (cof s t) (radj n A s t) (padj n absA s t)) ->
  apx kd (S n) cd Kd det (rdet (S n) A) (rper (S n) absA) -> X = (fun s t => fdiv (cof s t) det) -> fin det = true ->
  (forall s t, (s < S n)%nat -> (t < S n)%nat -> fin (X s t) = true) -> forall i j, (i < S n)%nat -> (j < S n)%nat ->
  (lsum (fun l => A i l * radj n A l j) (seq 0 (S n)) = one_at i j * rdet (S n) A ->
   Rabs (lsum (fun l => A i l * val (X l j)) (seq 0 (S n)) - one_at i j) <= lsum (fun l => absA i l * elem_err n k K det X l j) (seq 0 (S n)) + det_err (S n) kd Kd det) /\
  (lsum (fun l => radj n A i l * A l j) (seq 0 (S n)) = one_at i j * rdet (S n) A ->
   Rabs (lsum (fun l => val (X i l) * A l j) (seq 0 (S n)) - one_at i j) <= lsum (fun l => elem_err n k K det X i l * absA l j) (seq 0 (S n)) + det_err (S n) kd Kd det).
Proof.
intros h hd eX fd fX i j hi hj; destruct (elem n k K c cof det X h eX fd fX) as [nz B]; destruct (hd fd) as [bd _].
assert (d0 : 0 < / Rabs (val det)) by (apply Rinv_0_lt_compat, Rabs_pos_lt, nz).
assert (D : Rabs (one_at i j * rdet (S n) A / val det - one_at i j) <= det_err (S n) kd Kd det).
{ replace (one_at i j * rdet (S n) A / val det - one_at i j) with (- (one_at i j) * ((val det - rdet (S n) A) * / val det)) by (field; exact nz).
  rewrite Rabs_mult, Rabs_Ropp, Rabs_mult, Rabs_inv; assert (o : 0 <= Rabs (one_at i j) <= 1) by (unfold one_at; destruct (Nat.eqb i j); [rewrite Rabs_R1|rewrite Rabs_R0]; lra).
  assert (T : Rabs (val det - rdet (S n) A) * / Rabs (val det) <= det_err (S n) kd Kd det) by (unfold det_err, Rdiv; apply Rmult_le_compat_r; [lra|exact bd]).
  assert (0 <= Rabs (val det - rdet (S n) A) * / Rabs (val det)) by (apply Rmult_le_pos; [apply Rabs_pos|lra]); nra. }
assert (Mi : forall x y, x - y = x + (-1) * y) by (intros; ring).
split; intro ident.
- set (T1 := lsum (fun l => A i l * val (X l j)) _).
  assert (Q : Rabs (T1 - one_at i j * rdet (S n) A / val det) <= lsum (fun l => absA i l * elem_err n k K det X l j) (seq 0 (S n))).
  { rewrite <- ident; unfold T1, Rdiv; rewrite Mi, (Rmult_comm _ (/ val det)), <- Rmult_assoc, <- lsum_scal, <- lsum_plus.
    apply Rle_trans with (1 := lsum_abs _ _); apply lsum_le; intros l hl; apply in_seq in hl.
    replace (A i l * val (X l j) + -1 * / val det * (A i l * radj n A l j)) with (A i l * (val (X l j) - radj n A l j / val det)) by (unfold Rdiv; ring).
    rewrite Rabs_mult; apply Rmult_le_compat_l; [apply Rabs_pos|apply B; lia]. }
  replace (T1 - one_at i j) with ((T1 - one_at i j * rdet (S n) A / val det) + (one_at i j * rdet (S n) A / val det - one_at i j)) by ring.
  apply Rle_trans with (1 := Rabs_triang _ _); lra.
- set (T1 := lsum (fun l => val (X i l) * A l j) _).
  assert (Q : Rabs (T1 - one_at i j * rdet (S n) A / val det) <= lsum (fun l => elem_err n k K det X i l * absA l j) (seq 0 (S n))).
  { rewrite <- ident; unfold T1, Rdiv; rewrite Mi, (Rmult_comm _ (/ val det)), <- Rmult_assoc, <- lsum_scal, <- lsum_plus.
    apply Rle_trans with (1 := lsum_abs _ _); apply lsum_le; intros l hl; apply in_seq in hl.
    replace (val (X i l) * A l j + -1 * / val det * (radj n A i l * A l j)) with ((val (X i l) - radj n A i l / val det) * A l j) by (unfold Rdiv; ring).
    rewrite Rabs_mult; apply Rmult_le_compat_r; [apply Rabs_pos|apply B; lia]. }
  replace (T1 - one_at i j) with ((T1 - one_at i j * rdet (S n) A / val det) + (one_at i j * rdet (S n) A / val det - one_at i j)) by ring.
  apply Rle_trans with (1 := Rabs_triang _ _); lra.
Qed.
Ltac ident := unfold one_at, radj; cbn [seq Nat.eqb Nat.add]; rewrite !lsum_cons; change (lsum ?f []) with 0; cbn [Nat.add]; expand; ring.
Definition near_inverse (n k kd : nat) (K Kd : R) (det : float) (X : fmat) : Prop := forall i j, (i < S n)%nat -> (j < S n)%nat ->
  Rabs (lsum (fun l => A i l * val (X l j)) (seq 0 (S n)) - one_at i j) <= lsum (fun l => absA i l * elem_err n k K det X l j) (seq 0 (S n)) + det_err (S n) kd Kd det /\
  Rabs (lsum (fun l => val (X i l) * A l j) (seq 0 (S n)) - one_at i j) <= lsum (fun l => elem_err n k K det X i l * absA l j) (seq 0 (S n)) + det_err (S n) kd Kd det.
Theorem C99_inverse2 det X : bounded 2 -> finverse2 prec emax p0 pe E det X -> fin det = true -> (forall s t, (s < 2)%nat -> (t < 2)%nat -> fin (X s t) = true) ->
  near_inverse 1 0 2 0 4 det X.
Proof.
intros h [ed eX] fd fX i j hi hj; assert (hd := det2_apx' h); rewrite <- ed in hd.
destruct (residual 1 0 2 0 4 1 2 _ det X (cof2_apx h) hd eX fd fX i j hi hj) as [r1 r2]; split; [apply r1|apply r2]; clear - hi hj;
  destruct i as [|[|i]]; try lia; destruct j as [|[|j]]; try lia; ident.
Qed.
Theorem C99_inverse3 pad det X : bounded 3 -> finverse3 prec emax p0 pe pad E det X -> fin det = true -> (forall s t, (s < 3)%nat -> (t < 3)%nat -> fin (X s t) = true) ->
  near_inverse 2 2 5 4 54 det X.
Proof.
intros h [ed eX] fd fX i j hi hj.
destruct (residual 2 2 5 4 54 2 6 _ det X (cof3_apx h) (det3_apx pad det h ed) eX fd fX i j hi hj) as [r1 r2]; split; [apply r1|apply r2]; clear - hi hj;
  destruct i as [|[|[|i]]]; try lia; destruct j as [|[|[|j]]]; try lia; ident.
Qed.
Theorem C99_inverse4 pad det X : bounded 4 -> finverse4 prec emax p0 pe pad E det X -> fin det = true -> (forall s t, (s < 4)%nat -> (t < 4)%nat -> fin (X s t) = true) ->
  near_inverse 3 8 11 1000 5454 det X.
Proof.
intros h [ed eX] fd fX i j hi hj.
destruct (residual 3 8 11 1000 5454 6 24 _ det X (cof4_apx h) (det4_apx pad det h ed) eX fd fX i j hi hj) as [r1 r2]; split; [apply r1|apply r2]; clear - hi hj;
  destruct i as [|[|[|[|i]]]]; try lia; destruct j as [|[|[|[|j]]]]; try lia; ident.
Qed.
End Matrix.
End FloatDet.
Print Assumptions C99_det2.
Print Assumptions C99_sign2.
Print Assumptions C99_det3.
Print Assumptions C99_det4.
Print Assumptions C99_inverse2.
Print Assumptions C99_inverse3.
Print Assumptions C99_inverse4.

(** * Cases in double precision *)
Notation fl := (binary_float 53 1024).
Definition dadd : fl -> fl -> fl := M_Float.fadd 53 1024 eq_refl eq_refl.
Lemma dsum3 a b c : fsum 53 1024 eq_refl eq_refl 0 [a; b; c] (dadd (dadd a b) c).
Proof. unfold fsum; simpl; apply (fred_app _ _ _ [a; b] [c]); [apply (fred_app _ _ _ [a] [b])|]; apply fred_one. Qed.
Lemma dsum4 a b c d : fsum 53 1024 eq_refl eq_refl 0 [a; b; c; d] (dadd (dadd a b) (dadd c d)).
Proof. unfold fsum; simpl; apply (fred_app _ _ _ [a; b] [c; d]); [apply (fred_app _ _ _ [a] [b])|apply (fred_app _ _ _ [c] [d])]; apply fred_one. Qed.
Definition dsum3' (l : list fl) : fl := match l with [a; b; c] => dadd (dadd a b) c | _ => fzero 53 1024 end.
Definition dsum4' (l : list fl) : fl := match l with [a; b; c; d] => dadd (dadd a b) (dadd c d) | _ => fzero 53 1024 end.
Definition ddet3 (E : M_FloatLU.fmat 53 1024) : fl := dsum3' (fdet3_lanes 53 1024 eq_refl eq_refl E).
Definition ddet4 (E : M_FloatLU.fmat 53 1024) : fl := dadd (dadd (dadd (dadd (dsum4' (fdet4_lanes1 53 1024 eq_refl eq_refl E)) (dsum4' (fdet4_lanes2 53 1024 eq_refl eq_refl E)))
  (dsum4' (fdet4_lanes3 53 1024 eq_refl eq_refl E))) (M_Float.fmul 53 1024 eq_refl eq_refl (E 0%nat 3%nat) (dsum3' (fdet4_lanes4 53 1024 eq_refl eq_refl E))))
  (M_Float.fmul 53 1024 eq_refl eq_refl (E 0%nat 2%nat) (dsum3' (fdet4_lanes5 53 1024 eq_refl eq_refl E))).
Lemma ddet3_run E : fdet3 53 1024 eq_refl eq_refl 0 E (ddet3 E).
Proof. apply dsum3. Qed.
Lemma ddet4_run E : fdet4 53 1024 eq_refl eq_refl 0 E (ddet4 E).
Proof. do 5 eexists; split; [apply dsum4|]; split; [apply dsum4|]; split; [apply dsum4|]; split; [apply dsum3|]; split; [apply dsum3|]; reflexivity. Qed.

(* The determinant of an invertible matrix may be zero, and its inverse infinite: 1 + 2^-52, 1; 1, 1 - 2^-52 *)
Definition near : M_FloatLU.fmat 53 1024 := fun i j => match i, j with 0%nat, 0%nat => dbl 0x10000000000001 (-52) | 1%nat, 1%nat => dbl 0xfffffffffffff (-52) | _, _ => dbl 1 0 end.
Theorem C99_zero_refuted : exists (E : M_FloatLU.fmat 53 1024) det X, (forall i j, is_finite (E i j) = true) /\ rdet 2 (fun i j => B2R (E i j)) <> 0 /\
  B2R (fdet2 53 1024 eq_refl eq_refl E) = 0 /\ finverse2 53 1024 eq_refl eq_refl E det X /\ forall i j, (i < 2)%nat -> (j < 2)%nat -> is_finite (X i j) = false.
Proof.
exists near, (fdet2 53 1024 eq_refl eq_refl near), (fun s t => M_Float.fdiv 53 1024 eq_refl eq_refl (fcof2 53 1024 near s t) (fdet2 53 1024 eq_refl eq_refl near)).
split; [intros [|[|i]] [|[|j]]; vm_compute; reflexivity|].
assert (a : B2R (near 0%nat 0%nat) = IZR 0x10000000000001 * / IZR (2 ^ 52)) by (dval; lra); assert (b : B2R (near 0%nat 1%nat) = 1) by (dval; lra).
assert (c : B2R (near 1%nat 0%nat) = 1) by (dval; lra); assert (d : B2R (near 1%nat 1%nat) = IZR 0xfffffffffffff * / IZR (2 ^ 52)) by (dval; lra).
split; [|split; [dval; lra|split; [split; [vm_compute; reflexivity|reflexivity]|intros [|[|i]] [|[|j]] hi hj; try lia; vm_compute; reflexivity]]].
expand; rewrite a, b, c, d; lra.
Qed.
Print Assumptions C99_zero_refuted.
(* three by three, the sign may be wrong *)
Definition wrong : M_FloatLU.fmat 53 1024 := fun i j => match i, j with
  | 0%nat, 2%nat => dbl 3 0 | 0%nat, _ => dbl 7 0 | 1%nat, 1%nat => dbl 9 0 | 1%nat, _ => dbl 6 0
  | _, 0%nat => dbl 7355879391371809 (-50) | _, 1%nat => dbl 1215033649467665 (-47) | _, _ => dbl 1463669878895411 (-48) end.
Theorem C99_sign3_refuted : exists (E : M_FloatLU.fmat 53 1024) r, (forall i j, is_finite (E i j) = true) /\ fdet3 53 1024 eq_refl eq_refl 0 E r /\
  is_finite r = true /\ 0 < B2R r /\ rdet 3 (fun i j => B2R (E i j)) < 0.
Proof.
exists wrong, (ddet3 wrong); split; [intros [|[|i]] [|[|[|j]]]; vm_compute; reflexivity|]; split; [apply ddet3_run|]; split; [vm_compute; reflexivity|]; split; [dval; lra|].
assert (e00 : B2R (wrong 0%nat 0%nat) = 7) by (dval; lra); assert (e01 : B2R (wrong 0%nat 1%nat) = 7) by (dval; lra); assert (e02 : B2R (wrong 0%nat 2%nat) = 3) by (dval; lra).
assert (e10 : B2R (wrong 1%nat 0%nat) = 6) by (dval; lra); assert (e11 : B2R (wrong 1%nat 1%nat) = 9) by (dval; lra); assert (e12 : B2R (wrong 1%nat 2%nat) = 6) by (dval; lra).
assert (e20 : B2R (wrong 2%nat 0%nat) = 7355879391371809 * / IZR (2 ^ 50)) by (dval; lra).
assert (e21 : B2R (wrong 2%nat 1%nat) = 1215033649467665 * / IZR (2 ^ 47)) by (dval; lra).
assert (e22 : B2R (wrong 2%nat 2%nat) = 1463669878895411 * / IZR (2 ^ 48)) by (dval; lra).
expand; rewrite e00, e01, e02, e10, e11, e12, e20, e21, e22; simpl (2 ^ _)%Z; lra.
Qed.
Print Assumptions C99_sign3_refuted.

(* 2 1 0 1; 1 3 1 0; 0 1 2 1; 1 0 1 3: the leading blocks of two, three and four rows *)
Definition demo : M_FloatLU.fmat 53 1024 := fun i j => nth j (nth i [[dbl 2 0; dbl 1 0; dbl 0 0; dbl 1 0]; [dbl 1 0; dbl 3 0; dbl 1 0; dbl 0 0]; [dbl 0 0; dbl 1 0; dbl 2 0; dbl 1 0]; [dbl 1 0; dbl 0 0; dbl 1 0; dbl 3 0]] []) (dbl 0 0).
Definition ddet2 (E : M_FloatLU.fmat 53 1024) : fl := M_Float.fsub 53 1024 eq_refl eq_refl (M_Float.fmul 53 1024 eq_refl eq_refl (E 0%nat 0%nat) (E 1%nat 1%nat)) (M_Float.fmul 53 1024 eq_refl eq_refl (E 0%nat 1%nat) (E 1%nat 0%nat)).
Definition demo2 : M_FloatLU.fmat 53 1024 := fun s t => M_Float.fdiv 53 1024 eq_refl eq_refl (fcof2 53 1024 demo s t) (ddet2 demo).
Definition demo3 : M_FloatLU.fmat 53 1024 := fun s t => M_Float.fdiv 53 1024 eq_refl eq_refl (fcof3 53 1024 eq_refl eq_refl demo s t) (ddet3 demo).
Definition demo4 : M_FloatLU.fmat 53 1024 := fun s t => M_Float.fdiv 53 1024 eq_refl eq_refl (fcof4 53 1024 eq_refl eq_refl demo s t) (ddet4 demo).
Ltac dvm := rewrite <- SF2R_B2SF; match goal with |- context [B2SF ?x] => let y := eval vm_compute in (B2SF x) in replace (B2SF x) with y by (vm_compute; reflexivity) end; simpl; unfold F2R; simpl.
Lemma demo_bounded : bounded 53 1024 3 demo 4.
Proof. intros [|[|[|[|i]]]] [|[|[|[|j]]]] hi hj; try lia; apply Rabs_le; split; dvm; lra. Qed.
Example C99_example2 : finverse2 53 1024 eq_refl eq_refl demo (ddet2 demo) demo2 /\ B2R (ddet2 demo) = 5 /\ B2R (fdet2 53 1024 eq_refl eq_refl demo) = 5 /\
  (forall s t, (s < 2)%nat -> (t < 2)%nat -> is_finite (demo2 s t) = true) /\ Rabs (B2R (demo2 0%nat 1%nat) + / 5) < / 10 ^ 15.
Proof.
split; [split; reflexivity|split; [dvm; lra|split; [dvm; lra|split]]].
- intros [|[|s]] [|[|t]] hs ht; try lia; vm_compute; reflexivity.
- apply Rabs_def1; dvm; lra.
Qed.
Example C99_example3 : finverse3 53 1024 eq_refl eq_refl 0 demo (ddet3 demo) demo3 /\ B2R (ddet3 demo) = 8 /\
  (forall s t, (s < 3)%nat -> (t < 3)%nat -> is_finite (demo3 s t) = true) /\ B2R (demo3 0%nat 1%nat) = - / 4.
Proof.
split; [split; [apply ddet3_run|reflexivity]|split; [dvm; lra|split]].
- intros [|[|[|s]]] [|[|[|t]]] hs ht; try lia; vm_compute; reflexivity.
- dvm; lra.
Qed.
Example C99_example4 : finverse4 53 1024 eq_refl eq_refl 0 demo (ddet4 demo) demo4 /\ B2R (ddet4 demo) = 12 /\
  (forall s t, (s < 4)%nat -> (t < 4)%nat -> is_finite (demo4 s t) = true) /\ B2R (demo4 0%nat 1%nat) = - / 2 /\ Rabs (B2R (demo4 1%nat 3%nat) - / 3) < / 10 ^ 15.
Proof.
split; [split; [apply ddet4_run|reflexivity]|split; [dvm; lra|split; [|split]]].
- intros [|[|[|[|s]]]] [|[|[|[|t]]]] hs ht; try lia; vm_compute; reflexivity.
- dvm; lra.
- apply Rabs_def1; dvm; lra.
Qed.
