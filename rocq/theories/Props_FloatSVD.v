(* C97: the one-sided Jacobi SVD in floating point. *)
From Coq Require Import ZArith List Arith Bool Reals Lia Lra Psatz Permutation.
From Flocq Require Import Core IEEE754.BinarySingleNaN.
From Verif Require Import M_Float P_Float P_FloatD M_FloatN P_FloatN M_FloatS M_FloatLU P_FloatLU P_FloatTri P_FloatDec M_FloatQR P_FloatHH M_FloatSVD P_FloatSVD Props_Float Props_FloatN Props_FloatS Props_FloatQR P_Norm.
Import ListNotations.
Local Open Scope R_scope.

Section FloatSVD.
Variables prec emax : Z.
Context (p0 : Prec_gt_0 prec) (pe : Prec_lt_emax prec emax).
Hypothesis prec5 : (5 <= prec)%Z.
Hypothesis range : (3 * prec <= emax)%Z.
Notation float := (binary_float prec emax).
Notation val := (@B2R prec emax).
Notation fin := (@is_finite prec emax).
Notation u := (u prec).
Notation eta := (eta prec emax).
Notation fadd := (fadd prec emax p0 pe).
Notation fmul := (fmul prec emax p0 pe).
Notation fdiv := (fdiv prec emax p0 pe).
Notation fzero := (fzero prec emax).
Notation fmat := (fmat prec emax).
Notation RN := (round radix2 (FLT_exp (SpecFloat.emin prec emax) prec) ZnearestE).
Variables (fmax : float -> float -> float) (fused : bool) (hypot3 : float -> float -> float -> float).
Variables (rowmajor : bool) (pa pad ps qa qm qs m n : nat).
Notation sum f := (lsum f (seq 0 n)).
Notation fdecompose_svd := (fdecompose_svd prec emax p0 pe fmax fused hypot3 rowmajor pa pad ps qa qm qs m n).
Notation fsvd_loop := (fsvd_loop prec emax p0 pe hypot3 pad m n).

(** * The rotation of a pair of columns *)
(* (cv, sv) has length 1 up to 5u for any matrix (a11 aoff; aoff a22) and any hypot, as soon as it is finite *)
Theorem C97_rotation (a11 aoff a22 : float) : let r := fminimize prec emax p0 pe (fdiagonalize prec emax p0 pe hypot3 a11 aoff a22) in
  fin (fst r) = true -> fin (snd r) = true -> Rabs (sqrt (val (fst r) ^ 2 + val (snd r) ^ 2) - 1) <= 5 * u.
Proof. intros r f1 f2; replace (val (fst r) ^ 2 + val (snd r) ^ 2) with (val (fst r) * val (fst r) + val (snd r) * val (snd r)) by ring; apply (rotation_unit prec emax p0 pe prec5 range hypot3 a11 aoff a22 f1 f2). Qed.

(** * The loop always ends *)
Lemma reduce_ex (op : float -> float -> float) (l : list float) : l <> [] -> exists r, freduce prec emax op l r.
Proof.
induction l as [|x l IH]; intro h; [contradiction|]; destruct l as [|y l]; [exists x; apply fred_one|].
destruct IH as [r hr]; [discriminate|]; exists (op x r); apply (fred_app prec emax op [x] (y :: l)); [apply fred_one|exact hr].
Qed.
Lemma dot_ex (l r : list float) : l <> [] -> length l = length r -> exists s, fdot prec emax p0 pe pad l r s.
Proof.
intros h e; unfold fdot, fsum; apply reduce_ex; destruct l as [|x l]; [contradiction|]; destruct r as [|y r]; [discriminate|]; simpl; discriminate.
Qed.
(* a bound of the loop variable: zero, positive or infinite *)
Definition nonneg_float (e : float) : Prop := e = B754_infinity false \/ (fin e = true /\ 0 <= val e).
Lemma max_nonneg (e x : float) : nonneg_float e -> nonneg_float (std_fmax prec emax e (fabs prec emax x)).
Proof.
intro h; unfold std_fmax; destruct (flt prec emax e (fabs prec emax x)) eqn:E; [|exact h].
destruct x as [s|s| |s mx ex hx]; simpl.
- right; split; [reflexivity|simpl; lra].
- left; reflexivity.
- exfalso; unfold flt, fabs in E; destruct e; simpl in E; discriminate.
- right; split; [reflexivity|]; simpl; apply F2R_ge_0; simpl; lia.
Qed.
Lemma pair_ex p q X V e : (0 < m)%nat -> nonneg_float e -> exists X' V' e', fsvd_pair prec emax p0 pe hypot3 pad m (p, q) (X, V, e) (X', V', e') /\ nonneg_float e'.
Proof.
intros hm he.
assert (C : forall a, column_of prec emax m X a <> []) by (intro a; unfold column_of; destruct m; [lia|discriminate]).
assert (L : forall a b, length (column_of prec emax m X a) = length (column_of prec emax m X b)) by (intros; unfold column_of; rewrite !map_length; reflexivity).
destruct (dot_ex _ _ (C p) (L p p)) as [a11 h1]; destruct (dot_ex _ _ (C p) (L p q)) as [aoff h2]; destruct (dot_ex _ _ (C q) (L q q)) as [a22 h3].
unfold fsvd_pair.
destruct (fneq prec emax (fabs prec emax aoff) fzero) eqn:E.
- destruct (fminimize prec emax p0 pe (fdiagonalize prec emax p0 pe hypot3 a11 aoff a22)) as [c s] eqn:F.
  exists (fgivens_right prec emax p0 pe X p q c s), (fgivens_left prec emax p0 pe V p q c (Bopp s)), (std_fmax prec emax e (fabs prec emax aoff)).
  split; [|apply max_nonneg, he]; exists a11, aoff, a22; cbv zeta; rewrite E, F; auto.
- exists X, V, e; split; [|exact he]; exists a11, aoff, a22; cbv zeta; rewrite E; auto.
Qed.
Lemma sweep_ex pairs : (0 < m)%nat -> forall X V e, nonneg_float e -> exists X' V' e', fsvd_sweep prec emax p0 pe hypot3 pad m pairs (X, V, e) (X', V', e') /\ nonneg_float e'.
Proof.
intro hm; induction pairs as [|[p q] pairs IH]; intros X V e he; [exists X, V, e; split; [reflexivity|exact he]|].
destruct (pair_ex p q X V e hm he) as [X1 [V1 [e1 [h1 h2]]]]; destruct (IH X1 V1 e1 h2) as [X2 [V2 [e2 [h3 h4]]]].
exists X2, V2, e2; split; [|exact h4]; exists (X1, V1, e1); auto.
Qed.
Lemma prec1 : (1 < prec)%Z.
Proof. lia. Qed.
Theorem C97_terminates (X V : fmat) (e prev : float) : (0 < m)%nat -> nonneg_float e -> exists k X' V', fsvd_loop k e prev X V X' V'.
Proof.
intros hm he.
assert (W : forall N e prev X V, nonneg_float e -> (fin e = true -> exists z : nat, (z < N)%nat /\ val e = IZR (Z.of_nat z) * bpow radix2 (SpecFloat.emin prec emax)) -> exists k X' V', fsvd_loop k e prev X V X' V').
{ clear X V e prev he; induction N as [|N IH]; intros e prev X V he hz.
  - destruct he as [->|[f _]]; [|destruct (hz f) as [z [lz _]]; lia].
    exists 0%nat, X, V; apply svd_stop; unfold flt; destruct prev as [s|[|]| |s mm ee hh]; reflexivity.
  - destruct (flt prec emax e prev) eqn:E; [|exists 0%nat, X, V; apply svd_stop; exact E].
    assert (fe : fin e = true /\ 0 <= val e) by (destruct he as [->|h]; [unfold flt in E; destruct prev as [s|[|]| |s mm ee hh]; discriminate|exact h]).
    destruct (sweep_ex (svd_pairs n) hm X V fzero) as [X1 [V1 [e1 [h1 h2]]]]; [right; split; [reflexivity|simpl; lra]|].
    destruct (flt prec emax e1 e) eqn:E1.
    + assert (f1 : fin e1 = true /\ 0 <= val e1) by (destruct h2 as [->|h]; [unfold flt in E1; destruct e as [s|[|]| |s mm ee hh]; discriminate|exact h]).
      destruct (IH e1 e X1 V1 h2) as [k [X' [V' h3]]]; [|exists (S k), X', V'; eapply svd_more; eauto].
      intros _; destruct (hz (proj1 fe)) as [z [lz ez]].
      destruct (P_FloatN.format_emin prec emax prec1 (val e1) (format_val prec emax e1)) as [z1 ez1].
      assert (bp : 0 < bpow radix2 (SpecFloat.emin prec emax)) by apply bpow_gt_0.
      apply (flt_val prec emax e1 e (proj1 f1) (proj1 fe)) in E1.
      assert (n1 : (0 <= z1)%Z) by (apply le_IZR, Rmult_le_reg_r with (1 := bp); rewrite Rmult_0_l, <- ez1; apply f1).
      assert (n2 : (z1 < Z.of_nat z)%Z) by (apply lt_IZR, Rmult_lt_reg_r with (1 := bp); rewrite <- ez1, <- ez; exact E1).
      exists (Z.to_nat z1); split; [lia|]; rewrite Z2Nat.id by exact n1; exact ez1.
    + exists 1%nat, X1, V1; eapply svd_more; [exact E|exact h1|]; apply svd_stop; exact E1. }
destruct he as [->|[f h]].
- apply (W 0%nat); [left; reflexivity|intro f; discriminate].
- destruct (P_FloatN.format_emin prec emax prec1 (val e) (format_val prec emax e)) as [z ez].
  assert (bp : 0 < bpow radix2 (SpecFloat.emin prec emax)) by apply bpow_gt_0.
  assert (z0 : (0 <= z)%Z) by (apply le_IZR, Rmult_le_reg_r with (1 := bp); rewrite Rmult_0_l, <- ez; exact h).
  apply (W (S (Z.to_nat z))); [right; auto|]; intros _; exists (Z.to_nat z); split; [lia|]; rewrite Z2Nat.id by exact z0; exact ez.
Qed.

(* ... from the values it starts with *)
Theorem C97_ends (X V : fmat) : (0 < m)%nat -> exists k X' V', fsvd_loop k (Bpred (fmax_value prec emax p0 pe)) (fmax_value prec emax p0 pe) X V X' V'.
Proof.
intro hm; apply C97_terminates; [exact hm|]; right; unfold fmax_value.
assert (fm : fin (@Bmax_float prec emax p0 pe) = true) by (rewrite <- is_finite_SF_B2SF; reflexivity).
assert (h := Bpred_correct prec emax p0 pe _ fm).
assert (mx : 0 < val (@Bmax_float prec emax p0 pe)).
{ rewrite <- SF2R_B2SF; unfold Bmax_float; rewrite B2SF_SF2B; simpl; apply F2R_gt_0; simpl; lia. }
assert (pr : 0 <= pred radix2 (SpecFloat.fexp prec emax) (val (@Bmax_float prec emax p0 pe))).
{ apply pred_ge_0; [apply fexp_correct; exact p0|exact mx|apply generic_format_B2R]. }
rewrite Rlt_bool_true in h; [destruct h as [a [b _]]; rewrite a; split; [exact b|exact pr]|].
apply Rlt_le_trans with (2 := pr); assert (0 < bpow radix2 emax) by apply bpow_gt_0; lra.
Qed.
(* the pairs of columns *)
Theorem C97_pairs N : (2 * length (svd_pairs N) = N * (N - 1))%nat.
Proof.
unfold svd_pairs; assert (W : forall j s, (s + j = N)%nat -> (2 * length (flat_map (fun p => map (fun q => (p, q)) (seq (S p) (N - S p))) (seq s j)) = j * (j - 1))%nat).
{ induction j as [|j IH]; intros s e; [reflexivity|]; cbn [seq flat_map]; rewrite app_length, map_length, seq_length; specialize (IH (S s) ltac:(lia)); nia. }
apply (W N 0%nat); reflexivity.
Qed.

(** * V is orthogonal, and X V is the scaled matrix, after any number of sweeps *)
Notation jac_len := (jac_len prec emax).
(* the number of rotations *)
Definition rotations (k : nat) : nat := k * length (svd_pairs n).
Definition v_err (k : nat) : R := jac_len (rotations k) 1 - 1.
Definition delta (i j : nat) : R := if Nat.eqb i j then 1 else 0.
Definition finite_mat (r c : nat) (A : fmat) : Prop := forall i j, (i < r)%nat -> (j < c)%nat -> fin (A i j) = true.
Lemma verr0 k : 0 <= v_err k.
Proof. unfold v_err; destruct (jac_grow prec emax prec5 range (rotations k) 1 1 ltac:(lra)) as [_ [_ h]]; lra. Qed.
Lemma dot_gap (f g f' g' : nat -> R) a b F G : nrm n (fun i => f i - f' i) <= a -> nrm n (fun i => g i - g' i) <= b -> nrm n f' <= F -> nrm n g <= G ->
  Rabs (dot n f g - dot n f' g') <= a * G + F * b.
Proof.
intros h1 h2 h3 h4.
assert (E : dot n f g - dot n f' g' = dot n (fun i => f i - f' i) g + dot n f' (fun i => g i - g' i)).
{ unfold P_Norm.dot; rewrite <- lsum_plus; assert (M : forall x y, x - y = x + (-1) * y) by (intros; ring); rewrite M, <- lsum_scal, <- lsum_plus; apply lsum_ext; intros; ring. }
rewrite E; apply Rle_trans with (1 := Rabs_triang _ _).
assert (c1 := cauchy n (fun i => f i - f' i) g); assert (c2 := cauchy n f' (fun i => g i - g' i)).
assert (nrm n (fun i => f i - f' i) * nrm n g <= a * G) by (apply Rmult_le_compat; try apply nrm_pos; assumption).
assert (nrm n f' * nrm n (fun i => g i - g' i) <= F * b) by (apply Rmult_le_compat; try apply nrm_pos; assumption); lra.
Qed.
Lemma id_col j : (j < n)%nat -> forall i, val (fidentity prec emax p0 pe i j) = unit_vec j i.
Proof. intros hj i; unfold fidentity, unit_vec; destruct (Nat.eqb i j); [apply Bone_correct|reflexivity]. Qed.
Lemma near_ext k G H x0 x0' x : isometry n G H -> (forall i, (i < n)%nat -> x0 i = x0' i) -> near prec emax n k G x0 x -> near prec emax n k G x0' x.
Proof.
intros [_ [_ [_ [_ e]]]] h [a b]; unfold near; rewrite <- (nrm_ext n x0 x0' h); split; [exact a|].
rewrite (nrm_ext n _ (fun i => x i - G x0 i)); [exact b|]; intros i hi; rewrite (e x0 x0' h i hi); reflexivity.
Qed.
Section Loop.
Variables (k : nat) (e prev : float) (X0 X V : fmat).
Hypothesis L : fsvd_loop k e prev X0 (fidentity prec emax p0 pe) X V.
Hypothesis fX : finite_mat m n X.
Hypothesis fV : finite_mat n n V.
Lemma loopI : exists G H, isometry n G H /\ (forall i, (i < m)%nat -> near prec emax n (rotations k) G (fun j => val (X0 i j)) (fun j => val (X i j))) /\
  (forall j, (j < n)%nat -> near prec emax n (rotations k) G (unit_vec j) (fun i => val (V i j))).
Proof.
destruct (loop_linked prec emax p0 pe prec5 range n hypot3 pad m k e prev _ _ _ _ L fX fV) as [_ [_ [G [H [I [a b]]]]]].
exists G, H; split; [exact I|split; [exact a|]]; intros j hj; apply (near_ext _ _ H (fun i => val (fidentity prec emax p0 pe i j))); auto; intros; apply id_col; exact hj.
Qed.
Lemma loop_columns i j : (i < n)%nat -> (j < n)%nat -> Rabs (sum (fun l => val (V l i) * val (V l j)) - delta i j) <= 2 * v_err k + v_err k ^ 2.
Proof.
intros hi hj; destruct loopI as [G [H [I [_ b]]]]; destruct (b i hi) as [i1 i2]; destruct (b j hj) as [j1 j2]; rewrite !unit_nrm in * by assumption; fold (v_err k) in i2, j2.
assert (T := dot_gap _ _ (G (unit_vec i)) (G (unit_vec j)) _ _ 1 (1 + v_err k) i2 j2 ltac:(rewrite (iso_nrm n G H _ I), unit_nrm by assumption; lra) ltac:(unfold v_err; lra)).
replace (delta i j) with (dot n (G (unit_vec i)) (G (unit_vec j))).
- apply Rle_trans with (1 := T); apply Req_le; ring.
- destruct I as [I1 _]; rewrite I1, unit_dot by exact hi; reflexivity.
Qed.
Lemma loop_rows i j : (i < n)%nat -> (j < n)%nat -> Rabs (sum (fun l => val (V i l) * val (V j l)) - delta i j) <= 2 * (INR n * v_err k) + (INR n * v_err k) ^ 2.
Proof.
intros hi hj; destruct loopI as [G [H [I [_ b]]]]; assert (v0 := verr0 k).
assert (R1 : forall i, (i < n)%nat -> nrm n (fun l => val (V i l) - H (unit_vec i) l) <= INR n * v_err k).
{ clear i j hi hj; intros i hi; apply Rle_trans with (nrm n (fun _ => v_err k)); [|apply nrm_const; exact v0].
  apply nrm_le; intros l hl; destruct (b l hl) as [_ b2]; rewrite unit_nrm in b2 by exact hl; fold (v_err k) in b2.
  assert (E := entry_nrm n (fun i => val (V i l) - G (unit_vec l) i) i hi); cbv beta in E.
  replace (H (unit_vec i) l) with (G (unit_vec l) i); [lra|].
  destruct I as [_ [_ [I3 _]]]; rewrite <- (unit_dot n i (G (unit_vec l)) hi), <- (unit_dot n l (H (unit_vec i)) hl), dot_sym, I3; reflexivity. }
assert (IH : forall i, (i < n)%nat -> nrm n (H (unit_vec i)) = 1).
{ intros l hl; destruct I as [_ [I2 _]]; unfold P_Norm.nrm; rewrite I2; apply (unit_nrm n l hl). }
assert (N : nrm n (fun l => val (V j l)) <= 1 + INR n * v_err k).
{ rewrite (nrm_ext n _ (fun l => (val (V j l) - H (unit_vec j) l) + H (unit_vec j) l)) by (intros; ring); apply Rle_trans with (1 := triangle n _ _); rewrite IH by exact hj; assert (h := R1 j hj); lra. }
assert (T := dot_gap (fun l => val (V i l)) (fun l => val (V j l)) (H (unit_vec i)) (H (unit_vec j)) _ _ 1 (1 + INR n * v_err k) (R1 i hi) (R1 j hj) ltac:(rewrite IH by assumption; lra) N).
replace (delta i j) with (dot n (H (unit_vec i)) (H (unit_vec j))).
- apply Rle_trans with (1 := T); apply Req_le; ring.
- destruct I as [_ [I2 _]]; rewrite I2, unit_dot by exact hi; reflexivity.
Qed.
(* x: the length of row i of X0 *)
Definition xv_err (k : nat) (x : R) : R := (jac_len (rotations k) x - x) * (1 + v_err k) + x * v_err k.
Lemma loop_product i j : (i < m)%nat -> (j < n)%nat ->
  Rabs (sum (fun l => val (X i l) * val (V l j)) - val (X0 i j)) <= xv_err k (nrm n (fun j => val (X0 i j))).
Proof.
intros hi hj; destruct loopI as [G [H [I [a b]]]]; destruct (a i hi) as [i1 i2]; destruct (b j hj) as [j1 j2]; rewrite unit_nrm in * by assumption; fold (v_err k) in j2.
assert (T := dot_gap _ _ (G (fun j => val (X0 i j))) (G (unit_vec j)) _ _ (nrm n (fun j => val (X0 i j))) (1 + v_err k) i2 j2 ltac:(rewrite (iso_nrm n G H _ I); lra) ltac:(unfold v_err; lra)).
replace (val (X0 i j)) with (dot n (G (fun j => val (X0 i j))) (G (unit_vec j))).
- exact T.
- destruct I as [I1 _]; rewrite I1, dot_sym, unit_dot by exact hj; reflexivity.
Qed.
End Loop.
(* v_err in closed form *)
Theorem C97_growth k x : 0 <= x -> jac_len (rotations k) x <= (1 + 15 * u) ^ rotations k * (x + INR (rotations k) * (4 * eta)).
Proof. intro h; exact (jac_bound prec emax prec5 range (rotations k) x h). Qed.

Section Result.
Variables (k : nat) (A : fmat) (scaler : float) (X V : fmat) (sigma : nat -> nat) (U : fmat) (S : nat -> float) (Vout : fmat).
Hypothesis D : fdecompose_svd k A scaler X V sigma U S Vout.
Hypothesis fX : finite_mat m n X.
Hypothesis fV : finite_mat n n V.
Lemma sigma_lt i : (i < n)%nat -> (sigma i < n)%nat.
Proof.
intro hi; destruct D as [_ [_ [lens [_ [P _]]]]].
assert (h : In (sigma i) (seq 0 n)) by (apply (Permutation_in _ P), in_map, in_seq; lia); apply in_seq in h; lia.
Qed.
Lemma sigma_inj i j : (i < n)%nat -> (j < n)%nat -> sigma i = sigma j -> i = j.
Proof.
intros hi hj e; destruct D as [_ [_ [lens [_ [P _]]]]].
assert (ND : NoDup (map sigma (seq 0 n))) by (apply (Permutation_NoDup (Permutation_sym P)), seq_NoDup).
apply (proj1 (NoDup_nth (map sigma (seq 0 n)) (sigma 0%nat)) ND); rewrite ?map_length, ?seq_length; auto.
rewrite !map_nth, !seq_nth by assumption; exact e.
Qed.
Lemma sigma_sum f : sum (fun l => f (sigma l)) = sum f.
Proof.
destruct D as [_ [_ [lens [_ [P _]]]]]; rewrite <- (lsum_perm f _ _ P).
generalize (seq 0 n); induction l as [|x l IH]; [reflexivity|]; cbn [map]; rewrite !lsum_cons, IH; reflexivity.
Qed.
(* the rows of the V returned, the right singular vectors, are orthonormal, in both branches *)
Theorem C97_rows i j : (i < n)%nat -> (j < n)%nat ->
  Rabs (sum (fun l => val (Vout i l) * val (Vout j l)) - delta i j) <= 2 * (INR n * v_err k) + (INR n * v_err k) ^ 2.
Proof.
intros hi hj; assert (hi' := sigma_lt i hi); assert (hj' := sigma_lt j hj); assert (J := sigma_inj i j hi hj).
destruct D as [_ [L [lens [_ [_ [_ [-> _]]]]]]].
assert (T := loop_rows k _ _ _ X V L fX fV (sigma i) (sigma j) hi' hj').
replace (delta i j) with (delta (sigma i) (sigma j)); [exact T|]; unfold delta.
destruct (Nat.eqb_spec i j) as [->|ne]; [rewrite Nat.eqb_refl; reflexivity|]; destruct (Nat.eqb_spec (sigma i) (sigma j)) as [e|_]; [exfalso; auto|reflexivity].
Qed.
Theorem C97_columns i j : (i < n)%nat -> (j < n)%nat ->
  Rabs (sum (fun l => val (Vout l i) * val (Vout l j)) - delta i j) <= 2 * v_err k + v_err k ^ 2.
Proof.
intros hi hj; assert (SS := sigma_sum (fun l => val (V l i) * val (V l j))); destruct D as [_ [L [lens [_ [_ [_ [-> _]]]]]]]; rewrite SS; exact (loop_columns k _ _ _ X V L fX fV i j hi hj).
Qed.
(* U S V is the matrix, if the singular values do not differ too much and none is zero *)
Definition usv_term (i j l : nat) : R :=
  (((1 + u) * Rabs (val (S l)) + / 2 * eta) * (u * Rabs (val (U i l)) + / 2 * eta) + Rabs (val (U i l)) * (u * Rabs (val (S l)) + / 2 * eta)) * Rabs (val (Vout l j)).
Definition usv_err (i j : nat) : R :=
  u * Rabs (val (fdiv (A i j) scaler)) * val scaler + / 2 * eta * val scaler + val scaler * xv_err k (nrm n (fun j => val (fdiv (A i j) scaler))) + sum (usv_term i j).
Hypothesis fU : finite_mat m n U.
Hypothesis fS : forall i, (i < n)%nat -> fin (S i) = true.
Hypothesis sc0 : 0 <= val scaler.
Lemma product_aux i j (lens : nat -> float) : (forall i, (i < n)%nat -> fin (lens i) = true /\ val (lens i) <> 0) ->
  U = fsvd_normalize prec emax p0 pe (fun i j => X i (sigma j)) lens -> S = (fun i => fmul (lens i) scaler) -> (i < m)%nat -> (j < n)%nat -> fin (fdiv (A i j) scaler) = true -> fin scaler = true ->
  Rabs (sum (fun l => val (U i l) * val (S l) * val (Vout l j)) - val (A i j)) <= usv_err i j.
Proof.
intros hl eU eS hi hj fq fs; assert (SS := sigma_sum (fun l => val (X i l) * val (V l j))).
assert (VE : Vout = (fun i j => V (sigma i) j)) by (destruct D as [_ [_ [lens0 [_ [_ [_ [e _]]]]]]]; exact e).
destruct D as [_ [L _]].
assert (P := loop_product k _ _ _ X V L fX fV i j hi hj); rewrite <- SS in P.
set (a := nrm n (fun j => val (fdiv (A i j) scaler))) in *.
destruct (fdiv_inv prec emax p0 pe _ _ fq fs) as [fa [sz ea]].
assert (u0 : 0 < u) by apply bpow_gt_0; assert (e0 : 0 < eta) by apply bpow_gt_0.
(* A against scaler * A' *)
assert (E1 : Rabs (val scaler * val (fdiv (A i j) scaler) - val (A i j)) <= u * Rabs (val (fdiv (A i j) scaler)) * val scaler + / 2 * eta * val scaler).
{ assert (T := RN_err_r prec emax p0 (val (A i j) / val scaler)); rewrite <- ea in T; rewrite epsE in T; change (bpow radix2 (- prec)) with u in T.
  replace (val scaler * val (fdiv (A i j) scaler) - val (A i j)) with (- ((val (A i j) / val scaler - val (fdiv (A i j) scaler)) * val scaler)) by (field; exact sz).
  rewrite Rabs_Ropp, Rabs_mult, (Rabs_pos_eq (val scaler)) by exact sc0.
  replace (u * Rabs (val (fdiv (A i j) scaler)) * val scaler + / 2 * eta * val scaler) with ((u * Rabs (val (fdiv (A i j) scaler)) + / 2 * eta) * val scaler) by ring.
  apply Rmult_le_compat_r; assumption. }
(* the terms *)
assert (E2 : forall l, (l < n)%nat -> Rabs (val (U i l) * val (S l) * val (Vout l j) - val scaler * (val (X i (sigma l)) * val (V (sigma l) j))) <= usv_term i j l).
{ intros l hll; destruct (hl l hll) as [fl nl]; assert (fu := fU i l hi hll); assert (fS' := fS l hll); unfold usv_term; rewrite VE; cbv beta.
  assert (eu : U i l = fdiv (X i (sigma l)) (lens l)).
  { rewrite eU; unfold fsvd_normalize; replace (fneq prec emax (lens l) fzero) with true; [reflexivity|symmetry; apply fneq_val; assumption]. }
  rewrite eu in fu; destruct (fdiv_inv prec emax p0 pe _ _ fu fl) as [_ [_ ev]]; rewrite <- eu in ev.
  assert (es : S l = fmul (lens l) scaler) by (rewrite eS; reflexivity).
  rewrite es in fS'; assert (sv := fmul_val _ _ _ _ _ _ fS'); rewrite <- es in sv.
  assert (T1 := RN_err_r prec emax p0 (val (X i (sigma l)) / val (lens l))); rewrite <- ev, epsE in T1; change (bpow radix2 (- prec)) with u in T1.
  assert (T2 := RN_err_r prec emax p0 (val (lens l) * val scaler)); rewrite <- sv, epsE in T2; change (bpow radix2 (- prec)) with u in T2.
  set (x := val (X i (sigma l))) in *; set (s := val (lens l)) in *; set (c := val scaler) in *; set (ul := val (U i l)) in *; set (sl := val (S l)) in *; set (v := val (V (sigma l) j)).
  replace (ul * sl * v - c * (x * v)) with ((- (s * c) * (x / s - ul) + ul * (- (s * c - sl))) * v) by (field; exact nl).
  rewrite Rabs_mult; apply Rmult_le_compat_r; [apply Rabs_pos|]; apply Rle_trans with (1 := Rabs_triang _ _); rewrite !Rabs_mult, !Rabs_Ropp.
  assert (sc : Rabs (s * c) <= (1 + u) * Rabs sl + / 2 * eta) by (replace (s * c) with ((s * c - sl) + sl) by ring; apply Rle_trans with (1 := Rabs_triang _ _); lra).
  apply Rplus_le_compat; apply Rmult_le_compat; try apply Rabs_pos; try assumption; try lra. }
assert (M : forall x y, x - y = x + (-1) * y) by (intros; ring).
set (T1 := sum (fun l => val (U i l) * val (S l) * val (Vout l j))); set (T2 := sum (fun l => val (X i (sigma l)) * val (V (sigma l) j))) in *.
assert (E3 : Rabs (T1 - val scaler * T2) <= sum (usv_term i j)).
{ unfold T1, T2; rewrite M, <- lsum_scal, <- lsum_scal, <- lsum_plus; apply Rle_trans with (1 := lsum_abs _ _); apply lsum_le; intros l hll; apply in_seq in hll; rewrite <- M; apply E2; lia. }
assert (E4 : Rabs (val scaler * (T2 - val (fdiv (A i j) scaler))) <= val scaler * xv_err k a) by (rewrite Rabs_mult, (Rabs_pos_eq (val scaler)) by exact sc0; apply Rmult_le_compat_l; assumption).
unfold usv_err; fold a; replace (T1 - val (A i j)) with ((T1 - val scaler * T2) + (val scaler * (T2 - val (fdiv (A i j) scaler)) + (val scaler * val (fdiv (A i j) scaler) - val (A i j)))) by ring.
apply Rle_trans with (1 := Rabs_triang _ _); assert (T := Rabs_triang (val scaler * (T2 - val (fdiv (A i j) scaler))) (val scaler * val (fdiv (A i j) scaler) - val (A i j))); lra.
Qed.
(* ... or else some column of the X found is short or zero *)
Definition short_column : Prop := exists lens, (forall i, (i < n)%nat -> flength prec emax p0 pe ps (column_of prec emax m X i) (lens i)) /\
  exists i, (i < n)%nat /\ (val (lens (sigma i)) = 0 \/ fge prec emax (lens (sigma i)) (fmul (lens (sigma 0%nat)) (fsqrt prec emax p0 pe (fconst prec emax p0 pe 1 (1 - prec)))) = false).
Theorem C97_svd : (0 < n)%nat -> fin scaler = true -> finite_mat m n (fun i j => fdiv (A i j) scaler) ->
  (forall i j, (i < m)%nat -> (j < n)%nat -> Rabs (sum (fun l => val (U i l) * val (S l) * val (Vout l j)) - val (A i j)) <= usv_err i j) \/ short_column.
Proof.
intros hn fs fq; assert (D' := D); destruct D' as [_ [_ [lens [h1 [_ [_ [_ h2]]]]]]].
destruct (forallb _ (seq 0 n)) eqn:E in h2.
- destruct h2 as [eU eS].
  destruct (existsb (fun i => if Req_EM_T (val (lens (sigma i))) 0 then true else false) (seq 0 n)) eqn:Z.
  + right; exists lens; split; [exact h1|]; apply existsb_exists in Z; destruct Z as [i [hi hz]]; apply in_seq in hi; exists i; split; [lia|]; left; destruct (Req_EM_T _ _); [assumption|discriminate].
  + left; intros i j hi hj; apply (product_aux i j (fun i => lens (sigma i))); auto.
    intros l hl; split.
    * assert (f := fS l hl); rewrite eS in f; apply (fmul_inv _ _ _ _ _ _ f).
    * intro z; assert (T : existsb (fun i => if Req_EM_T (val (lens (sigma i))) 0 then true else false) (seq 0 n) = true); [|congruence].
      apply existsb_exists; exists l; split; [apply in_seq; lia|]; destruct (Req_EM_T _ _); [reflexivity|contradiction].
- right; exists lens; split; [exact h1|].
  assert (N : exists i, In i (seq 0 n) /\ fge prec emax (lens (sigma i)) (fsvd_threshold prec emax p0 pe (fun i => lens (sigma i))) = false).
  { clear - E; induction (seq 0 n) as [|x l IH]; [discriminate|]; cbn [forallb] in E; apply andb_false_iff in E; destruct E as [E|E]; [exists x; split; [left; reflexivity|exact E]|destruct (IH E) as [i [a b]]; exists i; split; [right; exact a|exact b]]. }
  destruct N as [i [a b]]; apply in_seq in a; exists i; split; [lia|right; exact b].
Qed.
End Result.
End FloatSVD.
Print Assumptions C97_rotation.
Print Assumptions C97_terminates.
Print Assumptions C97_ends.
Print Assumptions C97_pairs.
Print Assumptions C97_growth.
Print Assumptions C97_rows.
Print Assumptions C97_columns.
Print Assumptions C97_svd.

(** * Runs in double *)
Definition dhyp (x y z : fl) : fl := fsqrt 53 1024 eq_refl eq_refl (redl (fadd 53 1024 eq_refl eq_refl) (map (fun x => fmul 53 1024 eq_refl eq_refl x x) [x; y; z])).
Definition ddot (m : nat) (X : fmat 53 1024) (p q : nat) : fl :=
  redl (fadd 53 1024 eq_refl eq_refl) (map (fun p => fmul 53 1024 eq_refl eq_refl (fst p) (snd p)) (combine (column_of 53 1024 m X p) (column_of 53 1024 m X q))).
Lemma ddot_run m X p q : (0 < m)%nat -> fdot 53 1024 eq_refl eq_refl 0 (column_of 53 1024 m X p) (column_of 53 1024 m X q) (ddot m X p q).
Proof. intro h; unfold fdot, fsum, ddot; cbn [repeat]; rewrite app_nil_r; destruct m as [|m]; [lia|]; cbn [column_of seq map combine]; apply red_run. Qed.
Definition dpair (m : nat) (pq : nat * nat) (st : (fmat 53 1024 * fmat 53 1024) * fl) : (fmat 53 1024 * fmat 53 1024) * fl :=
  let '(X, V, e) := st in let '(p, q) := pq in let off := ddot m X p q in
  if fneq 53 1024 (fabs 53 1024 off) (fzero 53 1024) then
    let '(c, s) := fminimize 53 1024 eq_refl eq_refl (fdiagonalize 53 1024 eq_refl eq_refl dhyp (ddot m X p p) off (ddot m X q q)) in
    ((fgivens_right 53 1024 eq_refl eq_refl X p q c s, fgivens_left 53 1024 eq_refl eq_refl V p q c (Bopp s)), std_fmax 53 1024 e (fabs 53 1024 off))
  else st.
Definition dsweep (m : nat) (pairs : list (nat * nat)) st := fold_left (fun st pq => dpair m pq st) pairs st.
Lemma dsweep_run m pairs st : (0 < m)%nat -> fsvd_sweep 53 1024 eq_refl eq_refl dhyp 0 m pairs st (dsweep m pairs st).
Proof.
intro h; revert st; induction pairs as [|[p q] pairs IH]; intro st; [reflexivity|]; cbn [dsweep fold_left fsvd_sweep]; exists (dpair m (p, q) st); split; [|apply IH].
destruct st as [[X V] e]; exists (ddot m X p p), (ddot m X p q), (ddot m X q q); repeat (split; [apply ddot_run, h|]); cbv zeta; unfold dpair.
destruct (fneq 53 1024 (fabs 53 1024 (ddot m X p q)) (fzero 53 1024)); [|reflexivity].
destruct (fminimize 53 1024 eq_refl eq_refl _) as [c s]; reflexivity.
Qed.
Definition dlength (m : nat) (X : fmat 53 1024) (i : nat) : fl :=
  fsqrt 53 1024 eq_refl eq_refl (redl (fadd 53 1024 eq_refl eq_refl) (map (fun x => fmul 53 1024 eq_refl eq_refl x x) (column_of 53 1024 m X i))).
Lemma dlength_run m X i : (0 < m)%nat -> flength 53 1024 eq_refl eq_refl 0 (column_of 53 1024 m X i) (dlength m X i).
Proof. intro h; eexists; split; [|reflexivity]; unfold flength_squared, fsum; cbn [repeat]; rewrite app_nil_r; destruct m as [|m]; [lia|]; cbn [column_of seq map]; apply red_run. Qed.
Definition dsc (m n : nat) (A : fmat 53 1024) : fl := dstripes (stripes 53 1024 true m n A) (fzero 53 1024).
Definition dmaxv : fl := fmax_value 53 1024 eq_refl eq_refl.
Definition start (m n : nat) (A : fmat 53 1024) : (fmat 53 1024 * fmat 53 1024) * fl :=
  ((fun i j => fdiv 53 1024 eq_refl eq_refl (A i j) (dsc m n A), fidentity 53 1024 eq_refl eq_refl), @Bpred 53 1024 eq_refl eq_refl dmaxv).
Definition dstate (m n k : nat) (A : fmat 53 1024) := Nat.iter k (fun st => dsweep m (svd_pairs n) (fst st, fzero 53 1024)) (start m n A).
Lemma dloop_step m n k (st : (fmat 53 1024 * fmat 53 1024) * fl) prev X' V' : (0 < m)%nat -> flt 53 1024 (snd st) prev = true ->
  let st1 := dsweep m (svd_pairs n) (fst st, fzero 53 1024) in fsvd_loop 53 1024 eq_refl eq_refl dhyp 0 m n k (snd st1) (snd st) (fst (fst st1)) (snd (fst st1)) X' V' ->
  fsvd_loop 53 1024 eq_refl eq_refl dhyp 0 m n (S k) (snd st) prev (fst (fst st)) (snd (fst st)) X' V'.
Proof.
intros hm f st1 h; eapply svd_more; [exact f| |exact h]; rewrite <- !surjective_pairing; apply dsweep_run, hm.
Qed.
Lemma dsc_run m n A : (0 < n)%nat -> fscale_stripes 53 1024 dmax 0 (stripes 53 1024 true m n A) (fzero 53 1024) (dsc m n A).
Proof.
intro hn; apply dstripes_run, Forall_forall; intros x hx; unfold stripes in hx; apply in_map_iff in hx; destruct hx as [i [e _]]; subst x; unfold elements; destruct n; [lia|discriminate].
Qed.
(* (1 1; 0 1): three sweeps, no QR decomposition *)
Definition ones : fmat 53 1024 := mat2 (dbl 1 0) (dbl 1 0) (dbl 0 0) (dbl 1 0).
Definition onesX := fst (fst (dstate 2 2 3 ones)).
Definition onesV := snd (fst (dstate 2 2 3 ones)).
Definition swap (i : nat) : nat := (1 - i)%nat.
Definition onesS (i : nat) : fl := fmul 53 1024 eq_refl eq_refl (dlength 2 onesX (swap i)) (dsc 2 2 ones).
Definition onesU : fmat 53 1024 := fsvd_normalize 53 1024 eq_refl eq_refl (fun i j => onesX i (swap j)) (fun i => dlength 2 onesX (swap i)).
Example C97_example : fdecompose_svd 53 1024 eq_refl eq_refl dmax false dhyp true 0 0 0 0 0 0 2 2 3 ones (dsc 2 2 ones) onesX onesV swap onesU onesS (fun i j => onesV (swap i) j) /\
  finite_mat 53 1024 2 2 onesX /\ finite_mat 53 1024 2 2 onesV /\ finite_mat 53 1024 2 2 onesU /\ (forall i, (i < 2)%nat -> is_finite (onesS i) = true) /\
  B2R (dsc 2 2 ones) = 1 /\ is_finite (dsc 2 2 ones) = true /\ finite_mat 53 1024 2 2 (fun i j => fdiv 53 1024 eq_refl eq_refl (ones i j) (dsc 2 2 ones)) /\
  (1618 / 1000 < B2R (onesS 0%nat) < 1619 / 1000) /\ (618 / 1000 < B2R (onesS 1%nat) < 619 / 1000).
Proof.
split; [|split; [|split; [|split; [|split; [|split; [|split; [|split; [|split]]]]]]]].
- split; [apply dsc_run; lia|split].
  + change (Bpred _) with (snd (start 2 2 ones)).
    apply (dloop_step 2 2 2 (start 2 2 ones)); [lia|vm_compute; reflexivity|].
    apply (dloop_step 2 2 1 (dstate 2 2 1 ones)); [lia|vm_compute; reflexivity|].
    apply (dloop_step 2 2 0 (dstate 2 2 2 ones)); [lia|vm_compute; reflexivity|].
    apply svd_stop; vm_compute; reflexivity.
  + exists (dlength 2 onesX); split; [intros; apply dlength_run; lia|split; [apply perm_swap|split]].
    * intros i j [h1 h2]; assert (e : i = 0%nat /\ j = 1%nat) by lia; destruct e; subst; vm_compute; reflexivity.
    * cbv zeta; split; [reflexivity|].
      replace (forallb _ _) with true by (symmetry; vm_compute; reflexivity); split; reflexivity.
- intros [|[|i]] [|[|j]] hi hj; try lia; vm_compute; reflexivity.
- intros [|[|i]] [|[|j]] hi hj; try lia; vm_compute; reflexivity.
- intros [|[|i]] [|[|j]] hi hj; try lia; vm_compute; reflexivity.
- intros [|[|i]] hi; try lia; vm_compute; reflexivity.
- dval; lra.
- vm_compute; reflexivity.
- intros [|[|i]] [|[|j]] hi hj; try lia; vm_compute; reflexivity.
- dval; lra.
- dval; lra.
Qed.

(* A column of subnormal numbers: its length rounds to zero, it is not normalised, and the columns of U are not orthonormal *)
Definition small : fmat 53 1024 := fun i j => match i, j with 0%nat, 0%nat => dbl 1 0 | 0%nat, _ => dbl 0 0 | _, 0%nat => dbl 0 0 | _, _ => dbl 1 (-1074) end.
Definition smallX := fst (fst (dstate 3 2 2 small)).
Definition smallV := snd (fst (dstate 3 2 2 small)).
Definition small1 : fmat 53 1024 := fsvd_normalize 53 1024 eq_refl eq_refl smallX (dlength 3 smallX).
Definition qsc : fl := std_fmax 53 1024 (fmin_normal 53 1024 eq_refl eq_refl) (dstripes (stripes 53 1024 false 3 2 small1) (fzero 53 1024)).
Definition sqr := dloop 3 (seq 0 2) (fidentity 53 1024 eq_refl eq_refl, fun i j => fdiv 53 1024 eq_refl eq_refl (small1 i j) qsc).
Definition smallR : fmat 53 1024 := fun i j => fmul 53 1024 eq_refl eq_refl qsc (if Nat.ltb j i then fzero 53 1024 else snd (snd sqr) i j).
Definition smallU : fmat 53 1024 := fun i j => fst (snd sqr) j i.
Definition smallS (i : nat) : fl := fmul 53 1024 eq_refl eq_refl (fcopysign 53 1024 (dlength 3 smallX i) (smallR i i)) (dsc 3 2 small).
Theorem C97_u_refuted : exists (A : fmat 53 1024) scaler X V sigma U S Vout,
  fdecompose_svd 53 1024 eq_refl eq_refl dmax false dhyp true 0 0 0 0 0 0 3 2 2 A scaler X V sigma U S Vout /\
  finite_mat 53 1024 3 2 A /\ finite_mat 53 1024 3 2 U /\ finite_mat 53 1024 2 2 Vout /\ is_finite (S 0%nat) = true /\ is_finite (S 1%nat) = true /\
  lsum (fun l => B2R (U l 1%nat) ^ 2) (seq 0 3) = 2.
Proof.
exists small, (dsc 3 2 small), smallX, smallV, (fun i => i), smallU, smallS, smallV.
split; [|split; [|split; [|split; [|split; [|split]]]]].
- split; [apply dsc_run; lia|split].
  + change (Bpred _) with (snd (start 3 2 small)).
    apply (dloop_step 3 2 1 (start 3 2 small)); [lia|vm_compute; reflexivity|].
    apply (dloop_step 3 2 0 (dstate 3 2 1 small)); [lia|vm_compute; reflexivity|].
    apply svd_stop; vm_compute; reflexivity.
  + exists (dlength 3 smallX); split; [intros; apply dlength_run; lia|split; [rewrite map_id; reflexivity|split]].
    * intros i j [h1 h2]; assert (e : i = 0%nat /\ j = 1%nat) by lia; destruct e; subst; vm_compute; reflexivity.
    * cbv zeta; split; [reflexivity|].
      replace (forallb _ _) with false by (symmetry; vm_compute; reflexivity).
      exists qsc, (fst sqr), (fst (snd sqr)), (snd (snd sqr)), smallU, smallR; split; [|split; reflexivity].
      split; [|split; [|split; reflexivity]].
      { exists (dstripes (stripes 53 1024 false 3 2 small1) (fzero 53 1024)); split; [|reflexivity]; apply dstripes_run; repeat constructor; discriminate. }
      { rewrite <- surjective_pairing; apply dloop_run; lia. }
- intros [|[|[|i]]] [|[|j]] hi hj; try lia; vm_compute; reflexivity.
- intros [|[|[|i]]] [|[|j]] hi hj; try lia; vm_compute; reflexivity.
- intros [|[|i]] [|[|j]] hi hj; try lia; vm_compute; reflexivity.
- vm_compute; reflexivity.
- vm_compute; reflexivity.
- assert (a : B2R (smallU 0%nat 1%nat) = 0) by (dval; lra); assert (b : B2R (smallU 1%nat 1%nat) = -1) by (dval; lra); assert (c : B2R (smallU 2%nat 1%nat) = -1) by (dval; lra).
  cbn [seq]; rewrite !lsum_cons, a, b, c; unfold lsum; simpl; lra.
Qed.
Print Assumptions C97_u_refuted.
