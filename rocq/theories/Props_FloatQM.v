(* C103: the matrix of a quaternion in floating point. *)
From Coq Require Import ZArith List Arith Bool Reals Lia Lra Psatz.
From Flocq Require Import Core IEEE754.BinarySingleNaN.
From Interval Require Import Tactic.
From Verif Require Import M_Float P_Float P_FloatD M_FloatN P_FloatN M_FloatLU P_FloatLU P_FloatTri P_FloatDec P_FloatHH M_FloatQ M_FloatQM Props_Float Props_FloatS Props_FloatQ Props_FloatDet Props_FloatGeo Props_FloatTriangle.
Import ListNotations.
Local Open Scope R_scope.

(* the columns of a rotation: the images of the coordinate axes *)
Definition axis (c : nat) : nat -> R := fun k => if (k =? S c)%nat then 1 else 0.
Definition rot_elem (q : nat -> R) (r c : nat) : R := rotation q (axis c) (S r).
Definition kron (i j : nat) : R := if (i =? j)%nat then 1 else 0.
(* rotations are orthogonal *)
Lemma rot_orth q i j : qnorm q <> 0 -> (i < 3)%nat -> (j < 3)%nat ->
  rot_elem q i 0 * rot_elem q j 0 + rot_elem q i 1 * rot_elem q j 1 + rot_elem q i 2 * rot_elem q j 2 = kron i j.
Proof.
intros nz hi hj; assert (E : qnorm q ^ 2 = q 0%nat ^ 2 + q 1%nat ^ 2 + q 2%nat ^ 2 + q 3%nat ^ 2) by (rewrite <- qsq; ring).
assert (N : qnorm q ^ 2 <> 0) by (simpl; nra); unfold rot_elem, rotation; rewrite E in *.
destruct i as [|[|[|i]]]; try lia; destruct j as [|[|[|j]]]; try lia; unfold kron, axis, hamilton, pure, qconjugate; simpl Nat.eqb; cbv iota; field; simpl in *; lra.
Qed.
Lemma rot_le1 q i j : qnorm q <> 0 -> (i < 3)%nat -> (j < 3)%nat -> Rabs (rot_elem q i j) <= 1.
Proof.
intros nz hi hj; assert (h := rot_orth q i i nz hi hi); unfold kron in h; rewrite Nat.eqb_refl in h; apply Rabs_le; destruct j as [|[|[|j]]]; try lia; split; nra.
Qed.

Section FloatQM.
Variables prec emax : Z.
Context (p0 : Prec_gt_0 prec) (pe : Prec_lt_emax prec emax).
Hypothesis prec5 : (5 <= prec)%Z.
Notation float := (binary_float prec emax).
Notation val := (@B2R prec emax).
Notation fin := (@is_finite prec emax).
Notation u := (u prec).
Notation eta := (eta prec emax).
Notation fquat := (fquat prec emax).
Notation fadd := (fadd prec emax p0 pe).
Notation fsub := (fsub prec emax p0 pe).
Notation fmul := (fmul prec emax p0 pe).
Notation fone := (fone prec emax p0 pe).
Notation ftq2 := (ftq2 prec emax p0 pe).
Notation fqmatrix := (fqmatrix prec emax p0 pe).
Notation gam := (gam prec).
Notation RN := (round radix2 (FLT_exp (SpecFloat.emin prec emax) prec) ZnearestE).
Notation V q := (fun i => val (q i)).
Lemma qu : 0 < u <= / 32. Proof. apply (du0 prec prec5). Qed.
Lemma qe : 0 < eta <= / 64.
Proof. split; [apply bpow_gt_0|]; apply Rle_trans with (bpow radix2 (-6)); [apply bpow_le; unfold SpecFloat.emin, Prec_lt_emax in *; lia|simpl; lra]. Qed.
Lemma big : 64 <= bpow radix2 emax.
Proof. apply Rle_trans with (bpow radix2 6); [simpl; lra|apply bpow_le; unfold Prec_lt_emax in *; lia]. Qed.
Lemma two_val : val ftq2 = 2 /\ fin ftq2 = true.
Proof.
assert (E : F2R (Float radix2 2 0) = 2) by (unfold F2R; simpl; lra); unfold M_FloatQM.ftq2; rewrite <- E; apply const_val.
- unfold SpecFloat.emin, Prec_lt_emax in *; lia.
- change (2 < 2 ^ prec)%Z; apply Z.lt_le_trans with (2 ^ 5)%Z; [reflexivity|apply Z.pow_le_mono_r; lia].
- assert (b := big); rewrite E, Rabs_right by lra; lra.
Qed.
Lemma one_val : val fone = 1 /\ fin fone = true.
Proof. split; [apply Bone_correct|apply is_finite_Bone]. Qed.
(* doubling does not round *)
Lemma double_id (x : float) : RN (2 * val x) = 2 * val x.
Proof.
apply round_generic; [auto with typeclass_instances|].
assert (g := FLT_format_generic radix2 (SpecFloat.emin prec emax) prec (val x) (format_val prec emax x)); destruct g as [[m e] h1 h2 h3].
apply generic_format_FLT; exists (Float radix2 m (e + 1)); cbn [Fnum Fexp] in *; [|exact h2|lia].
rewrite h1; unfold F2R; cbn [Fnum Fexp]; rewrite bpow_plus; change (bpow radix2 1) with 2; ring.
Qed.
Lemma RN_bound t b : Rabs t <= b -> b <= 31 -> Rabs (RN t) < bpow radix2 emax.
Proof.
intros h1 h2; assert (e := RN_error prec emax p0 t); destruct qu, qe; assert (B := big).
replace (RN t) with ((RN t - t) + t) by ring; apply Rle_lt_trans with (1 := Rabs_triang _ _); assert (z := Rabs_pos t).
assert (u * Rabs t <= / 32 * 31) by (apply Rmult_le_compat; lra); lra.
Qed.
(* two products, added or subtracted, and doubled *)
Definition pair_err (A : R) : R := 2 * (gam 2 * A + (1 + u) * eta).
Lemma two_products (f : float -> float -> float) (g : R) (a b c d : float) : (f = fadd /\ g = 1) \/ (f = fsub /\ g = -1) ->
  fin a = true -> fin b = true -> fin c = true -> fin d = true -> Rabs (val a * val b) + Rabs (val c * val d) <= 4 ->
  let r := fmul ftq2 (f (fmul a b) (fmul c d)) in fin r = true /\ Rabs (val r - 2 * (val a * val b + g * (val c * val d))) <= pair_err (Rabs (val a * val b) + Rabs (val c * val d)).
Proof.
intros H fa fb fc fd h r; destruct qu as [u0 u1], qe as [e0 e1]; assert (z1 := Rabs_pos (val a * val b)); assert (z2 := Rabs_pos (val c * val d)).
assert (f1 : fin (fmul a b) = true) by (apply fmul_fin; [exact fa|exact fb|apply RN_bound with 4; lra]).
assert (f2 : fin (fmul c d) = true) by (apply fmul_fin; [exact fc|exact fd|apply RN_bound with 4; lra]).
assert (r1 := prod_round prec emax p0 pe _ _ f1); assert (r2 := prod_round prec emax p0 pe _ _ f2).
set (x := fmul a b) in *; set (y := fmul c d) in *; set (p := val a * val b) in *; set (q := val c * val d) in *.
assert (X : Rabs (val x) <= Rabs p + (u * Rabs p + / 2 * eta)) by (replace (val x) with (p + (val x - p)) by ring; apply Rle_trans with (1 := Rabs_triang _ _); lra).
assert (Y : Rabs (val y) <= Rabs q + (u * Rabs q + / 2 * eta)) by (replace (val y) with (q + (val y - q)) by ring; apply Rle_trans with (1 := Rabs_triang _ _); lra).
assert (G : Rabs g = 1) by (destruct H as [[_ ->]|[_ ->]]; [apply Rabs_R1|rewrite Rabs_left; lra]).
assert (S : Rabs (val x + g * val y) <= Rabs (val x) + Rabs (val y)) by (apply Rle_trans with (1 := Rabs_triang _ _); rewrite Rabs_mult, G; lra).
assert (B : Rabs (val x) + Rabs (val y) <= 5) by nra.
assert (T : fin (f x y) = true /\ Rabs (val (f x y) - (val x + g * val y)) <= u * Rabs (val x + g * val y)).
{ destruct H as [[-> ->]|[-> ->]].
  - assert (k : fin (fadd x y) = true) by (apply fadd_fin; [exact f1|exact f2|apply RN_bound with 5; [rewrite Rmult_1_l in S|]; lra]).
    split; [exact k|]; rewrite Rmult_1_l; apply sum_round, k.
  - assert (k : fin (fsub x y) = true) by (apply fsub_fin; [exact f1|exact f2|apply RN_bound with 5; [replace (val x + -1 * val y) with (val x - val y) in S by ring|]; lra]).
    split; [exact k|]; replace (val x + -1 * val y) with (val x - val y) by ring; apply diff_round, k. }
destruct T as [f3 r3]; set (z := f x y) in *; destruct two_val as [tv tf].
assert (Z : Rabs (val z) <= 6).
{ replace (val z) with ((val z - (val x + g * val y)) + (val x + g * val y)) by ring; apply Rle_trans with (1 := Rabs_triang _ _); nra. }
assert (f4 : fin r = true).
{ apply fmul_fin; [exact tf|exact f3|rewrite tv; apply RN_bound with 12; [rewrite Rabs_mult, (Rabs_right 2) by lra|]; lra]. }
split; [exact f4|]; unfold r in *; rewrite (fmul_val _ _ _ _ _ _ f4), tv, double_id.
replace (2 * val z - 2 * (p + g * q)) with (2 * ((val z - (val x + g * val y)) + ((val x - p) + g * (val y - q)))) by ring.
rewrite Rabs_mult, (Rabs_right 2) by lra; unfold pair_err; apply Rmult_le_compat_l; [lra|].
apply Rle_trans with (1 := Rabs_triang _ _); assert (t := Rabs_triang (val x - p) (g * (val y - q))); rewrite Rabs_mult, G, Rmult_1_l in t.
assert (u * Rabs (val x + g * val y) <= u * ((Rabs p + (u * Rabs p + / 2 * eta)) + (Rabs q + (u * Rabs q + / 2 * eta)))) by (apply Rmult_le_compat_l; lra).
unfold Props_FloatGeo.gam; simpl; rewrite Rmult_1_r; nra.
Qed.
(* the error of an element for a quaternion of squared length [n] *)
Definition elem_err (n : R) : R := (1 + u) * pair_err n + u * (1 + 2 * Rabs (n - 1)).
Lemma pair_mono A B : A <= B -> pair_err A <= pair_err B.
Proof. intro h; assert (g := gam0 prec p0 2); unfold pair_err; nra. Qed.
Lemma pair0 A : 0 <= A -> 0 <= pair_err A.
Proof. intro h; assert (g := gam0 prec p0 2); destruct qu, qe; unfold pair_err; assert (0 <= gam 2 * A) by (apply Rmult_le_pos; lra); nra. Qed.
Lemma off_elem (f : float -> float -> float) (g n : R) (a b c d : float) : (f = fadd /\ g = 1) \/ (f = fsub /\ g = -1) ->
  fin a = true -> fin b = true -> fin c = true -> fin d = true -> n <= 2 -> val a ^ 2 + val b ^ 2 + val c ^ 2 + val d ^ 2 <= n ->
  let r := fmul ftq2 (f (fmul a b) (fmul c d)) in fin r = true /\ Rabs (val r - 2 * (val a * val b + g * (val c * val d))) <= elem_err n.
Proof.
intros H fa fb fc fd n2 hn r; assert (am : forall x y : R, Rabs (x * y) <= (x ^ 2 + y ^ 2) / 2) by (intros x y; assert (w1 := pow2_ge_0 (x + y)); assert (w2 := pow2_ge_0 (x - y)); apply Rabs_le; split; lra).
assert (q1 := am (val a) (val b)); assert (q2 := am (val c) (val d)); assert (z1 := Rabs_pos (val a * val b)); assert (z2 := Rabs_pos (val c * val d)).
destruct (two_products f g a b c d H fa fb fc fd ltac:(lra)) as [fr e]; split; [exact fr|].
apply Rle_trans with (1 := e); assert (m := pair_mono (Rabs (val a * val b) + Rabs (val c * val d)) n ltac:(lra)).
apply Rle_trans with (1 := m); unfold elem_err; destruct qu; assert (k := pair0 n ltac:(lra)); assert (w := Rabs_pos (n - 1)); nra.
Qed.
Lemma diag_elem (n : R) (a b : float) : fin a = true -> fin b = true -> n <= 2 -> val a ^ 2 + val b ^ 2 <= n ->
  let r := fsub fone (fmul ftq2 (fadd (fmul a a) (fmul b b))) in fin r = true /\ Rabs (val r - (1 - 2 * (val a ^ 2 + val b ^ 2))) <= elem_err n.
Proof.
intros fa fb n2 hn r; assert (a0 := pow2_ge_0 (val a)); assert (b0 := pow2_ge_0 (val b)).
assert (ea : Rabs (val a * val a) = val a ^ 2) by (rewrite Rabs_right; nra); assert (eb : Rabs (val b * val b) = val b ^ 2) by (rewrite Rabs_right; nra).
destruct (two_products fadd 1 a a b b (or_introl (conj eq_refl eq_refl)) fa fa fb fb ltac:(lra)) as [fw e]; rewrite ea, eb in e.
set (w := fmul ftq2 _) in *; set (N := val a ^ 2 + val b ^ 2) in *; assert (m := pair_mono _ _ hn); destruct qu as [u0 u1], qe as [e0 e1]; destruct one_val as [ov fo].
replace (2 * (val a * val a + 1 * (val b * val b))) with (2 * N) in e by (unfold N; ring).
assert (W : Rabs (1 - val w) <= (1 + 2 * Rabs (n - 1)) + pair_err n).
{ replace (1 - val w) with ((1 - 2 * N) + - (val w - 2 * N)) by ring; apply Rle_trans with (1 := Rabs_triang _ _); rewrite Rabs_Ropp.
  assert (Rabs (1 - 2 * N) <= 1 + 2 * Rabs (n - 1)) by (apply Rabs_le; assert (l := Rle_abs (n - 1)); assert (z := Rabs_pos (n - 1)); unfold N in *; lra); lra. }
assert (P : pair_err n <= 1).
{ apply Rle_trans with (1 := pair_mono _ _ n2); unfold pair_err, Props_FloatGeo.gam; simpl; nra. }
assert (A : Rabs (n - 1) <= 1) by (apply Rabs_le; unfold N in *; lra).
assert (fr : fin r = true).
{ apply fsub_fin; [exact fo|exact fw|rewrite ov; apply RN_bound with 4; lra]. }
split; [exact fr|]; assert (k := diff_round prec emax p0 pe _ _ fr); rewrite ov in k; fold r in k.
replace (val r - (1 - 2 * N)) with ((val r - (1 - val w)) + - (val w - 2 * N)) by ring; apply Rle_trans with (1 := Rabs_triang _ _); rewrite Rabs_Ropp.
assert (u * Rabs (1 - val w) <= u * ((1 + 2 * Rabs (n - 1)) + pair_err n)) by (apply Rmult_le_compat_l; lra); unfold elem_err; lra.
Qed.
(* the elements are finite and near those of the rotation *)
Theorem C103_rotation (q : fquat) r c : finite_quat prec emax q -> (r < 3)%nat -> (c < 3)%nat -> 0 < qnorm (V q) -> qnorm (V q) ^ 2 <= 2 ->
  fin (fqmatrix q r c) = true /\ Rabs (val (fqmatrix q r c) - rot_elem (V q) r c) <= elem_err (qnorm (V q) ^ 2) + 2 * Rabs (qnorm (V q) ^ 2 - 1).
Proof.
intros fq hr hc npos n2; set (n := qnorm (V q) ^ 2) in *.
assert (E : n = val (q 0%nat) ^ 2 + val (q 1%nat) ^ 2 + val (q 2%nat) ^ 2 + val (q 3%nat) ^ 2) by (unfold n; simpl pow at 1; rewrite Rmult_1_r, qsq; reflexivity).
assert (n0 : 0 < n) by (unfold n; simpl; nra).
assert (R1 := rot_le1 (V q) r c ltac:(lra) hr hc).
(* the matrix of the code over the reals *)
assert (D : forall x (k : R), (k = 0 \/ k = 1) -> x = n * rot_elem (V q) r c + k * (1 - n) -> fin (fqmatrix q r c) = true /\ Rabs (val (fqmatrix q r c) - x) <= elem_err n ->
  fin (fqmatrix q r c) = true /\ Rabs (val (fqmatrix q r c) - rot_elem (V q) r c) <= elem_err n + 2 * Rabs (n - 1)).
{ intros x k hk ex [f e]; split; [exact f|]; set (v := val (fqmatrix q r c)) in *; set (t := rot_elem (V q) r c) in *.
  replace (v - t) with ((v - x) + (n - 1) * (t - k)) by (rewrite ex; ring); apply Rle_trans with (1 := Rabs_triang _ _); rewrite Rabs_mult.
  assert (Rabs (t - k) <= 2) by (apply Rabs_le; assert (a1 := Rle_abs t); assert (a2 := Rle_abs (- t)); rewrite Rabs_Ropp in a2; destruct hk; subst k; lra).
  assert (z := Rabs_pos (n - 1)); nra. }
assert (ROT : forall i, n * rotation (V q) (axis c) i = hamilton (hamilton (V q) (pure (axis c))) (qconjugate (V q)) i) by (intro i; unfold rotation; fold n; field; lra).
assert (f0 := fq 0%nat ltac:(lia)); assert (f1 := fq 1%nat ltac:(lia)); assert (f2 := fq 2%nat ltac:(lia)); assert (f3 := fq 3%nat ltac:(lia)).
assert (add : (fadd = fadd /\ 1 = 1) \/ (fadd = fsub /\ 1 = -1)) by (left; split; reflexivity).
assert (sub : (fsub = fadd /\ -1 = 1) \/ (fsub = fsub /\ -1 = -1)) by (right; split; reflexivity).
assert (s0 := pow2_ge_0 (val (q 0%nat))); assert (s1 := pow2_ge_0 (val (q 1%nat))); assert (s2 := pow2_ge_0 (val (q 2%nat))); assert (s3 := pow2_ge_0 (val (q 3%nat))).
destruct r as [|[|[|r]]]; try lia; destruct c as [|[|[|c]]]; try lia;
match goal with
  | |- context [fqmatrix q 0%nat 0%nat] => eapply (D _ 1 (or_intror eq_refl)); [|refine (diag_elem n (q 2%nat) (q 3%nat) _ _ _ _); (assumption || lra)]
  | |- context [fqmatrix q 1%nat 1%nat] => eapply (D _ 1 (or_intror eq_refl)); [|refine (diag_elem n (q 1%nat) (q 3%nat) _ _ _ _); (assumption || lra)]
  | |- context [fqmatrix q 2%nat 2%nat] => eapply (D _ 1 (or_intror eq_refl)); [|refine (diag_elem n (q 1%nat) (q 2%nat) _ _ _ _); (assumption || lra)]
  | |- context [fqmatrix q 0%nat 1%nat] => eapply (D _ 0 (or_introl eq_refl)); [|refine (off_elem fsub (-1) n (q 1%nat) (q 2%nat) (q 3%nat) (q 0%nat) sub _ _ _ _ _ _); (assumption || lra)]
  | |- context [fqmatrix q 0%nat 2%nat] => eapply (D _ 0 (or_introl eq_refl)); [|refine (off_elem fadd 1 n (q 1%nat) (q 3%nat) (q 2%nat) (q 0%nat) add _ _ _ _ _ _); (assumption || lra)]
  | |- context [fqmatrix q 1%nat 0%nat] => eapply (D _ 0 (or_introl eq_refl)); [|refine (off_elem fadd 1 n (q 1%nat) (q 2%nat) (q 3%nat) (q 0%nat) add _ _ _ _ _ _); (assumption || lra)]
  | |- context [fqmatrix q 1%nat 2%nat] => eapply (D _ 0 (or_introl eq_refl)); [|refine (off_elem fsub (-1) n (q 2%nat) (q 3%nat) (q 1%nat) (q 0%nat) sub _ _ _ _ _ _); (assumption || lra)]
  | |- context [fqmatrix q 2%nat 0%nat] => eapply (D _ 0 (or_introl eq_refl)); [|refine (off_elem fsub (-1) n (q 1%nat) (q 3%nat) (q 2%nat) (q 0%nat) sub _ _ _ _ _ _); (assumption || lra)]
  | |- context [fqmatrix q 2%nat 1%nat] => eapply (D _ 0 (or_introl eq_refl)); [|refine (off_elem fadd 1 n (q 2%nat) (q 3%nat) (q 1%nat) (q 0%nat) add _ _ _ _ _ _); (assumption || lra)]
  end;
unfold rot_elem; rewrite ROT, E; unfold hamilton, pure, qconjugate, axis; simpl Nat.eqb; cbv iota beta; ring.
Qed.
(* so the rows are orthonormal up to the error *)
Theorem C103_orthogonal (q : fquat) i j : finite_quat prec emax q -> (i < 3)%nat -> (j < 3)%nat -> 0 < qnorm (V q) -> qnorm (V q) ^ 2 <= 2 ->
  let M := fun r c => val (fqmatrix q r c) in let e := elem_err (qnorm (V q) ^ 2) + 2 * Rabs (qnorm (V q) ^ 2 - 1) in
  Rabs (M i 0%nat * M j 0%nat + M i 1%nat * M j 1%nat + M i 2%nat * M j 2%nat - kron i j) <= 6 * e + 3 * e ^ 2.
Proof.
intros fq hi hj npos n2 M e; rewrite <- (rot_orth (V q) i j ltac:(lra) hi hj).
assert (K : forall c, (c < 3)%nat -> Rabs (M i c * M j c - rot_elem (V q) i c * rot_elem (V q) j c) <= 2 * e + e ^ 2).
{ intros c hc; destruct (C103_rotation q i c fq hi hc npos n2) as [_ a]; destruct (C103_rotation q j c fq hj hc npos n2) as [_ b]; fold e in a, b.
  change (val (fqmatrix q i c)) with (M i c) in a; change (val (fqmatrix q j c)) with (M j c) in b.
  assert (x := rot_le1 (V q) i c ltac:(lra) hi hc); assert (y := rot_le1 (V q) j c ltac:(lra) hj hc).
  set (r := rot_elem (V q) i c) in *; set (t := rot_elem (V q) j c) in *; replace (M i c * M j c - r * t) with ((M i c - r) * (M j c - t) + (r * (M j c - t) + (M i c - r) * t)) by ring.
  assert (z1 := Rabs_pos (M i c - r)); assert (z2 := Rabs_pos (M j c - t)); assert (z3 := Rabs_pos r); assert (z4 := Rabs_pos t).
  assert (k1 := Rabs_triang ((M i c - r) * (M j c - t)) (r * (M j c - t) + (M i c - r) * t)); assert (k2 := Rabs_triang (r * (M j c - t)) ((M i c - r) * t)); rewrite !Rabs_mult in *.
  assert (Rabs (M i c - r) * Rabs (M j c - t) <= e * e) by (apply Rmult_le_compat; lra); assert (Rabs r * Rabs (M j c - t) <= 1 * e) by (apply Rmult_le_compat; lra).
  assert (Rabs (M i c - r) * Rabs t <= e * 1) by (apply Rmult_le_compat; lra); simpl; lra. }
assert (k0 := K 0%nat ltac:(lia)); assert (k1 := K 1%nat ltac:(lia)); assert (k2 := K 2%nat ltac:(lia)).
apply Rabs_le_inv in k0; apply Rabs_le_inv in k1; apply Rabs_le_inv in k2; apply Rabs_le; lra.
Qed.
End FloatQM.
Print Assumptions C103_rotation.
Print Assumptions C103_orthogonal.

(** * Examples in double precision *)
(* 3/5 + 4/5 i, rounded to double *)
Example C103_example : let q := dquat 5404319552844595 7205759403792794 0 0 (-53) in
  finite_quat 53 1024 q /\ 0 < qnorm (fun i => B2R (q i)) /\ qnorm (fun i => B2R (q i)) ^ 2 <= 2 /\
  elem_err 53 1024 (qnorm (fun i => B2R (q i)) ^ 2) + 2 * Rabs (qnorm (fun i => B2R (q i)) ^ 2 - 1) <= / 2 ^ 50.
Proof.
intro q; assert (v0 : B2R (dbl 0 (-53)) = 0) by (dval; lra).
assert (v1 : B2R (dbl 5404319552844595 (-53)) = 5404319552844595 / 2 ^ 53) by (dval; lra).
assert (v2 : B2R (dbl 7205759403792794 (-53)) = 7205759403792794 / 2 ^ 53) by (dval; lra).
assert (E : qnorm (fun i => B2R (q i)) = sqrt ((5404319552844595 / 2 ^ 53) ^ 2 + (7205759403792794 / 2 ^ 53) ^ 2)).
{ unfold qnorm, q, dquat; rewrite v0, v1, v2; f_equal; ring. }
rewrite E; assert (e0 := Props_FloatQ.eta_pos 53 1024); assert (e1 : Props_Float.eta 53 1024 <= / 2 ^ 100).
{ apply Rle_trans with (bpow radix2 (-100)); [apply bpow_le; lia|simpl; lra]. }
assert (eu : Props_Float.u 53 = / 2 ^ 53) by (unfold Props_Float.u; simpl; lra).
split; [intros [|[|[|[|i]]]] hi; try lia; vm_compute; reflexivity|split; [interval|split; [interval|]]].
unfold elem_err, pair_err, Props_FloatGeo.gam; rewrite eu; set (e := Props_Float.eta 53 1024) in *; interval with (i_prec 150).
Qed.
(* the term in the length is needed: 1 + i turns the axis y by a right angle, but its matrix sends y to (0, -1, 2) *)
Example C103_length_example : let q := dquat 1 1 0 0 0 in let M := M_FloatQM.fqmatrix 53 1024 eq_refl eq_refl q in
  B2R (M 1%nat 1%nat) = -1 /\ B2R (M 2%nat 1%nat) = 2 /\ rot_elem (fun i => B2R (q i)) 1 1 = 0 /\ rot_elem (fun i => B2R (q i)) 2 1 = 1.
Proof.
intros q M; split; [|split].
1, 2: unfold M, q; dval; lra.
assert (v0 : B2R (dbl 0 0) = 0) by (dval; lra); assert (v1 : B2R (dbl 1 0) = 1) by (dval; lra).
assert (E : qnorm (fun i => B2R (q i)) ^ 2 = 2) by (simpl pow; rewrite Rmult_1_r, qsq; unfold q, dquat; rewrite v0, v1; ring).
split; unfold rot_elem, rotation; rewrite E; unfold hamilton, pure, qconjugate, axis, q, dquat; simpl Nat.eqb; cbv iota; rewrite v0, v1; lra.
Qed.
