(* C107: rotation about an axis in floating point. *)
From Coq Require Import ZArith List Arith Bool Reals Lia Lra Psatz.
From Flocq Require Import Core IEEE754.BinarySingleNaN.
From Interval Require Import Tactic.
From Verif Require Import M_Float P_Float P_FloatD M_FloatN P_FloatN M_FloatLU P_FloatLU P_FloatTri P_Norm P_FloatHH M_FloatRot Props_Float Props_FloatS Props_FloatDet Props_FloatGeo Props_FloatQM Props_FloatOrtho.
Local Open Scope R_scope.

(** * Rotations about an axis over the reals *)
Definition dot3 (v w : nat -> R) : R := v 0%nat * w 0%nat + v 1%nat * w 1%nat + v 2%nat * w 2%nat.
Definition cross3 (v w : nat -> R) : nat -> R := fun i => match i with
  | 0%nat => v 1%nat * w 2%nat - v 2%nat * w 1%nat | 1%nat => v 2%nat * w 0%nat - v 0%nat * w 2%nat | _ => v 0%nat * w 1%nat - v 1%nat * w 0%nat end.
(* the formula of Rodrigues *)
Definition turn (c s : R) (a v : nat -> R) : nat -> R := fun i => c * v i + s * cross3 a v i + (1 - c) * dot3 a v * a i.
Definition basis (j : nat) : nat -> R := fun i => if (i =? j)%nat then 1 else 0.
(* it fixes the axis, keeps lengths, and turns a vector orthogonal to the axis by the angle *)
Lemma turn_axis c s a i : dot3 a a = 1 -> (i < 3)%nat -> turn c s a a i = a i.
Proof. intros h hi; unfold turn; rewrite h; destruct i as [|[|[|i]]]; try lia; unfold cross3; ring. Qed.
Lemma turn_length t a v : dot3 a a = 1 -> dot3 (turn (cos t) (sin t) a v) (turn (cos t) (sin t) a v) = dot3 v v.
Proof.
intro h; assert (cs := sin2_cos2 t); unfold Rsqr in cs; set (c := cos t) in *; set (s := sin t) in *.
assert (L : forall c s, dot3 (turn c s a v) (turn c s a v) = c * c * dot3 v v + s * s * (dot3 a a * dot3 v v - dot3 a v * dot3 a v) + 2 * c * (1 - c) * (dot3 a v * dot3 a v) + (1 - c) * (1 - c) * (dot3 a v * dot3 a v) * dot3 a a).
{ intros c' s'; unfold turn, dot3, cross3; ring. }
rewrite L, h; replace (s * s) with (1 - c * c) by lra; ring.
Qed.
Lemma turn_angle t a v : dot3 a a = 1 -> dot3 a v = 0 -> dot3 v (turn (cos t) (sin t) a v) = cos t * dot3 v v /\ dot3 (cross3 a v) (turn (cos t) (sin t) a v) = sin t * dot3 v v.
Proof.
intros h o; set (c := cos t); set (s := sin t); split.
- transitivity (c * dot3 v v + (1 - c) * dot3 a v * dot3 a v); [unfold turn, dot3, cross3; ring|rewrite o; ring].
- transitivity (s * (dot3 a a * dot3 v v - dot3 a v * dot3 a v)); [unfold turn, dot3, cross3; ring|rewrite h, o; ring].
Qed.
(* lengths, and an axis that is not exactly of unit length *)
Definition len3 (v : nat -> R) : R := sqrt (dot3 v v).
Lemma len3E v : len3 v = nrm 3 v.
Proof. unfold len3, dot3, nrm, P_Norm.dot, lsum; simpl; f_equal; ring. Qed.
Lemma len3_pos v : 0 <= len3 v. Proof. apply sqrt_pos. Qed.
Lemma dot3_pos v : 0 <= dot3 v v. Proof. unfold dot3; nra. Qed.
Lemma len3_sq v : len3 v * len3 v = dot3 v v. Proof. apply sqrt_sqrt, dot3_pos. Qed.
Lemma len3_add v w : len3 (fun i => v i + w i) <= len3 v + len3 w.
Proof. rewrite !len3E; apply triangle. Qed.
Lemma dot3_cauchy v w : dot3 v w * dot3 v w <= dot3 v v * dot3 w w.
Proof.
assert (h := dot3_pos (cross3 v w)); replace (dot3 (cross3 v w) (cross3 v w)) with (dot3 v v * dot3 w w - dot3 v w * dot3 v w) in h by (unfold dot3, cross3; ring); lra.
Qed.
Lemma turn_near t a v d : Rabs (dot3 a a - 1) <= d -> d <= 1 -> Rabs (len3 (turn (cos t) (sin t) a v) - len3 v) <= 9 * d * len3 v.
Proof.
intros hd d1; assert (cs := sin2_cos2 t); unfold Rsqr in cs; assert (cb := COS_bound t); set (c := cos t) in *; set (s := sin t) in *; set (n := dot3 a a) in *.
assert (d0 : 0 <= d) by (apply Rle_trans with (2 := hd), Rabs_pos).
assert (L : dot3 (turn c s a v) (turn c s a v) = dot3 v v + (n - 1) * (s * s * dot3 v v + (1 - c) * (1 - c) * (dot3 a v * dot3 a v))).
{ transitivity (c * c * dot3 v v + s * s * (n * dot3 v v - dot3 a v * dot3 a v) + 2 * c * (1 - c) * (dot3 a v * dot3 a v) + (1 - c) * (1 - c) * (dot3 a v * dot3 a v) * n); [unfold n, turn, dot3, cross3; ring|].
  replace (s * s) with (1 - c * c) by lra; ring. }
assert (k := dot3_cauchy a v); fold n in k; assert (v0 := dot3_pos v); assert (y0 := len3_pos (turn c s a v)); assert (x0 := len3_pos v); assert (n2 : n <= 2) by (apply Rabs_le_inv in hd; lra).
rewrite <- (len3_sq (turn c s a v)), <- (len3_sq v) in L; rewrite <- (len3_sq v) in k, v0; set (y := len3 (turn c s a v)) in *; set (x := len3 v) in *; set (p := dot3 a v * dot3 a v) in *.
assert (p0 : 0 <= p) by (unfold p; nra); assert (p2 : p <= 2 * (x * x)) by (apply Rle_trans with (1 := k), Rmult_le_compat_r; lra).
assert (s1 : 0 <= s * s <= 1) by nra; assert (c1 : 0 <= (1 - c) * (1 - c) <= 4) by nra.
assert (Z : 0 <= s * s * (x * x) + (1 - c) * (1 - c) * p <= 9 * (x * x)).
{ assert (0 <= s * s * (x * x)) by (apply Rmult_le_pos; lra); assert (0 <= (1 - c) * (1 - c) * p) by (apply Rmult_le_pos; lra).
  assert (s * s * (x * x) <= 1 * (x * x)) by (apply Rmult_le_compat_r; lra); assert ((1 - c) * (1 - c) * p <= 4 * (2 * (x * x))) by (apply Rmult_le_compat; lra); lra. }
assert (D : Rabs (y - x) * (y + x) <= 9 * d * x * x).
{ rewrite <- (Rabs_right (y + x)), <- Rabs_mult by lra; replace ((y - x) * (y + x)) with ((n - 1) * (s * s * (x * x) + (1 - c) * (1 - c) * p)) by lra.
  rewrite Rabs_mult, (Rabs_right (s * s * (x * x) + _)) by lra; apply Rle_trans with (d * (9 * (x * x))); [apply Rmult_le_compat; try apply Rabs_pos; lra|lra]. }
assert (w := Rabs_pos (y - x)); destruct (Req_dec x 0) as [x1|x1].
- rewrite x1 in *; replace (9 * d * 0 * 0) with 0 in D by ring; rewrite Rminus_0_r, Rplus_0_r, (Rabs_right y) in * by lra; nra.
- apply Rmult_le_reg_r with x; [lra|]; assert (0 <= Rabs (y - x) * y) by (apply Rmult_le_pos; lra); lra.
Qed.
Definition app3 (M : nat -> nat -> R) (v : nat -> R) : nat -> R := fun i => M i 0%nat * v 0%nat + M i 1%nat * v 1%nat + M i 2%nat * v 2%nat.
Lemma turn_app c s a v i : (i < 3)%nat -> turn c s a v i = app3 (fun i j => turn c s a (basis j) i) v i.
Proof. intro hi; destruct i as [|[|[|i]]]; try lia; unfold app3, turn, dot3, cross3, basis; simpl Nat.eqb; cbv iota; ring. Qed.
Lemma app3_small E e v : (forall i j, (i < 3)%nat -> (j < 3)%nat -> Rabs (E i j) <= e) -> len3 (app3 E v) <= 3 * e * len3 v.
Proof.
intro h; assert (e0 : 0 <= e) by (apply Rle_trans with (2 := h 0%nat 0%nat ltac:(lia) ltac:(lia)), Rabs_pos).
assert (x0 := len3_pos v); apply Rsqr_incr_0; [|apply len3_pos|apply Rmult_le_pos; lra]; unfold Rsqr; rewrite len3_sq.
replace (3 * e * len3 v * (3 * e * len3 v)) with (9 * (e * e) * (len3 v * len3 v)) by ring; rewrite len3_sq.
assert (K : forall i, (i < 3)%nat -> app3 E v i * app3 E v i <= 3 * (e * e) * dot3 v v).
{ intros i hi; assert (k := dot3_cauchy (E i) v); assert (q : forall j, (j < 3)%nat -> E i j * E i j <= e * e).
  { intros j hj; assert (b := h i j hi hj); apply Rabs_le_inv in b; nra. }
  assert (q0 := q 0%nat ltac:(lia)); assert (q1 := q 1%nat ltac:(lia)); assert (q2 := q 2%nat ltac:(lia)).
  change (app3 E v i) with (dot3 (E i) v); apply Rle_trans with (1 := k), Rmult_le_compat_r; [apply dot3_pos|unfold dot3; lra]. }
assert (k0 := K 0%nat ltac:(lia)); assert (k1 := K 1%nat ltac:(lia)); assert (k2 := K 2%nat ltac:(lia)); unfold dot3 at 1; lra.
Qed.

Section FloatRot.
Variables prec emax : Z.
Context (p0 : Prec_gt_0 prec) (pe : Prec_lt_emax prec emax).
Hypothesis prec5 : (5 <= prec)%Z.
Notation float := (binary_float prec emax).
Notation val := (@B2R prec emax).
Notation fin := (@is_finite prec emax).
Notation u := (u prec).
Notation eta := (eta prec emax).
Notation fadd := (fadd prec emax p0 pe).
Notation fsub := (fsub prec emax p0 pe).
Notation fmul := (fmul prec emax p0 pe).
Notation fone := (fone prec emax p0 pe).
Notation gam := (gam prec).
Notation near := (near prec).
Notation qu := (qu prec prec5).
Notation qe := (qe prec emax pe prec5).
Notation RN := (round radix2 (FLT_exp (SpecFloat.emin prec emax) prec) ZnearestE).
Lemma gam_mono j k : (j <= k)%nat -> gam j <= gam k.
Proof. intro h; destruct qu as [u0 u1]; unfold Props_FloatGeo.gam; assert ((1 + u) ^ j <= (1 + u) ^ k) by (apply Rle_pow; [lra|exact h]); lra. Qed.
Lemma add_abs k E F A B X Y (x y : float) : Rabs X <= A -> Rabs Y <= B -> 0 <= E -> 0 <= F -> Rabs (val x - X) <= gam k * A + E -> Rabs (val y - Y) <= gam k * B + F -> fin (fadd x y) = true ->
  Rabs (val (fadd x y) - (X + Y)) <= gam (S k) * (A + B) + (1 + u) * (E + F).
Proof.
intros hX hY E0 F0 hx hy f; destruct qu as [u0 u1]; assert (r := sum_round prec emax p0 pe _ _ f); set (z := val (fadd x y)) in *; set (a := val x) in *; set (b := val y) in *.
assert (m : Rabs (a + b) <= (1 + gam k) * (A + B) + (E + F)).
{ replace (a + b) with (((a - X) + (b - Y)) + (X + Y)) by ring; assert (t1 := Rabs_triang ((a - X) + (b - Y)) (X + Y)); assert (t2 := Rabs_triang (a - X) (b - Y)); assert (t3 := Rabs_triang X Y); lra. }
replace (z - (X + Y)) with ((z - (a + b)) + ((a - X) + (b - Y))) by ring; assert (t1 := Rabs_triang (z - (a + b)) ((a - X) + (b - Y))); assert (t2 := Rabs_triang (a - X) (b - Y)).
assert (u * Rabs (a + b) <= u * ((1 + gam k) * (A + B) + (E + F))) by (apply Rmult_le_compat_l; lra); rewrite gamS; lra.
Qed.
Lemma near_exact (x : float) : near 0 0 (val x) (val x).
Proof. split; [lra|]; rewrite Rminus_diag_eq, Rabs_R0 by reflexivity; unfold Props_FloatGeo.gam; simpl; lra. Qed.
Variables (axis : nat -> float) (c s : float).
Notation a := (fun i => val (axis i)).
Notation r := (faxis_angle prec emax p0 pe axis c s).
(* the exact terms: of the identity, of the cross product and of the projection *)
Definition cross_term (i j : nat) : R := val s * cross3 a (basis j) i.
Definition axis_term (i j : nat) : R := (1 - val c) * a i * a j.
Definition rot_under (i j : nat) : R := (1 + u) ^ 2 * (/ 2 * eta) + (1 + u) * mul_under prec emax 2 (/ 2 * eta) ((1 - val c) * a i) 0 0 (a j).
Theorem C107_element i j : (i < 3)%nat -> (j < 3)%nat -> fin (r i j) = true ->
  Rabs (val (r i j) - turn (val c) (val s) a (basis j) i) <= gam 5 * (Rabs (val c) * basis j i + Rabs (cross_term i j) + Rabs (axis_term i j)) + rot_under i j.
Proof.
intros hi hj f; destruct qu as [u0 u1], qe as [h0 h1]; unfold faxis_angle in *.
destruct (fadd_inv _ _ _ _ _ _ f) as [f1 f2]; destruct (fadd_inv _ _ _ _ _ _ f1) as [f3 f4]; destruct (fmul_inv _ _ _ _ _ _ f2) as [f5 _]; destruct (fmul_inv _ _ _ _ _ _ f5) as [f6 _].
destruct (one_val prec emax p0 pe) as [ov _].
assert (E : turn (val c) (val s) a (basis j) i = (val c * basis j i + cross_term i j) + axis_term i j).
{ unfold turn, cross_term, axis_term; f_equal; rewrite !Rmult_assoc; f_equal; rewrite (Rmult_comm (dot3 _ _)); f_equal; unfold dot3, basis; destruct j as [|[|[|j]]]; try lia; simpl Nat.eqb; cbv iota; ring. }
assert (B : val (if (i =? j)%nat then fone else fzero prec emax) = basis j i) by (unfold basis; destruct (i =? j)%nat; [exact ov|reflexivity]).
assert (C : val (fcross_matrix prec emax axis i j) = cross3 a (basis j) i).
{ destruct i as [|[|[|i]]]; try lia; destruct j as [|[|[|j]]]; try lia; unfold fcross_matrix, cross3, basis; simpl Nat.eqb; cbv iota; rewrite ?B2R_Bopp; try change (val (fzero prec emax)) with 0; ring. }
assert (B0 : 0 <= basis j i) by (unfold basis; destruct (i =? j)%nat; lra).
assert (e1 : val (fmul c (if (i =? j)%nat then fone else fzero prec emax)) = val c * basis j i).
{ rewrite (fmul_val _ _ _ _ _ _ f3), B; apply round_generic; [auto with typeclass_instances|]; unfold basis; destruct (i =? j)%nat; rewrite ?Rmult_1_r, ?Rmult_0_r; [apply format_val|apply generic_format_0]. }
assert (e2 := prod_round prec emax p0 pe _ _ f4); rewrite C in e2; fold (cross_term i j) in e2.
assert (n6 := near_diff prec emax p0 pe _ _ f6); rewrite ov in n6.
assert (n5 := near_mul prec emax p0 pe prec5 _ _ _ _ _ _ _ _ n6 (near_exact (axis i)) f5); change (S (1 + 0)) with 2%nat in n5.
assert (m5 : mul_under prec emax 1 0 (1 - val c) 0 0 (val (axis i)) = / 2 * eta) by (unfold mul_under; ring); rewrite m5 in n5.
assert (n2 := near_mul prec emax p0 pe prec5 _ _ _ _ _ _ _ _ n5 (near_exact (axis j)) f2); change (S (2 + 0)) with 3%nat in n2.
change ((1 - val c) * val (axis i) * val (axis j)) with (axis_term i j) in n2; destruct n2 as [U0 n2].
assert (cb : Rabs (val c * basis j i) = Rabs (val c) * basis j i) by (rewrite Rabs_mult, (Rabs_right (basis j i)) by lra; reflexivity).
assert (g1 := gam_mono 3 4 ltac:(lia)); assert (z2 := Rabs_pos (cross_term i j)); assert (z3 := Rabs_pos (axis_term i j)).
assert (d1 := add_abs 1 0 (/ 2 * eta) (Rabs (val c) * basis j i) (Rabs (cross_term i j)) _ _ _ _ (Req_le _ _ cb) (Rle_refl _) ltac:(lra) ltac:(lra)
  ltac:(rewrite e1, Rminus_diag_eq, Rabs_R0 by reflexivity; assert (0 <= gam 1 * (Rabs (val c) * basis j i)) by (apply Rmult_le_pos; [apply gam0, p0|apply Rmult_le_pos; [apply Rabs_pos|exact B0]]); lra) ltac:(rewrite gam_1; exact e2) f1).
assert (s0 : 0 <= Rabs (val c) * basis j i) by (apply Rmult_le_pos; [apply Rabs_pos|exact B0]).
assert (d2 := add_abs 4 ((1 + u) * (/ 2 * eta)) _ (Rabs (val c) * basis j i + Rabs (cross_term i j)) (Rabs (axis_term i j)) (val c * basis j i + cross_term i j) (axis_term i j)
  (fadd (fmul c (if (i =? j)%nat then fone else fzero prec emax)) (fmul s (fcross_matrix prec emax axis i j))) (fmul (fmul (fsub fone c) (axis i)) (axis j))
  ltac:(rewrite <- cb; apply Rabs_triang) (Rle_refl _) ltac:(apply Rmult_le_pos; lra) U0).
rewrite E; unfold rot_under; eapply Rle_trans; [apply d2; [| |exact f]|].
- assert (g := gam_mono 2 4 ltac:(lia)); apply Rle_trans with (1 := d1); rewrite Rplus_0_l; apply Rplus_le_compat_r, Rmult_le_compat_r; lra.
- apply Rle_trans with (1 := n2); apply Rplus_le_compat_r, Rmult_le_compat_r; lra.
- apply Req_le; cbv beta; ring.
Qed.
(* cosine and sine with error [d] *)
Theorem C107_rotation t d i j : (i < 3)%nat -> (j < 3)%nat -> fin (r i j) = true -> Rabs (val c - cos t) <= d -> Rabs (val s - sin t) <= d ->
  Rabs (val (r i j) - turn (cos t) (sin t) a (basis j) i) <= gam 5 * (Rabs (val c) * basis j i + Rabs (cross_term i j) + Rabs (axis_term i j)) + rot_under i j +
  d * (basis j i + Rabs (cross3 a (basis j) i) + Rabs (a i * a j)).
Proof.
intros hi hj f hc hs; assert (h := C107_element i j hi hj f); set (T := turn (val c) (val s) a (basis j) i) in *.
assert (D : dot3 a (basis j) = a j) by (unfold dot3, basis; destruct j as [|[|[|j]]]; try lia; simpl Nat.eqb; cbv iota; ring).
assert (B0 : Rabs (basis j i) = basis j i) by (unfold basis; destruct (i =? j)%nat; [apply Rabs_R1|apply Rabs_R0]).
replace (val (r i j) - turn (cos t) (sin t) a (basis j) i) with ((val (r i j) - T) + ((val c - cos t) * basis j i + ((val s - sin t) * cross3 a (basis j) i + - ((val c - cos t) * (a i * a j))))).
2: { unfold T, turn; rewrite D; ring. }
set (x := val (r i j) - T) in *; set (y := (val c - cos t) * basis j i); set (z := (val s - sin t) * cross3 a (basis j) i); set (w := (val c - cos t) * (a i * a j)).
assert (t1 := Rabs_triang x (y + (z + - w))); assert (t2 := Rabs_triang y (z + - w)); assert (t3 := Rabs_triang z (- w)); rewrite Rabs_Ropp in t3.
assert (k1 : Rabs y <= d * basis j i) by (unfold y; rewrite Rabs_mult, B0; apply Rmult_le_compat_r; [rewrite <- B0; apply Rabs_pos|exact hc]).
assert (k2 : Rabs z <= d * Rabs (cross3 a (basis j) i)) by (unfold z; rewrite Rabs_mult; apply Rmult_le_compat_r; [apply Rabs_pos|exact hs]).
assert (k3 : Rabs w <= d * Rabs (a i * a j)) by (unfold w; rewrite Rabs_mult; apply Rmult_le_compat_r; [apply Rabs_pos|exact hc]); lra.
Qed.
(* so lengths are kept up to the errors of the elements and of the length of the axis *)
Theorem C107_length t d e v : (forall i j, (i < 3)%nat -> (j < 3)%nat -> Rabs (val (r i j) - turn (cos t) (sin t) a (basis j) i) <= e) -> Rabs (dot3 a a - 1) <= d -> d <= 1 ->
  Rabs (len3 (app3 (fun i j => val (r i j)) v) - len3 v) <= (3 * e + 9 * d) * len3 v.
Proof.
intros he hd d1; assert (k := turn_near t a v d hd d1); set (T := turn (cos t) (sin t) a v) in *; set (E := fun i j => val (r i j) - turn (cos t) (sin t) a (basis j) i).
assert (sm := app3_small E e v he); set (M := app3 (fun i j => val (r i j)) v) in *.
assert (X : forall i, (i < 3)%nat -> M i = T i + app3 E v i) by (intros i hi; unfold M, T; rewrite (turn_app _ _ _ _ _ hi); unfold app3, E; ring).
assert (ext : forall f g, (forall i, (i < 3)%nat -> f i = g i) -> len3 f = len3 g) by (intros f g h; unfold len3, dot3; rewrite !h by lia; reflexivity).
assert (t1 := len3_add T (app3 E v)); rewrite <- (ext M _ X) in t1.
assert (t2 := len3_add M (fun i => - app3 E v i)); cbv beta in t2; rewrite (ext (fun i => M i + - app3 E v i) T) in t2 by (intros i hi; rewrite X by exact hi; ring).
replace (len3 (fun i => - app3 E v i)) with (len3 (app3 E v)) in t2 by (unfold len3, dot3; f_equal; ring).
apply Rabs_le_inv in k; apply Rabs_le; lra.
Qed.
(* no element overflows *)
Theorem C107_finite i j : (i < 3)%nat -> (j < 3)%nat -> fin c = true -> fin s = true -> (forall i, (i < 3)%nat -> fin (axis i) = true /\ Rabs (a i) <= 2) -> Rabs (val c) <= 2 -> Rabs (val s) <= 2 ->
  fin (r i j) = true.
Proof.
intros hi hj fc fs ha c2 s2; destruct qu as [u0 u1], qe as [h0 h1]; destruct (one_val prec emax p0 pe) as [ov fo].
assert (BD : forall x b, b <= 29 -> Rabs x <= b -> Rabs (RN x) < bpow radix2 emax /\ Rabs (RN x) <= 33 / 32 * b + / 64).
{ intros x b b29 hx; split; [apply (RN_bound prec emax p0 pe prec5) with b; lra|]; assert (k := RN_error prec emax p0 x); replace (RN x) with ((RN x - x) + x) by ring; apply Rle_trans with (1 := Rabs_triang _ _).
  assert (u * Rabs x <= / 32 * b) by (apply Rmult_le_compat; try apply Rabs_pos; lra); lra. }
assert (MU : forall (x y : float) p q, fin x = true -> fin y = true -> Rabs (val x) <= p -> Rabs (val y) <= q -> p * q <= 29 -> fin (fmul x y) = true /\ Rabs (val (fmul x y)) <= 33 / 32 * (p * q) + / 64).
{ intros x y p q fx fy hx hy pq; destruct (BD (val x * val y) (p * q) pq) as [b1 b2]; [rewrite Rabs_mult; apply Rmult_le_compat; try apply Rabs_pos; assumption|].
  assert (f := fmul_fin prec emax p0 pe x y fx fy b1); split; [exact f|rewrite (fmul_val _ _ _ _ _ _ f); exact b2]. }
assert (AD : forall (x y : float) p q, fin x = true -> fin y = true -> Rabs (val x) <= p -> Rabs (val y) <= q -> p + q <= 29 -> fin (fadd x y) = true /\ Rabs (val (fadd x y)) <= 33 / 32 * (p + q) + / 64).
{ intros x y p q fx fy hx hy pq; destruct (BD (val x + val y) (p + q) pq) as [b1 b2]; [apply Rle_trans with (1 := Rabs_triang _ _); lra|].
  assert (f := fadd_fin prec emax p0 pe x y fx fy b1); split; [exact f|rewrite (fadd_val _ _ _ _ _ _ f); exact b2]. }
assert (I : fin (if (i =? j)%nat then fone else fzero prec emax) = true /\ Rabs (val (if (i =? j)%nat then fone else fzero prec emax)) <= 1).
{ destruct (i =? j)%nat; [rewrite ov, Rabs_R1; split; [exact fo|lra]|split; [reflexivity|change (val (fzero prec emax)) with 0; rewrite Rabs_R0; lra]]. }
assert (C : fin (fcross_matrix prec emax axis i j) = true /\ Rabs (val (fcross_matrix prec emax axis i j)) <= 2).
{ destruct (ha 0%nat ltac:(lia)), (ha 1%nat ltac:(lia)), (ha 2%nat ltac:(lia)).
  assert (Z : fin (fzero prec emax) = true /\ Rabs (val (fzero prec emax)) <= 2) by (split; [reflexivity|change (val (fzero prec emax)) with 0; rewrite Rabs_R0; lra]).
  destruct i as [|[|[|i]]]; try lia; destruct j as [|[|[|j]]]; try lia; unfold fcross_matrix; rewrite ?is_finite_Bopp, ?B2R_Bopp, ?Rabs_Ropp; try exact Z; split; assumption. }
destruct I as [fi bi], C as [fx bx], (ha i hi) as [fai bai], (ha j hj) as [faj baj]; unfold faxis_angle.
assert (k : fin (fsub fone c) = true /\ Rabs (val (fsub fone c)) <= 33 / 32 * 3 + / 64).
{ destruct (BD (val fone - val c) 3 ltac:(lra)) as [b1 b2]; [rewrite ov; apply Rabs_le_inv in c2; apply Rabs_le; lra|].
  assert (f := fsub_fin prec emax p0 pe fone c fo fc b1); split; [exact f|rewrite (fsub_val _ _ _ _ _ _ f); exact b2]. }
destruct k as [fk bk]; destruct (MU _ _ _ _ fc fi c2 bi ltac:(lra)) as [f1 b1]; destruct (MU _ _ _ _ fs fx s2 bx ltac:(lra)) as [f2 b2].
destruct (AD _ _ _ _ f1 f2 b1 b2 ltac:(lra)) as [f3 b3]; destruct (MU _ _ _ _ fk fai bk bai ltac:(lra)) as [f4 b4]; destruct (MU _ _ _ _ f4 faj b4 baj ltac:(lra)) as [f5 b5].
apply (AD _ _ _ _ f3 f5 b3 b5); lra.
Qed.
End FloatRot.
Print Assumptions C107_length.
Print Assumptions C107_finite.
Print Assumptions C107_element.
Print Assumptions C107_rotation.

(** * Double precision *)
(* about (2/3, 2/3, 1/3), rounded, by the angle of cosine 3/5 and sine 4/5, rounded *)
Definition ex_axis (i : nat) : binary_float 53 1024 := match i with 2%nat => dbl 6004799503160661 (-54) | _ => dbl 6004799503160661 (-53) end.
Definition ex_c : binary_float 53 1024 := dbl 5404319552844595 (-53).
Definition ex_s : binary_float 53 1024 := dbl 7205759403792794 (-53).
Example C107_example : let t := asin (4 / 5) in (forall i j, (i < 3)%nat -> (j < 3)%nat -> is_finite (faxis_angle 53 1024 eq_refl eq_refl ex_axis ex_c ex_s i j) = true) /\
  Rabs (B2R ex_s - sin t) <= / 2 ^ 53 /\ Rabs (B2R ex_c - cos t) <= / 2 ^ 53 /\
  Rabs (dot3 (fun i => B2R (ex_axis i)) (fun i => B2R (ex_axis i)) - 1) <= / 2 ^ 52 /\
  Rabs (B2R (faxis_angle 53 1024 eq_refl eq_refl ex_axis ex_c ex_s 0 1) - turn (cos t) (sin t) (fun i => B2R (ex_axis i)) (basis 1) 0) <= / 2 ^ 50.
Proof.
intro t; assert (F : forall i j, (i < 3)%nat -> (j < 3)%nat -> is_finite (faxis_angle 53 1024 eq_refl eq_refl ex_axis ex_c ex_s i j) = true).
{ intros [|[|[|i]]] [|[|[|j]]] hi hj; try lia; vm_compute; reflexivity. }
assert (v0 : B2R (ex_axis 0) = 6004799503160661 / 2 ^ 53) by (unfold ex_axis; dval; lra); assert (v1 : B2R (ex_axis 1) = 6004799503160661 / 2 ^ 53) by (unfold ex_axis; dval; lra).
assert (v2 : B2R (ex_axis 2) = 6004799503160661 / 2 ^ 54) by (unfold ex_axis; dval; lra).
assert (vc : B2R ex_c = 5404319552844595 / 2 ^ 53) by (unfold ex_c; dval; lra); assert (vs : B2R ex_s = 7205759403792794 / 2 ^ 53) by (unfold ex_s; dval; lra).
assert (es : sin t = 4 / 5) by (apply sin_asin; lra).
assert (ec : cos t = 3 / 5).
{ unfold t; rewrite cos_asin by lra; replace (1 - (4 / 5)²) with (3 / 5 * (3 / 5)) by (unfold Rsqr; field); apply sqrt_square; lra. }
assert (hs : Rabs (B2R ex_s - sin t) <= / 2 ^ 53) by (rewrite vs, es; apply Rabs_le; lra); assert (hc : Rabs (B2R ex_c - cos t) <= / 2 ^ 53) by (rewrite vc, ec; apply Rabs_le; lra).
assert (eu : Props_Float.u 53 = / 2 ^ 53) by (unfold Props_Float.u; simpl; lra).
assert (h0 : 0 <= Props_Float.eta 53 1024) by apply bpow_ge_0; assert (h1 : Props_Float.eta 53 1024 <= / 2 ^ 100).
{ apply Rle_trans with (bpow radix2 (-100)); [apply bpow_le; lia|simpl; lra]. }
split; [exact F|split; [exact hs|split; [exact hc|split]]].
- unfold dot3; rewrite v0, v1, v2; apply Rabs_le; lra.
- apply Rle_trans with (1 := C107_rotation 53 1024 eq_refl eq_refl ltac:(lia) ex_axis ex_c ex_s t (/ 2 ^ 53) 0 1 ltac:(lia) ltac:(lia) (F 0%nat 1%nat ltac:(lia) ltac:(lia)) hc hs).
  unfold rot_under, cross_term, axis_term, mul_under, cross3, basis, Props_FloatGeo.gam; simpl Nat.eqb; cbv iota; rewrite eu, vc, vs, v0, v1, v2; set (h := Props_Float.eta 53 1024) in *; interval with (i_prec 150).
Qed.
(* the lengths of all vectors are kept up to 2^-47 *)
Example C107_length_example v : Rabs (len3 (app3 (fun i j => B2R (faxis_angle 53 1024 eq_refl eq_refl ex_axis ex_c ex_s i j)) v) - len3 v) <= / 2 ^ 47 * len3 v.
Proof.
set (t := asin (4 / 5)).
assert (v0 : B2R (ex_axis 0) = 6004799503160661 / 2 ^ 53) by (unfold ex_axis; dval; lra); assert (v1 : B2R (ex_axis 1) = 6004799503160661 / 2 ^ 53) by (unfold ex_axis; dval; lra).
assert (v2 : B2R (ex_axis 2) = 6004799503160661 / 2 ^ 54) by (unfold ex_axis; dval; lra).
assert (vc : B2R ex_c = 5404319552844595 / 2 ^ 53) by (unfold ex_c; dval; lra); assert (vs : B2R ex_s = 7205759403792794 / 2 ^ 53) by (unfold ex_s; dval; lra).
assert (F : forall i j, (i < 3)%nat -> (j < 3)%nat -> is_finite (faxis_angle 53 1024 eq_refl eq_refl ex_axis ex_c ex_s i j) = true).
{ intros i j hi hj; apply (C107_finite 53 1024 eq_refl eq_refl ltac:(lia)); try assumption; try reflexivity.
  - intros [|[|[|k]]] hk; try lia; (split; [reflexivity|]); rewrite ?v0, ?v1, ?v2; apply Rabs_le; lra.
  - rewrite vc; apply Rabs_le; lra.
  - rewrite vs; apply Rabs_le; lra. }
assert (es : sin t = 4 / 5) by (apply sin_asin; lra).
assert (ec : cos t = 3 / 5).
{ unfold t; rewrite cos_asin by lra; replace (1 - (4 / 5)²) with (3 / 5 * (3 / 5)) by (unfold Rsqr; field); apply sqrt_square; lra. }
assert (hs : Rabs (B2R ex_s - sin t) <= / 2 ^ 53) by (rewrite vs, es; apply Rabs_le; lra); assert (hc : Rabs (B2R ex_c - cos t) <= / 2 ^ 53) by (rewrite vc, ec; apply Rabs_le; lra).
assert (eu : Props_Float.u 53 = / 2 ^ 53) by (unfold Props_Float.u; simpl; lra).
assert (h0 : 0 <= Props_Float.eta 53 1024) by apply bpow_ge_0; assert (h1 : Props_Float.eta 53 1024 <= / 2 ^ 100).
{ apply Rle_trans with (bpow radix2 (-100)); [apply bpow_le; lia|simpl; lra]. }
assert (U : Rabs (dot3 (fun i => B2R (ex_axis i)) (fun i => B2R (ex_axis i)) - 1) <= / 2 ^ 53) by (unfold dot3; rewrite v0, v1, v2; apply Rabs_le; lra).
apply Rle_trans with ((3 * / 2 ^ 50 + 9 * / 2 ^ 53) * len3 v); [|apply Rmult_le_compat_r; [apply len3_pos|lra]].
apply (C107_length 53 1024 eq_refl eq_refl ex_axis ex_c ex_s t); [|exact U|lra].
intros i j hi hj; apply Rle_trans with (1 := C107_rotation 53 1024 eq_refl eq_refl ltac:(lia) ex_axis ex_c ex_s t (/ 2 ^ 53) i j hi hj (F i j hi hj) hc hs).
clear F hc hs U; set (h := Props_Float.eta 53 1024) in *; destruct i as [|[|[|i]]]; try lia; destruct j as [|[|[|j]]]; try lia;
  unfold rot_under, cross_term, axis_term, mul_under, cross3, basis, Props_FloatGeo.gam; simpl Nat.eqb; cbv iota; rewrite ?eu, ?vc, ?vs, ?v0, ?v1, ?v2; interval with (i_prec 150).
Qed.
