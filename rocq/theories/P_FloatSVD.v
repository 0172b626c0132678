(* Lemmas for C97: rotations computed in floating point, and the products of rotations they stand for. *)
From Coq Require Import ZArith List Arith Bool Reals Lia Lra Psatz.
From Flocq Require Import Core IEEE754.BinarySingleNaN.
From Verif Require Import M_Float P_Float P_FloatD M_FloatN P_FloatN M_FloatS M_FloatLU P_FloatLU P_FloatTri P_FloatDec M_FloatQR P_FloatHH M_FloatSVD Props_Float Props_FloatN Props_FloatS P_Norm.
Import ListNotations.
Local Open Scope R_scope.

(** * Rotations over the reals *)
Section Real.
Variable n : nat.
Notation dot := (dot n).
Notation nrm := (nrm n).
Notation vec := (nat -> R).
(* e_i *)
Definition unit_vec (i : nat) : vec := fun k => if Nat.eqb k i then 1 else 0.
(* a linear map that keeps inner products, with its transpose *)
Definition isometry (G H : vec -> vec) : Prop :=
  (forall f g, dot (G f) (G g) = dot f g) /\ (forall f g, dot (H f) (H g) = dot f g) /\ (forall f g, dot (G f) g = dot f (H g)) /\
  (forall f g i, (i < n)%nat -> G (fun k => f k - g k) i = G f i - G g i) /\
  (forall f g, (forall i, (i < n)%nat -> f i = g i) -> forall i, (i < n)%nat -> G f i = G g i).
Lemma iso_id : isometry (fun f => f) (fun f => f).
Proof. repeat split; auto. Qed.
Lemma iso_comp G H G' H' : isometry G H -> isometry G' H' -> isometry (fun f => G' (G f)) (fun f => H (H' f)).
Proof.
intros [a [b [c [d e]]]] [a' [b' [c' [d' e']]]]; split; [|split; [|split; [|split]]].
- intros; rewrite a', a; reflexivity.
- intros; rewrite b, b'; reflexivity.
- intros; rewrite c', c; reflexivity.
- intros f g i hi; rewrite <- d' by exact hi; apply e'; [|exact hi]; intros; apply d; assumption.
- intros f g h; apply e', e, h.
Qed.
Lemma iso_nrm G H f : isometry G H -> nrm (G f) = nrm f.
Proof. intros [a _]; unfold P_Norm.nrm; rewrite a; reflexivity. Qed.
Definition rotv (c s : R) (p q : nat) (f : vec) : vec := fun k => if Nat.eqb k p then f p * c + f q * s else if Nat.eqb k q then f q * c - f p * s else f k.
Lemma dot_two p q f g f' g' : (p < n)%nat -> (q < n)%nat -> p <> q -> (forall k, k <> p -> k <> q -> f k = f' k /\ g k = g' k) ->
  f p * g p + f q * g q = f' p * g' p + f' q * g' q -> dot f g = dot f' g'.
Proof.
intros hp hq pq h e; unfold P_Norm.dot.
assert (L : forall l, NoDup l -> lsum (fun i => f i * g i) l = lsum (fun i => f' i * g' i) l
  + (if in_dec Nat.eq_dec p l then f p * g p - f' p * g' p else 0) + (if in_dec Nat.eq_dec q l then f q * g q - f' q * g' q else 0)).
{ induction l as [|k l IH]; intro nd; [simpl; unfold lsum; simpl; ring|]; inversion nd as [|? ? n1 n2]; subst; rewrite !lsum_cons, (IH n2).
  destruct (Nat.eq_dec k p) as [->|kp]; [|destruct (Nat.eq_dec k q) as [->|kq]].
  - destruct (in_dec Nat.eq_dec p (p :: l)) as [_|x]; [|exfalso; apply x; left; reflexivity].
    destruct (in_dec Nat.eq_dec p l) as [x|_]; [contradiction|].
    destruct (in_dec Nat.eq_dec q (p :: l)) as [[x|x]|x]; destruct (in_dec Nat.eq_dec q l) as [y|y]; try lia; try contradiction; try ring; exfalso; apply x; right; exact y.
  - destruct (in_dec Nat.eq_dec q (q :: l)) as [_|x]; [|exfalso; apply x; left; reflexivity].
    destruct (in_dec Nat.eq_dec q l) as [x|_]; [contradiction|].
    destruct (in_dec Nat.eq_dec p (q :: l)) as [[x|x]|x]; destruct (in_dec Nat.eq_dec p l) as [y|y]; try lia; try contradiction; try ring; exfalso; apply x; right; exact y.
  - destruct (h k kp kq) as [e1 e2]; rewrite e1, e2.
    destruct (in_dec Nat.eq_dec p (k :: l)) as [[x|x]|x]; destruct (in_dec Nat.eq_dec p l) as [y|y]; try lia; try contradiction; try (exfalso; apply x; right; exact y);
    destruct (in_dec Nat.eq_dec q (k :: l)) as [[x'|x']|x']; destruct (in_dec Nat.eq_dec q l) as [y'|y']; try lia; try contradiction; try (exfalso; apply x'; right; exact y'); ring. }
rewrite L by apply seq_NoDup.
destruct (in_dec Nat.eq_dec p (seq 0 n)) as [_|x]; [|exfalso; apply x, in_seq; lia].
destruct (in_dec Nat.eq_dec q (seq 0 n)) as [_|x]; [|exfalso; apply x, in_seq; lia]; lra.
Qed.
Lemma rotv_p c s p q f : rotv c s p q f p = f p * c + f q * s. Proof. unfold rotv; rewrite Nat.eqb_refl; reflexivity. Qed.
Lemma rotv_q c s p q f : p <> q -> rotv c s p q f q = f q * c - f p * s.
Proof. intro h; unfold rotv; rewrite Nat.eqb_refl; replace (Nat.eqb q p) with false by (symmetry; apply Nat.eqb_neq; auto); reflexivity. Qed.
Lemma rotv_o c s p q f k : k <> p -> k <> q -> rotv c s p q f k = f k.
Proof. intros h h'; unfold rotv; rewrite (proj2 (Nat.eqb_neq k p) h), (proj2 (Nat.eqb_neq k q) h'); reflexivity. Qed.
Lemma iso_rot c s p q : (p < n)%nat -> (q < n)%nat -> p <> q -> c * c + s * s = 1 -> isometry (rotv c s p q) (rotv c (- s) p q).
Proof.
intros hp hq pq h; split; [|split; [|split; [|split]]].
- intros f g; apply (dot_two p q); auto; [intros; rewrite !rotv_o by assumption; auto|]; rewrite !rotv_p, !rotv_q by assumption.
  replace (_ + _) with ((c * c + s * s) * (f p * g p + f q * g q)) by ring; rewrite h; ring.
- intros f g; apply (dot_two p q); auto; [intros; rewrite !rotv_o by assumption; auto|]; rewrite !rotv_p, !rotv_q by assumption.
  replace (_ + _) with ((c * c + s * s) * (f p * g p + f q * g q)) by ring; rewrite h; ring.
- intros f g; apply (dot_two p q); auto; [intros; rewrite !rotv_o by assumption; auto|]; rewrite !rotv_p, !rotv_q by assumption; ring.
- intros f g i hi; unfold rotv; destruct (Nat.eqb i p); [ring|]; destruct (Nat.eqb i q); ring.
- intros f g e i hi; unfold rotv; rewrite !e by assumption; reflexivity.
Qed.
Lemma unit_dot i f : (i < n)%nat -> dot (unit_vec i) f = f i. Proof. apply dot_basis. Qed.
Lemma unit_nrm i : (i < n)%nat -> nrm (unit_vec i) = 1.
Proof. intro hi; unfold P_Norm.nrm; rewrite unit_dot by exact hi; unfold unit_vec; rewrite Nat.eqb_refl; apply sqrt_1. Qed.
Lemma entry_nrm f i : (i < n)%nat -> Rabs (f i) <= nrm f.
Proof. intro hi; rewrite <- (unit_dot i f hi); apply Rle_trans with (1 := cauchy n _ _); rewrite unit_nrm by exact hi; lra. Qed.
(* a vector with two elements that do not vanish *)
Lemma two_nrm p q f e : (p < n)%nat -> (q < n)%nat -> p <> q -> 0 <= e -> Rabs (f p) <= e -> Rabs (f q) <= e -> (forall k, k <> p -> k <> q -> f k = 0) -> nrm f <= 2 * e.
Proof.
intros hp hq pq e0 h1 h2 h3; apply Rle_trans with (nrm (fun k => e * unit_vec p k + e * unit_vec q k)).
- apply nrm_le; intros k hk; unfold unit_vec; destruct (Nat.eq_dec k p) as [->|kp]; [|destruct (Nat.eq_dec k q) as [->|kq]].
  + rewrite Nat.eqb_refl; destruct (Nat.eqb p q); lra.
  + rewrite Nat.eqb_refl; destruct (Nat.eqb q p); lra.
  + rewrite h3, Rabs_R0 by assumption; destruct (Nat.eqb k p), (Nat.eqb k q); lra.
- apply Rle_trans with (1 := triangle n _ _); rewrite !nrm_scal, !unit_nrm, Rabs_pos_eq by assumption; lra.
Qed.
(* |f p c| + |f q s| is at most |f| times the length of (c, s) *)
Lemma pair_le c s p q f h : (p < n)%nat -> (q < n)%nat -> p <> q -> 0 < h -> h * h = c * c + s * s -> Rabs (f p * c) + Rabs (f q * s) <= h * nrm f /\ Rabs (f q * c) + Rabs (f p * s) <= h * nrm f.
Proof.
intros hp hq pq h0 hh.
assert (A : forall c s, h * h = c * c + s * s -> Rabs (f p * c) + Rabs (f q * s) <= h * nrm f).
{ clear c s hh; intros c s hh; set (g := fun k => Rabs (f k)).
  assert (I : isometry (rotv (Rabs c / h) (Rabs s / h) p q) (rotv (Rabs c / h) (- (Rabs s / h)) p q)).
  { apply iso_rot; auto; replace (_ + _) with ((Rabs c * Rabs c + Rabs s * Rabs s) / (h * h)) by (field; lra); rewrite <- !Rabs_mult, !Rabs_pos_eq by nra; rewrite hh; field; nra. }
  assert (E := entry_nrm (rotv (Rabs c / h) (Rabs s / h) p q g) p hp); rewrite (iso_nrm _ _ g I), rotv_p in E; unfold g in E; rewrite nrm_abs in E.
  replace (Rabs (f p * c) + Rabs (f q * s)) with (h * (Rabs (f p) * (Rabs c / h) + Rabs (f q) * (Rabs s / h))) by (rewrite !Rabs_mult; field; lra).
  apply Rmult_le_compat_l; [lra|]; apply Rle_trans with (1 := Rle_abs _); exact E. }
split; [apply A; exact hh|]; rewrite Rplus_comm; apply A; lra.
Qed.
End Real.

(** * One rotation in floating point *)
Section Rot.
Variables prec emax : Z.
Context (p0 : Prec_gt_0 prec) (pe : Prec_lt_emax prec emax).
Hypothesis prec5 : (5 <= prec)%Z.
Hypothesis range : (3 * prec <= emax)%Z.
Notation float := (binary_float prec emax).
Notation val := (@B2R prec emax).
Notation fin := (@is_finite prec emax).
Notation u := (u prec).
Notation eta := (eta prec emax).
Notation fadd := (fadd prec emax p0 pe).
Notation fsub := (fsub prec emax p0 pe).
Notation fmul := (fmul prec emax p0 pe).
Notation fdiv := (fdiv prec emax p0 pe).
Notation fone := (fone prec emax p0 pe).
Notation fzero := (fzero prec emax).
Notation RN := (round radix2 (FLT_exp (SpecFloat.emin prec emax) prec) ZnearestE).
Lemma u32 : 0 < u <= / 32.
Proof. split; [apply bpow_gt_0|]; unfold Props_Float.u; apply Rle_trans with (bpow radix2 (-5)); [apply bpow_le; lia|simpl; lra]. Qed.
Lemma eta4 : 0 < eta <= / 4 * u.
Proof.
split; [apply bpow_gt_0|]; unfold Props_Float.u, Props_Float.eta; apply Rle_trans with (bpow radix2 (-2 + - prec)); [apply bpow_le; lia|].
rewrite bpow_plus; simpl; lra.
Qed.
Lemma RNe t : Rabs (RN t - t) <= u * Rabs t + / 2 * eta. Proof. exact (RN_error prec emax p0 t). Qed.
Lemma one_val : val fone = 1 /\ fin fone = true. Proof. split; [apply Bone_correct|apply is_finite_Bone]. Qed.
Lemma fmul_one (x : float) : fin (fmul fone x) = true -> fin x = true /\ val (fmul fone x) = val x.
Proof. intro f; destruct (fmul_inv _ _ _ _ _ _ f) as [_ fx]; split; [exact fx|]; rewrite (fmul_val _ _ _ _ _ _ f), (proj1 one_val), Rmult_1_l; apply RN_id. Qed.
(* the length of (t, 1) / sqrt (t t + 1) computed in floating point *)
Lemma normalized t c s w : w = RN (sqrt (RN (RN (t * t) + RN (1 * 1)))) -> c = RN (t / w) -> s = RN (1 / w) -> Rabs (sqrt (c * c + s * s) - 1) <= 5 * u.
Proof.
destruct u32 as [u0 u1]; destruct eta4 as [e0 e1]; set (m := 1 + t * t).
intros ew ec es.
replace (RN (1 * 1)) with 1 in ew by (rewrite Rmult_1_l; symmetry; exact (RN_one prec emax p0 pe)).
set (a := RN (t * t)) in *; set (b := RN (a + 1)) in *.
assert (t2 : 0 <= t * t) by nra.
assert (Ea := RNe (t * t)); fold a in Ea; rewrite (Rabs_pos_eq (t * t)) in Ea by exact t2; apply Rabs_le_inv in Ea.
assert (a0 : 0 <= a) by (unfold a; rewrite <- (round_0 radix2 (FLT_exp (SpecFloat.emin prec emax) prec) ZnearestE); apply round_le; [apply FLT_exp_valid, p0|apply valid_rnd_N|exact t2]).
assert (b1 : 1 <= b) by (unfold b; rewrite <- (RN_one prec emax p0 pe) at 1; apply round_le; [apply FLT_exp_valid, p0|apply valid_rnd_N|lra]).
assert (Eb := RNe (a + 1)); fold b in Eb; rewrite (Rabs_pos_eq (a + 1)) in Eb by lra; apply Rabs_le_inv in Eb.
assert (m1 : 1 <= m) by (unfold m; lra).
assert (Bm : Rabs (b - m) <= 3 * u * m).
{ assert (u * (a + 1) <= u * ((1 + u) * m + / 8 * u)) by (apply Rmult_le_compat_l; [lra|]; unfold m; nra).
  assert (u * u * m <= / 32 * (u * m)) by (assert (0 <= u * m) by nra; nra); assert (u <= u * m) by nra; assert (u * (/ 8 * u) <= / 256 * (u * m)) by nra.
  assert (u * (t * t) = u * m - u) by (unfold m; ring).
  apply Rabs_le; unfold m in *; split; lra. }
apply Rabs_le_inv in Bm.
set (sb := sqrt b) in *; set (sm := sqrt m).
assert (sb1 : 1 <= sb) by (unfold sb; rewrite <- sqrt_1; apply sqrt_le_1_alt; exact b1).
assert (sm1 : 1 <= sm) by (unfold sm; rewrite <- sqrt_1; apply sqrt_le_1_alt; exact m1).
assert (sbq : sb * sb = b) by (apply sqrt_sqrt; lra); assert (smq : sm * sm = m) by (apply sqrt_sqrt; lra).
(* sb against sm *)
assert (B2 : Rabs (sb - sm) <= 8 / 5 * u * sm).
{ assert ((1 - 8 / 5 * u) * sm <= sb <= (1 + 8 / 5 * u) * sm).
  { assert (k1 : 0 <= (1 - 8 / 5 * u) * sm) by (apply Rmult_le_pos; lra); assert (k2 : 0 <= (1 + 8 / 5 * u) * sm) by (apply Rmult_le_pos; lra).
    split; apply Rsqr_incr_0; try lra; unfold Rsqr; rewrite sbq;
      [replace ((1 - 8 / 5 * u) * sm * ((1 - 8 / 5 * u) * sm)) with ((1 - 8 / 5 * u) * (1 - 8 / 5 * u) * m) by (rewrite <- smq; ring)
      |replace ((1 + 8 / 5 * u) * sm * ((1 + 8 / 5 * u) * sm)) with ((1 + 8 / 5 * u) * (1 + 8 / 5 * u) * m) by (rewrite <- smq; ring)].
    - assert ((1 - 8 / 5 * u) * (1 - 8 / 5 * u) <= 1 - 3 * u) by nra; assert ((1 - 8 / 5 * u) * (1 - 8 / 5 * u) * m <= (1 - 3 * u) * m) by (apply Rmult_le_compat_r; lra); lra.
    - assert (1 + 3 * u <= (1 + 8 / 5 * u) * (1 + 8 / 5 * u)) by nra; assert ((1 + 3 * u) * m <= (1 + 8 / 5 * u) * (1 + 8 / 5 * u) * m) by (apply Rmult_le_compat_r; lra); lra. }
  apply Rabs_le; lra. }
apply Rabs_le_inv in B2.
assert (Ew := RNe sb); fold sb in ew; rewrite <- ew in Ew; rewrite (Rabs_pos_eq sb) in Ew by lra; apply Rabs_le_inv in Ew.
assert (W : (1 - 3 * u) * sm <= w <= (1 + 3 * u) * sm).
{ assert (u <= u * sm) by nra; assert (u * sb <= u * ((1 + / 20) * sm)) by (apply Rmult_le_compat_l; [lra|]; assert (8 / 5 * u * sm <= / 20 * sm) by (apply Rmult_le_compat_r; lra); lra); lra. }
assert (w1 : 0 < w) by (assert (0 < (1 - 3 * u) * sm) by (apply Rmult_lt_0_compat; lra); lra).
(* rho = |(t, 1)| / w *)
set (rho := sm / w).
assert (R1 : Rabs (rho - 1) <= 7 / 2 * u).
{ assert (r : rho * w = sm) by (unfold rho; field; lra).
  assert (r0 : 0 < rho) by (unfold rho; apply Rmult_lt_0_compat; [lra|apply Rinv_0_lt_compat; lra]).
  assert (A1 : rho * ((1 - 3 * u) * sm) <= sm) by (rewrite <- r at 2; apply Rmult_le_compat_l; lra).
  assert (A2 : sm <= rho * ((1 + 3 * u) * sm)) by (rewrite <- r at 1; apply Rmult_le_compat_l; lra).
  assert (A3 : rho * (1 - 3 * u) <= 1) by (apply Rmult_le_reg_r with sm; lra); assert (A4 : 1 <= rho * (1 + 3 * u)) by (apply Rmult_le_reg_r with sm; lra).
  apply Rabs_le; split; nra. }
apply Rabs_le_inv in R1.
set (v := fun k : nat => match k with 0%nat => t / w | _ => 1 / w end); set (d := fun k : nat => match k with 0%nat => c - t / w | _ => s - 1 / w end).
assert (Nv : nrm 2 v = rho).
{ unfold nrm, P_Norm.dot, v, lsum; simpl; replace (t / w * (t / w) + (1 / w * (1 / w) + 0)) with (rho * rho); [apply sqrt_square; unfold rho; apply Rmult_le_pos; [lra|apply Rlt_le, Rinv_0_lt_compat; lra]|].
  unfold rho; replace (sm / w * (sm / w)) with (sm * sm / (w * w)) by (field; lra); rewrite smq; unfold m; field; lra. }
assert (Nc : sqrt (c * c + s * s) = nrm 2 (fun k => v k + d k)).
{ unfold nrm, P_Norm.dot, v, d, lsum; simpl; f_equal; ring. }
assert (Nd : nrm 2 d <= u * rho + eta).
{ apply Rle_trans with (nrm 2 (fun k => u * Rabs (v k) + / 2 * eta)).
  - apply nrm_le; intros k hk; destruct k as [|k]; unfold d, v; [rewrite ec; apply RNe|rewrite es; apply RNe].
  - apply Rle_trans with (1 := triangle 2 _ _); rewrite nrm_scal, nrm_abs, Nv, Rabs_pos_eq by lra.
    assert (C := nrm_const 2 (/ 2 * eta) ltac:(lra)); simpl INR in C; lra. }
assert (T1 := triangle 2 v d); assert (T2 := triangle 2 (fun k => v k + d k) (fun k => -1 * d k)).
rewrite (nrm_ext 2 _ v) in T2 by (intros; ring); rewrite nrm_scal, Rabs_left in T2 by lra; rewrite Nv in T1, T2; rewrite Nc.
assert (u * rho <= u * (1 + 7 / 64)) by (apply Rmult_le_compat_l; lra); apply Rabs_le; lra.
Qed.
Notation fsqrt := (fsqrt prec emax p0 pe).
Lemma sqrt_inv (b : float) : fin (fsqrt b) = true -> fin b = true /\ val (fsqrt b) = RN (sqrt (val b)).
Proof.
intro f; destruct (Bsqrt_correct prec emax p0 pe mode_NE b) as [h1 [h2 _]]; unfold M_FloatN.fsqrt in *; split; [|exact h1].
rewrite f in h2; destruct b as [| | |[|]]; try discriminate; reflexivity.
Qed.
Lemma div_case (x y : float) : fin (fdiv x y) = true -> fin y = true \/ val (fdiv x y) = 0.
Proof. destruct y as [sy|sy| |sy my ey hy]; auto; destruct x as [sx|sx| |sx mx ex hx]; intro f; try discriminate; right; reflexivity. Qed.
Section Hypot.
Variable hypot3 : float -> float -> float -> float.
Notation fdiagonalize := (fdiagonalize prec emax p0 pe hypot3).
Notation fminimize := (fminimize prec emax p0 pe).
Lemma diag_unit a11 aoff a22 : let cs := fdiagonalize a11 aoff a22 in fin (fst cs) = true -> fin (snd cs) = true ->
  (val (fst cs) = 0 /\ val (snd cs) = 0) \/ Rabs (sqrt (val (fst cs) * val (fst cs) + val (snd cs) * val (snd cs)) - 1) <= 5 * u.
Proof.
destruct u32 as [u0 u1]; intro cs; unfold cs, M_FloatSVD.fdiagonalize; clear cs; destruct (fneq prec emax aoff fzero).
- cbn [fst snd]; set (t := fdiv aoff _); set (sc := fsqrt _); intros f1 f2.
  destruct (div_case _ _ f1) as [fs|z1].
  + right; destruct (fdiv_inv _ _ _ _ _ _ f1 fs) as [ft [_ e1]]; destruct (fdiv_inv _ _ _ _ _ _ f2 fs) as [_ [_ e2]].
    destruct (sqrt_inv _ fs) as [fb e3]; destruct (fadd_inv _ _ _ _ _ _ fb) as [fa fo].
    rewrite (fadd_val _ _ _ _ _ _ fb), (fmul_val _ _ _ _ _ _ fa), (fmul_val _ _ _ _ _ _ fo), (proj1 one_val) in e3.
    rewrite (proj1 one_val) in e2; apply (normalized (val t) _ _ (val sc)); assumption.
  + destruct (div_case _ _ f2) as [fs|z2]; [|left; auto].
    right; destruct (fdiv_inv _ _ _ _ _ _ f1 fs) as [ft [_ e1]]; destruct (fdiv_inv _ _ _ _ _ _ f2 fs) as [_ [_ e2]].
    destruct (sqrt_inv _ fs) as [fb e3]; destruct (fadd_inv _ _ _ _ _ _ fb) as [fa fo].
    rewrite (fadd_val _ _ _ _ _ _ fb), (fmul_val _ _ _ _ _ _ fa), (fmul_val _ _ _ _ _ _ fo), (proj1 one_val) in e3.
    rewrite (proj1 one_val) in e2; apply (normalized (val t) _ _ (val sc)); assumption.
- cbn [fst snd]; intros _ _; right; rewrite (proj1 one_val); change (val fzero) with 0; replace (1 * 1 + 0 * 0) with 1 by ring; rewrite sqrt_1; replace (1 - 1) with 0 by ring; rewrite Rabs_R0; lra.
Qed.
Lemma sign_quot x : x <> 0 -> (RN (x / Rabs x) = 1 \/ RN (x / Rabs x) = -1).
Proof.
intro nz; destruct (Rle_or_lt 0 x) as [h|h].
- left; rewrite Rabs_pos_eq by exact h; replace (x / x) with 1 by (field; exact nz); apply RN_one; assumption.
- right; rewrite Rabs_left by exact h; replace (x / - x) with (- (1)) by (field; exact nz); rewrite RN_opp, RN_one by assumption; ring.
Qed.
Lemma minimize_step (x y m : float) : m = fabs prec emax x -> let q := fdiv x m in fin (fmul q x) = true -> fin (fmul q y) = true ->
  fin x = true /\ fin y = true /\ val x <> 0 /\ val (fmul q x) * val (fmul q x) = val x * val x /\ val (fmul q y) * val (fmul q y) = val y * val y.
Proof.
intros -> q f1 f2; destruct (fmul_inv _ _ _ _ _ _ f1) as [fq fx]; destruct (fmul_inv _ _ _ _ _ _ f2) as [_ fy].
assert (fm : fin (fabs prec emax x) = true) by (rewrite fabs_fin; exact fx).
destruct (fdiv_inv _ _ _ _ _ _ fq fm) as [_ [nz e]]; rewrite fabs_val in nz, e.
assert (xz : val x <> 0) by (intro z; rewrite z, Rabs_R0 in nz; apply nz; reflexivity).
repeat (split; [assumption|]); rewrite (fmul_val _ _ _ _ _ _ f1), (fmul_val _ _ _ _ _ _ f2); unfold q; rewrite e.
destruct (sign_quot (val x) xz) as [->| ->].
- rewrite !Rmult_1_l, !RN_id; auto.
- replace (-1 * val x) with (- val x) by ring; replace (-1 * val y) with (- val y) by ring; rewrite !RN_opp, !RN_id; split; ring.
Qed.
Lemma minimize_unit cs : let r := fminimize cs in fin (fst r) = true -> fin (snd r) = true ->
  fin (fst cs) = true /\ fin (snd cs) = true /\ (val (fst cs) <> 0 \/ val (snd cs) <> 0) /\
  val (fst r) * val (fst r) + val (snd r) * val (snd r) = val (fst cs) * val (fst cs) + val (snd cs) * val (snd cs).
Proof.
destruct cs as [c s]; unfold M_FloatSVD.fminimize; cbn [fst snd]; destruct (flt prec emax (fabs prec emax c) (fabs prec emax s)); cbn [fst snd]; intros f1 f2.
- assert (em : fabs prec emax s = fabs prec emax (Bopp s)) by (destruct s; reflexivity).
  destruct (minimize_step (Bopp s) c _ em f1 f2) as [h1 [h2 [h3 [h4 h5]]]]; rewrite fin_opp in h1; rewrite val_opp in h3, h4; rewrite h4, h5.
  split; [exact h2|split; [exact h1|split; [right; intro z; apply h3; rewrite z; ring|ring]]].
- destruct (minimize_step c s _ eq_refl f1 f2) as [h1 [h2 [h3 [h4 h5]]]]; rewrite h4, h5; auto.
Qed.
(* the rotation of a pair of columns has length 1 up to 5u, whatever hypot returned *)
Lemma rotation_unit a11 aoff a22 : let r := fminimize (fdiagonalize a11 aoff a22) in fin (fst r) = true -> fin (snd r) = true ->
  Rabs (sqrt (val (fst r) * val (fst r) + val (snd r) * val (snd r)) - 1) <= 5 * u.
Proof.
intros r f1 f2; destruct (minimize_unit _ f1 f2) as [h1 [h2 [h3 h4]]]; unfold r; rewrite h4.
destruct (diag_unit a11 aoff a22 h1 h2) as [[z1 z2]|h]; [destruct h3; contradiction|exact h].
Qed.
End Hypot.

(** * Rotation of a vector *)
Section Vec.
Variable n : nat.
Definition jac_d : R := 15 * u.
Definition jac_w : R := 4 * eta.
Notation V f := (fun k => val (f k)).
Lemma two_products a b : Rabs (RN (RN a + RN b) - (a + b)) <= (2 * u + u * u) * (Rabs a + Rabs b) + 2 * eta.
Proof.
destruct u32 as [u0 u1]; destruct eta4 as [e0 e1]; assert (A := RNe a); assert (B := RNe b); assert (C := RNe (RN a + RN b)).
replace (RN (RN a + RN b) - (a + b)) with ((RN (RN a + RN b) - (RN a + RN b)) + ((RN a - a) + (RN b - b))) by ring.
assert (T1 := Rabs_triang (RN (RN a + RN b) - (RN a + RN b)) ((RN a - a) + (RN b - b))); assert (T2 := Rabs_triang (RN a - a) (RN b - b)).
assert (T3 : Rabs (RN a + RN b) <= (1 + u) * (Rabs a + Rabs b) + eta).
{ replace (RN a + RN b) with ((RN a - a) + (RN b - b) + (a + b)) by ring; assert (T3 := Rabs_triang ((RN a - a) + (RN b - b)) (a + b)); assert (T4 := Rabs_triang a b); lra. }
assert (T5 : u * Rabs (RN a + RN b) <= u * ((1 + u) * (Rabs a + Rabs b) + eta)) by (apply Rmult_le_compat_l; lra).
assert (u * eta <= / 32 * eta) by (apply Rmult_le_compat_r; lra); lra.
Qed.
(* x, y: the vector before and after; p, q: rotated by c, s *)
Lemma rotate_err (c s : R) (p q : nat) (x y : nat -> R) : (p < n)%nat -> (q < n)%nat -> p <> q -> Rabs (sqrt (c * c + s * s) - 1) <= 5 * u ->
  y p = RN (RN (x p * c) + RN (x q * s)) -> y q = RN (RN (x q * c) - RN (x p * s)) -> (forall k, k <> p -> k <> q -> y k = x k) ->
  let l := sqrt (c * c + s * s) in isometry n (rotv (c / l) (s / l) p q) (rotv (c / l) (- (s / l)) p q) /\
  nrm n (fun k => y k - rotv (c / l) (s / l) p q x k) <= jac_d * nrm n x + jac_w.
Proof.
destruct u32 as [u0 u1]; destruct eta4 as [e0 e1]; intros hp hq pq h ep eq eo l; fold l in h; apply Rabs_le_inv in h.
assert (l0 : 0 < l) by lra; assert (ll : l * l = c * c + s * s) by (apply sqrt_sqrt; nra).
assert (I : isometry n (rotv (c / l) (s / l) p q) (rotv (c / l) (- (s / l)) p q)).
{ apply iso_rot; auto; replace (_ + _) with ((c * c + s * s) / (l * l)) by (field; lra); rewrite ll; field; nra. }
split; [exact I|].
set (g := rotv (c / l) (s / l) p q x) in *.
assert (gn : nrm n g = nrm n x) by apply (iso_nrm n _ _ x I); assert (gp := entry_nrm n g p hp); assert (gq := entry_nrm n g q hq); rewrite gn in gp, gq.
assert (n0 : 0 <= nrm n x) by apply nrm_pos.
destruct (pair_le n c s p q x l hp hq pq l0 ll) as [b1 b2].
set (N := nrm n x) in *; unfold jac_d, jac_w.
assert (K : (2 * u + u * u) * (l * N) <= 12 / 5 * u * N).
{ assert (l * N <= (37 / 32) * N) by (apply Rmult_le_compat_r; lra); assert (0 <= u * N) by (apply Rmult_le_pos; lra); assert (u * u * N <= / 32 * (u * N)) by (rewrite Rmult_assoc; apply Rmult_le_compat_r; lra).
  apply Rle_trans with ((2 * u + u * u) * (37 / 32 * N)); [apply Rmult_le_compat_l; [nra|assumption]|lra]. }
assert (c0 : 0 <= 2 * u + u * u) by nra.
replace (15 * u * N + 4 * eta) with (2 * (15 / 2 * u * N + 2 * eta)) by field.
apply (two_nrm n p q); auto.
- assert (0 <= u * N) by (apply Rmult_le_pos; lra); lra.
- rewrite ep; assert (T := two_products (x p * c) (x q * s)).
  assert (E : g p = (x p * c + x q * s) / l) by (unfold g; rewrite rotv_p; field; lra).
  assert (E' : x p * c + x q * s - g p = (l - 1) * g p) by (rewrite E; field; lra).
  replace (RN (RN (x p * c) + RN (x q * s)) - g p) with ((RN (RN (x p * c) + RN (x q * s)) - (x p * c + x q * s)) + (l - 1) * g p) by (rewrite <- E'; ring).
  apply Rle_trans with (1 := Rabs_triang _ _); rewrite (Rabs_mult (l - 1)).
  assert (Rabs (l - 1) * Rabs (g p) <= 5 * u * N) by (apply Rmult_le_compat; try apply Rabs_pos; [apply Rabs_le; lra|exact gp]).
  assert ((2 * u + u * u) * (Rabs (x p * c) + Rabs (x q * s)) <= (2 * u + u * u) * (l * N)) by (apply Rmult_le_compat_l; assumption).
  assert (0 <= u * N) by (apply Rmult_le_pos; lra); lra.
- rewrite eq; replace (RN (x q * c) - RN (x p * s)) with (RN (x q * c) + RN (- (x p * s))) by (rewrite RN_opp; ring).
  assert (T := two_products (x q * c) (- (x p * s))); rewrite (Rabs_Ropp (x p * s)) in T.
  assert (E : g q = (x q * c + - (x p * s)) / l) by (unfold g; rewrite rotv_q by exact pq; field; lra).
  assert (E' : x q * c + - (x p * s) - g q = (l - 1) * g q) by (rewrite E; field; lra).
  replace (RN (RN (x q * c) + RN (- (x p * s))) - g q) with ((RN (RN (x q * c) + RN (- (x p * s))) - (x q * c + - (x p * s))) + (l - 1) * g q) by (rewrite <- E'; ring).
  apply Rle_trans with (1 := Rabs_triang _ _); rewrite (Rabs_mult (l - 1)).
  assert (Rabs (l - 1) * Rabs (g q) <= 5 * u * N) by (apply Rmult_le_compat; try apply Rabs_pos; [apply Rabs_le; lra|exact gq]).
  assert ((2 * u + u * u) * (Rabs (x q * c) + Rabs (x p * s)) <= (2 * u + u * u) * (l * N)) by (apply Rmult_le_compat_l; assumption).
  assert (0 <= u * N) by (apply Rmult_le_pos; lra); lra.
- intros k kp kq; unfold g; rewrite eo, rotv_o by assumption; ring.
Qed.
(** * Sequences of rotations *)
Definition jac_step (x : R) : R := (1 + jac_d) * x + jac_w.
Fixpoint jac_len (k : nat) (x : R) : R := match k with O => x | S k => jac_len k (jac_step x) end.
Lemma jac_dw : 0 <= jac_d /\ 0 <= jac_w.
Proof. destruct u32; destruct eta4; unfold jac_d, jac_w; lra. Qed.
Lemma jac_app j k x : jac_len (j + k) x = jac_len k (jac_len j x).
Proof. revert x; induction j as [|j IH]; intro x; [reflexivity|]; simpl; apply IH. Qed.
Lemma jac_grow k x y : 0 <= x <= y -> 0 <= jac_len k x <= jac_len k y /\ jac_len k x - x <= jac_len k y - y /\ x <= jac_len k x.
Proof.
destruct jac_dw as [d0 w0]; revert x y; induction k as [|k IH]; intros x y [h1 h2]; simpl; [lra|].
assert (D : jac_d * x <= jac_d * y) by (apply Rmult_le_compat_l; assumption); assert (D0 : 0 <= jac_d * x) by (apply Rmult_le_pos; assumption).
assert (S : 0 <= jac_step x <= jac_step y) by (unfold jac_step; lra).
destruct (IH _ _ S) as [a [b c]]; unfold jac_step in *; lra.
Qed.
Definition near (k : nat) (G : (nat -> R) -> nat -> R) (x0 x : nat -> R) : Prop :=
  nrm n x <= jac_len k (nrm n x0) /\ nrm n (fun i => x i - G x0 i) <= jac_len k (nrm n x0) - nrm n x0.
Lemma near_one G H x y : isometry n G H -> nrm n (fun k => y k - G x k) <= jac_d * nrm n x + jac_w -> near 1 G x y.
Proof.
intros I h; unfold near; simpl; unfold jac_step; split; [|lra].
rewrite (nrm_ext n y (fun k => (y k - G x k) + G x k)) by (intros; ring); apply Rle_trans with (1 := triangle n _ _); rewrite (iso_nrm n G H x I); lra.
Qed.
Lemma near_id k x y : (forall i, (i < n)%nat -> y i = x i) -> near k (fun f => f) x y.
Proof.
intro h; unfold near; rewrite (nrm_ext n y x) by exact h; assert (n0 := nrm_pos n x).
destruct (jac_grow k (nrm n x) (nrm n x) ltac:(lra)) as [a [b c]]; split; [lra|].
rewrite (nrm_ext n _ (fun i => 0 * x i)) by (intros; rewrite h by assumption; ring); rewrite nrm_scal, Rabs_R0; lra.
Qed.
Lemma near_comp j k G H G' H' x y z : isometry n G H -> isometry n G' H' -> near j G x y -> near k G' y z -> near (j + k) (fun f => G' (G f)) x z.
Proof.
intros I I' [a1 a2] [b1 b2]; unfold near; rewrite jac_app; assert (x0 := nrm_pos n x); assert (y0 := nrm_pos n y).
destruct (jac_grow k (nrm n y) (jac_len j (nrm n x)) (conj y0 a1)) as [c1 [c2 c3]]; split; [lra|].
destruct I' as [i1 [i2 [i3 [i4 i5]]]].
rewrite (nrm_ext n _ (fun i => (z i - G' y i) + G' (fun k => y k - G x k) i)) by (intros; rewrite i4 by assumption; ring).
apply Rle_trans with (1 := triangle n _ _).
assert (e : nrm n (G' (fun k => y k - G x k)) = nrm n (fun k => y k - G x k)) by (unfold nrm; rewrite i1; reflexivity).
rewrite e; lra.
Qed.
Lemma jac_bound k x : 0 <= x -> jac_len k x <= (1 + jac_d) ^ k * (x + INR k * jac_w).
Proof.
destruct jac_dw as [d0 w0]; revert x; induction k as [|k IH]; intros x x0; [simpl; lra|].
assert (s0 : 0 <= jac_step x) by (unfold jac_step; assert (0 <= (1 + jac_d) * x) by (apply Rmult_le_pos; lra); lra).
change (jac_len (S k) x) with (jac_len k (jac_step x)); apply Rle_trans with (1 := IH _ s0); rewrite S_INR; change ((1 + jac_d) ^ S k) with ((1 + jac_d) * (1 + jac_d) ^ k).
rewrite (Rmult_comm (1 + jac_d)), Rmult_assoc; apply Rmult_le_compat_l; [apply pow_le; lra|]; unfold jac_step.
assert (t0 : 0 <= INR k * jac_w) by (apply Rmult_le_pos; [apply pos_INR|lra]); set (t := INR k * jac_w) in *.
replace ((1 + jac_d) * (x + (INR k + 1) * jac_w)) with ((1 + jac_d) * x + (1 + jac_d) * t + (1 + jac_d) * jac_w) by (unfold t; ring).
assert (0 <= jac_d * t) by (apply Rmult_le_pos; assumption); assert (0 <= jac_d * jac_w) by (apply Rmult_le_pos; assumption); lra.
Qed.

(** * The iteration *)
Variables (hypot3 : float -> float -> float -> float) (pad m : nat).
Notation fmat := (fmat prec emax).
Definition finX (X : fmat) : Prop := forall i j, (i < m)%nat -> (j < n)%nat -> fin (X i j) = true.
Definition finV (V : fmat) : Prop := forall i j, (i < n)%nat -> (j < n)%nat -> fin (V i j) = true.
(* rows of X and columns of V went through the same rotations *)
Definition linked (k : nat) (X V X' V' : fmat) : Prop := exists G H, isometry n G H /\
  (forall i, (i < m)%nat -> near k G (fun j => val (X i j)) (fun j => val (X' i j))) /\
  (forall j, (j < n)%nat -> near k G (fun i => val (V i j)) (fun i => val (V' i j))).
Lemma linked_comp j k X V X1 V1 X2 V2 : linked j X V X1 V1 -> linked k X1 V1 X2 V2 -> linked (j + k) X V X2 V2.
Proof.
intros [G [H [I [a b]]]] [G' [H' [I' [a' b']]]]; exists (fun f => G' (G f)), (fun f => H (H' f)); split; [apply iso_comp; assumption|].
split; intros i hi; [eapply near_comp; [exact I|exact I'|apply a, hi|apply a', hi]|eapply near_comp; [exact I|exact I'|apply b, hi|apply b', hi]].
Qed.
Lemma pair_linked p q X V e X' V' e' : (p < q < n)%nat -> fsvd_pair prec emax p0 pe hypot3 pad m (p, q) (X, V, e) (X', V', e') -> finX X' -> finV V' ->
  finX X /\ finV V /\ linked 1 X V X' V'.
Proof.
intros pq [a11 [aoff [a22 [_ [_ [_ st]]]]]] fx fv; cbv zeta in st; destruct (fneq prec emax (fabs prec emax aoff) fzero).
2:{ injection st as -> -> _; split; [exact fx|split; [exact fv|]]; exists (fun f => f), (fun f => f); split; [apply iso_id|split; intros; apply near_id; reflexivity]. }
assert (RU := rotation_unit hypot3 a11 aoff a22); cbv zeta in RU.
destruct (fminimize prec emax p0 pe (fdiagonalize prec emax p0 pe hypot3 a11 aoff a22)) as [c s]; cbn [fst snd] in RU; injection st as -> -> _.
assert (np : Nat.eqb q p = false) by (apply Nat.eqb_neq; lia).
(* columns of V *)
assert (VF : forall j, (j < n)%nat -> (fin c = true /\ fin s = true /\ fin (V p j) = true /\ fin (V q j) = true) /\
  val (fgivens_left prec emax p0 pe V p q c (Bopp s) p j) = RN (RN (val (V p j) * val c) + RN (val (V q j) * val s)) /\
  val (fgivens_left prec emax p0 pe V p q c (Bopp s) q j) = RN (RN (val (V q j) * val c) - RN (val (V p j) * val s))).
{ intros j hj; assert (f1 := fv p j ltac:(lia) hj); assert (f2 := fv q j ltac:(lia) hj); unfold fgivens_left in *; rewrite ?np, !Nat.eqb_refl in *.
  destruct (fsub_inv _ _ _ _ _ _ f1) as [g1 g2]; destruct (fmul_inv _ _ _ _ _ _ g1) as [v1 fc]; destruct (fmul_inv _ _ _ _ _ _ g2) as [v2 fs]; destruct (fmul_one _ v2) as [v3 e3].
  destruct (fadd_inv _ _ _ _ _ _ f2) as [g3 g4]; rewrite fin_opp in fs; split; [auto|].
  rewrite (fsub_val _ _ _ _ _ _ f1), (fadd_val _ _ _ _ _ _ f2), (fmul_val _ _ _ _ _ _ g1), (fmul_val _ _ _ _ _ _ g2), (fmul_val _ _ _ _ _ _ g3), (fmul_val _ _ _ _ _ _ g4), e3, val_opp.
  replace (val (V q j) * - val s) with (- (val (V q j) * val s)) by ring; replace (val (V p j) * - val s) with (- (val (V p j) * val s)) by ring; rewrite !RN_opp.
  split; f_equal; ring. }
destruct (VF p ltac:(lia)) as [[fc [fs _]] _].
(* rows of X *)
assert (XF : forall i, (i < m)%nat -> (fin (X i p) = true /\ fin (X i q) = true) /\
  val (fgivens_right prec emax p0 pe X p q c s i p) = RN (RN (val (X i p) * val c) + RN (val (X i q) * val s)) /\
  val (fgivens_right prec emax p0 pe X p q c s i q) = RN (RN (val (X i q) * val c) - RN (val (X i p) * val s))).
{ intros i hi; assert (f1 := fx i p hi ltac:(lia)); assert (f2 := fx i q hi ltac:(lia)); unfold fgivens_right in *; rewrite ?np, !Nat.eqb_refl in *.
  destruct (fadd_inv _ _ _ _ _ _ f1) as [g1 g2]; destruct (fmul_inv _ _ _ _ _ _ g1) as [v1 _]; destruct (fmul_inv _ _ _ _ _ _ g2) as [v2 _].
  destruct (fmul_one _ f2) as [f3 e3]; destruct (fsub_inv _ _ _ _ _ _ f3) as [g3 g4]; split; [auto|].
  rewrite e3, (fadd_val _ _ _ _ _ _ f1), (fsub_val _ _ _ _ _ _ f3), (fmul_val _ _ _ _ _ _ g1), (fmul_val _ _ _ _ _ _ g2), (fmul_val _ _ _ _ _ _ g3), (fmul_val _ _ _ _ _ _ g4); auto. }
assert (RU' := RU fc fs).
split; [|split].
- intros i j hi hj; destruct (Nat.eq_dec j p) as [->|jp]; [apply XF, hi|]; destruct (Nat.eq_dec j q) as [->|jq]; [apply XF, hi|].
  assert (f := fx i j hi hj); unfold fgivens_right in f; rewrite (proj2 (Nat.eqb_neq j p) jp), (proj2 (Nat.eqb_neq j q) jq) in f; exact f.
- intros i j hi hj; destruct (Nat.eq_dec i p) as [->|ip]; [apply VF, hj|]; destruct (Nat.eq_dec i q) as [->|iq]; [apply VF, hj|].
  assert (f := fv i j hi hj); unfold fgivens_left in f; rewrite (proj2 (Nat.eqb_neq i p) ip), (proj2 (Nat.eqb_neq i q) iq) in f; exact f.
- set (l := sqrt (val c * val c + val s * val s)).
  assert (I : isometry n (rotv (val c / l) (val s / l) p q) (rotv (val c / l) (- (val s / l)) p q)).
  { assert (p1 : (p < n)%nat) by lia; assert (q1 : (q < n)%nat) by lia; assert (pq1 : p <> q) by lia; destruct u32 as [u0 u1]; fold l in RU'; apply Rabs_le_inv in RU'.
    assert (ll : l * l = val c * val c + val s * val s) by (apply sqrt_sqrt; nra).
    apply iso_rot; auto; replace (_ + _) with ((val c * val c + val s * val s) / (l * l)) by (field; lra); rewrite ll; field; nra. }
  exists (rotv (val c / l) (val s / l) p q), (rotv (val c / l) (- (val s / l)) p q); split; [exact I|split].
  + intros i hi; destruct (XF i hi) as [_ [e1 e2]].
    destruct (rotate_err (val c) (val s) p q (fun j => val (X i j)) (fun j => val (fgivens_right prec emax p0 pe X p q c s i j))) as [_ h]; auto; try lia.
    { intros k kp kq; unfold fgivens_right; rewrite (proj2 (Nat.eqb_neq k p) kp), (proj2 (Nat.eqb_neq k q) kq); reflexivity. }
    eapply near_one; [exact I|exact h].
  + intros j hj; destruct (VF j hj) as [_ [e1 e2]].
    destruct (rotate_err (val c) (val s) p q (fun i => val (V i j)) (fun i => val (fgivens_left prec emax p0 pe V p q c (Bopp s) i j))) as [_ h]; auto; try lia.
    { intros k kp kq; unfold fgivens_left; rewrite (proj2 (Nat.eqb_neq k p) kp), (proj2 (Nat.eqb_neq k q) kq); reflexivity. }
    eapply near_one; [exact I|exact h].
Qed.
Lemma linked_refl X V : linked 0 X V X V.
Proof. exists (fun f => f), (fun f => f); split; [apply iso_id|split; intros; apply near_id; reflexivity]. Qed.
Lemma sweep_linked pairs : Forall (fun pq => (fst pq < snd pq < n)%nat) pairs -> forall X V e X' V' e', fsvd_sweep prec emax p0 pe hypot3 pad m pairs (X, V, e) (X', V', e') -> finX X' -> finV V' ->
  finX X /\ finV V /\ linked (length pairs) X V X' V'.
Proof.
induction pairs as [|[p q] pairs IH]; intros hp X V e X' V' e' h fx fv; [simpl in h; injection h as -> -> _; split; [exact fx|split; [exact fv|apply linked_refl]]|].
inversion hp as [|? ? h1 h2]; subst; cbn [fst snd] in h1; destruct h as [[[X1 V1] e1] [k1 k2]].
destruct (IH h2 _ _ _ _ _ _ k2 fx fv) as [f1 [f2 l2]]; destruct (pair_linked p q _ _ _ _ _ _ h1 k1 f1 f2) as [f3 [f4 l1]].
split; [exact f3|split; [exact f4|]]; exact (linked_comp 1 (length pairs) _ _ _ _ _ _ l1 l2).
Qed.
Lemma pairs_lt : Forall (fun pq => (fst pq < snd pq < n)%nat) (svd_pairs n).
Proof. apply Forall_forall; intros [p q] h; unfold svd_pairs in h; apply in_flat_map in h; destruct h as [p' [h1 h2]]; apply in_map_iff in h2; destruct h2 as [q' [e h2]]; injection e as -> ->; apply in_seq in h1, h2; simpl; lia. Qed.
Lemma loop_linked k e prev X V X' V' : fsvd_loop prec emax p0 pe hypot3 pad m n k e prev X V X' V' -> finX X' -> finV V' ->
  finX X /\ finV V /\ linked (k * length (svd_pairs n)) X V X' V'.
Proof.
induction 1 as [e prev X V h|k e prev X V X1 V1 e1 X' V' h s _ IH]; intros fx fv; [split; [exact fx|split; [exact fv|apply linked_refl]]|].
destruct (IH fx fv) as [f1 [f2 l2]]; destruct (sweep_linked _ pairs_lt _ _ _ _ _ _ s f1 f2) as [f3 [f4 l1]].
split; [exact f3|split; [exact f4|]]; exact (linked_comp _ _ _ _ _ _ _ _ l1 l2).
Qed.
End Vec.
End Rot.
