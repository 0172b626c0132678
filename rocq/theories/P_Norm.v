(* Euclidean norms of vectors of real numbers, given by their elements 0, ..., m - 1. *)
From Coq Require Import List Arith Reals Lia Lra Psatz.
From Flocq Require Import Core.
From Verif Require Import P_FloatTri.
Import ListNotations.
Local Open Scope R_scope.

Lemma lsum_cons f a l : lsum f (a :: l) = f a + lsum f l.
Proof. reflexivity. Qed.
Section Norm.
Variable m : nat.
Definition dot (f g : nat -> R) : R := lsum (fun i => f i * g i) (seq 0 m).
Definition nrm (f : nat -> R) : R := sqrt (dot f f).

Lemma dot_ext f g f' g' : (forall i, (i < m)%nat -> f i = f' i) -> (forall i, (i < m)%nat -> g i = g' i) -> dot f g = dot f' g'.
Proof. intros h1 h2; apply lsum_ext; intros i hi; apply in_seq in hi; rewrite h1, h2 by lia; reflexivity. Qed.
Lemma dot_sym f g : dot f g = dot g f.
Proof. apply lsum_ext; intros; ring. Qed.
Lemma dot_plus f g h : dot (fun i => f i + g i) h = dot f h + dot g h.
Proof. unfold dot; rewrite <- lsum_plus; apply lsum_ext; intros; ring. Qed.
Lemma dot_scal a f g : dot (fun i => a * f i) g = a * dot f g.
Proof. unfold dot; rewrite <- lsum_scal; apply lsum_ext; intros; ring. Qed.
Lemma dot_pos f : 0 <= dot f f.
Proof. apply lsum_pos; intros; nra. Qed.
Lemma nrm_pos f : 0 <= nrm f. Proof. apply sqrt_pos. Qed.
Lemma nrm_sq f : nrm f * nrm f = dot f f.
Proof. apply sqrt_sqrt, dot_pos. Qed.
Lemma nrm_ext f g : (forall i, (i < m)%nat -> f i = g i) -> nrm f = nrm g.
Proof. intro h; unfold nrm; f_equal; apply dot_ext; exact h. Qed.
Lemma cauchy f g : Rabs (dot f g) <= nrm f * nrm g.
Proof.
apply Rsqr_incr_0_var; [|apply Rmult_le_pos; apply nrm_pos]; rewrite <- Rsqr_abs; unfold Rsqr.
replace (nrm f * nrm g * (nrm f * nrm g)) with (dot f f * dot g g) by (rewrite <- !nrm_sq; ring).
assert (Q : forall t, 0 <= dot f f - 2 * t * dot f g + t * t * dot g g).
{ intro t; generalize (dot_pos (fun i => f i + (- t) * g i)); rewrite dot_plus, dot_scal, !(dot_sym _ (fun i => f i + - t * g i)), !dot_plus, !dot_scal, (dot_sym g f); lra. }
assert (gp := dot_pos g); assert (fp := dot_pos f).
destruct (Req_dec (dot g g) 0) as [z|nz].
- destruct (Req_dec (dot f g) 0) as [z'|nz']; [rewrite z'; nra|]; exfalso.
  generalize (Q ((dot f f + 1) / (2 * dot f g))); rewrite z.
  replace (2 * ((dot f f + 1) / (2 * dot f g)) * dot f g) with (dot f f + 1) by (field; exact nz'); lra.
- generalize (Q (dot f g / dot g g)); intro h.
  apply (Rmult_le_compat_l (dot g g) _ _ gp) in h.
  replace (dot g g * (dot f f - 2 * (dot f g / dot g g) * dot f g + dot f g / dot g g * (dot f g / dot g g) * dot g g)) with (dot f f * dot g g - dot f g * dot f g) in h by (field; exact nz).
  lra.
Qed.
Lemma dot_le f g : dot f g <= nrm f * nrm g.
Proof. apply Rle_trans with (1 := Rle_abs _), cauchy. Qed.
Lemma triangle f g : nrm (fun i => f i + g i) <= nrm f + nrm g.
Proof.
apply Rsqr_incr_0_var; [|generalize (nrm_pos f) (nrm_pos g); lra]; unfold Rsqr; rewrite nrm_sq, dot_plus, !(dot_sym _ (fun i => f i + g i)), !dot_plus, (dot_sym g f), <- !nrm_sq.
generalize (dot_le f g); nra.
Qed.
Lemma nrm_le f g : (forall i, (i < m)%nat -> Rabs (f i) <= g i) -> nrm f <= nrm g.
Proof.
intro h; apply sqrt_le_1; [apply dot_pos|apply dot_pos|]; apply lsum_le; intros i hi; apply in_seq in hi.
assert (h' := h i ltac:(lia)); assert (p := Rabs_pos (f i)); replace (f i * f i) with (Rabs (f i) * Rabs (f i)) by (rewrite <- Rabs_mult; apply Rabs_pos_eq; nra); nra.
Qed.
Lemma nrm_scal a f : nrm (fun i => a * f i) = Rabs a * nrm f.
Proof.
unfold nrm; rewrite dot_scal, dot_sym, dot_scal; replace (a * (a * dot f f)) with (Rsqr a * dot f f) by (unfold Rsqr; ring).
rewrite sqrt_mult; [|apply Rle_0_sqr|apply dot_pos]; rewrite sqrt_Rsqr_abs; reflexivity.
Qed.
Lemma nrm_abs f : nrm (fun i => Rabs (f i)) = nrm f.
Proof. unfold nrm; f_equal; apply lsum_ext; intros; rewrite <- Rabs_mult; apply Rabs_pos_eq; nra. Qed.
Lemma nrm_const c : 0 <= c -> nrm (fun _ => c) <= INR m * c.
Proof.
intro c0; unfold nrm, dot.
assert (e : lsum (fun _ => c * c) (seq 0 m) = INR m * (c * c)).
{ clear c0; induction m as [|k IH]; [simpl; ring|]; rewrite seq_S, lsum_app, IH, S_INR; simpl; ring. }
rewrite e; apply Rsqr_incr_0_var; [|apply Rmult_le_pos; [apply pos_INR|exact c0]]; rewrite Rsqr_sqrt by (apply Rmult_le_pos; [apply pos_INR|nra]); unfold Rsqr.
assert (i1 : INR m <= INR m * INR m); [|assert (0 <= c * c) by nra; nra].
clear; destruct m as [|k]; [simpl; lra|]; assert (1 <= INR (S k)) by (rewrite S_INR; generalize (pos_INR k); lra); nra.
Qed.
Lemma dot_basis i f : (i < m)%nat -> dot (fun k => if Nat.eqb k i then 1 else 0) f = f i.
Proof.
intro hi; unfold dot.
assert (K : forall l, NoDup l -> lsum (fun k => (if Nat.eqb k i then 1 else 0) * f k) l = if in_dec Nat.eq_dec i l then f i else 0).
{ induction l as [|a l IH]; intro nd; [reflexivity|]; inversion nd as [|? ? na nl]; subst; rewrite lsum_cons.
  rewrite (IH nl); destruct (Nat.eqb_spec a i) as [->|ne].
  - destruct (in_dec Nat.eq_dec i l) as [hi'|_]; [tauto|]; destruct (in_dec Nat.eq_dec i (i :: l)) as [_|nn]; [ring|exfalso; apply nn; left; reflexivity].
  - destruct (in_dec Nat.eq_dec i l) as [hi'|nn]; destruct (in_dec Nat.eq_dec i (a :: l)) as [hi''|nn']; try ring.
    + exfalso; apply nn'; right; exact hi'.
    + exfalso; destruct hi'' as [h|h]; [congruence|tauto]. }
rewrite K by apply seq_NoDup; destruct (in_dec Nat.eq_dec i (seq 0 m)) as [_|nn]; [reflexivity|exfalso; apply nn, in_seq; lia].
Qed.

(** * Reflections with a vector of almost unit length *)
Definition reflect (v f : nat -> R) : nat -> R := fun i => f i + (- 2 * dot v f) * v i.
Lemma dot_comb a b v f g : dot (fun i => f i + a * v i) (fun i => g i + b * v i) = dot f g + b * dot v f + a * dot v g + a * b * dot v v.
Proof. unfold dot; rewrite <- !lsum_scal, <- !lsum_plus; apply lsum_ext; intros; ring. Qed.
Lemma reflect_dot v f g : dot (reflect v f) (reflect v g) = dot f g + 4 * (dot v v - 1) * dot v f * dot v g.
Proof. unfold reflect; rewrite dot_comb; ring. Qed.
Variables (d : R) (v : nat -> R).
Hypothesis d0 : 0 <= d.
Hypothesis hv : Rabs (dot v v - 1) <= d.
Lemma reflect_gap f g M N : nrm f <= M -> nrm g <= N -> Rabs (dot (reflect v f) (reflect v g) - dot f g) <= ((1 + 2 * d) ^ 2 - 1) * (M * N).
Proof.
intros hM hN; rewrite reflect_dot; replace (_ + _ - _) with ((dot v v - 1) * (4 * (dot v f * dot v g))) by ring; rewrite Rabs_mult, (Rabs_mult 4), (Rabs_pos_eq 4), Rabs_mult by lra.
assert (c1 := cauchy v f); assert (c2 := cauchy v g); assert (vp := nrm_pos v); assert (fp := nrm_pos f); assert (gp := nrm_pos g).
assert (vs : nrm v * nrm v <= 1 + d) by (rewrite nrm_sq; apply Rabs_le_inv in hv; lra).
assert (p1 := Rabs_pos (dot v f)); assert (p2 := Rabs_pos (dot v g)).
assert (k1 : Rabs (dot v f) * Rabs (dot v g) <= (nrm v * nrm f) * (nrm v * nrm g)) by (apply Rmult_le_compat; assumption).
assert (k2 : (nrm v * nrm f) * (nrm v * nrm g) <= (1 + d) * (M * N)).
{ replace ((nrm v * nrm f) * (nrm v * nrm g)) with (nrm v * nrm v * (nrm f * nrm g)) by ring.
  apply Rmult_le_compat; [nra|apply Rmult_le_pos; assumption|exact vs|apply Rmult_le_compat; assumption]. }
replace ((1 + 2 * d) ^ 2 - 1) with (d * (4 * (1 + d))) by ring; rewrite Rmult_assoc.
apply Rmult_le_compat; [apply Rabs_pos|apply Rmult_le_pos; [lra|apply Rmult_le_pos; assumption]|exact hv|lra].
Qed.
Lemma reflect_nrm f M : nrm f <= M -> nrm (reflect v f) <= (1 + 2 * d) * M.
Proof.
intro hM; assert (fp := nrm_pos f); apply Rsqr_incr_0_var; [|apply Rmult_le_pos; lra]; unfold Rsqr; rewrite nrm_sq.
assert (h := reflect_gap f f (nrm f) (nrm f) (Rle_refl _) (Rle_refl _)); apply Rabs_le_inv in h; rewrite (nrm_sq f) in *.
assert (H : dot f f <= M * M) by (rewrite <- nrm_sq; apply Rmult_le_compat; assumption).
assert (c := Rmult_le_compat_l _ _ _ (pow2_ge_0 (1 + 2 * d)) H).
apply Rle_trans with ((1 + 2 * d) ^ 2 * dot f f); [lra|apply Rle_trans with (1 := c); apply Req_le; ring].
Qed.
(* a reflection with errors changes a scalar product by no more than the product of the bounds on the lengths grows *)
Lemma step_dot f g f' g' M N M' N' a b : nrm f <= M -> nrm g <= N ->
  nrm (fun i => f' i - reflect v f i) <= a -> nrm (fun i => g' i - reflect v g i) <= b -> (1 + 2 * d) * M + a <= M' -> (1 + 2 * d) * N + b <= N' ->
  nrm f' <= M' /\ nrm g' <= N' /\ Rabs (dot f' g' - dot f g) <= M' * N' - M * N.
Proof.
intros hM hN ha hb hM' hN'; set (e := fun i => f' i - reflect v f i) in *; set (h := fun i => g' i - reflect v g i) in *.
assert (ef : forall i, f' i = reflect v f i + e i) by (intro i; unfold e; ring).
assert (eg : forall i, g' i = reflect v g i + h i) by (intro i; unfold h; ring).
assert (nf := reflect_nrm f M hM); assert (ng := reflect_nrm g N hN); assert (G := reflect_gap f g M N hM hN).
assert (e0 := nrm_pos e); assert (h0 := nrm_pos h); assert (f0 := nrm_pos f); assert (g0 := nrm_pos g); assert (rf0 := nrm_pos (reflect v f)); assert (rg0 := nrm_pos (reflect v g)).
split; [|split].
- rewrite (nrm_ext f' (fun i => reflect v f i + e i)) by (intros; apply ef); apply Rle_trans with (1 := triangle _ _); lra.
- rewrite (nrm_ext g' (fun i => reflect v g i + h i)) by (intros; apply eg); apply Rle_trans with (1 := triangle _ _); lra.
- rewrite (dot_ext f' g' (fun i => reflect v f i + e i) (fun i => reflect v g i + h i)) by (intros; auto).
  rewrite dot_plus, !(dot_sym _ (fun i => reflect v g i + h i)), !dot_plus.
  rewrite (dot_sym (reflect v g) (reflect v f)).
  assert (c1 := cauchy h (reflect v f)); assert (c2 := cauchy (reflect v g) e); assert (c3 := cauchy h e).
  assert (k1 : nrm h * nrm (reflect v f) <= b * ((1 + 2 * d) * M)) by (apply Rmult_le_compat; assumption).
  assert (k2 : nrm (reflect v g) * nrm e <= ((1 + 2 * d) * N) * a) by (apply Rmult_le_compat; assumption).
  assert (k3 : nrm h * nrm e <= b * a) by (apply Rmult_le_compat; assumption).
  set (x1 := dot h (reflect v f)) in *; set (x2 := dot (reflect v g) e) in *; set (x3 := dot h e) in *; set (x0 := dot (reflect v f) (reflect v g)) in *.
  assert (P : ((1 + 2 * d) * M + a) * ((1 + 2 * d) * N + b) <= M' * N') by (apply Rmult_le_compat; nra).
  apply Rabs_le_inv in c1; apply Rabs_le_inv in c2; apply Rabs_le_inv in c3; apply Rabs_le_inv in G; apply Rabs_le; nra.
Qed.
End Norm.
