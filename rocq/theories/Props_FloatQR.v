(* C92, C93: the QR decomposition in floating point: how far Q is from orthonormal and QR from the matrix. *)
From Coq Require Import ZArith List Arith Bool Reals Lia Lra Psatz.
From Flocq Require Import Core IEEE754.BinarySingleNaN.
From Interval Require Import Tactic.
From Verif Require Import M_Float P_Float P_FloatD M_FloatN P_FloatN M_FloatS M_FloatLU P_FloatLU P_FloatTri P_FloatDec M_FloatQR Props_Float Props_FloatN Props_FloatS P_Norm P_FloatQR P_FloatHH P_FloatQRL.
Import ListNotations.
Local Open Scope R_scope.

Section FloatQRProps.
Variables prec emax : Z.
Context (p0 : Prec_gt_0 prec) (pe : Prec_lt_emax prec emax).
Notation float := (binary_float prec emax).
Notation val := (@B2R prec emax).
Notation fin := (@is_finite prec emax).
Notation u := (u prec).
Notation eta := (eta prec emax).
Notation fmat := (fmat prec emax).
Notation RN := (round radix2 (FLT_exp (SpecFloat.emin prec emax) prec) ZnearestE).

(* the constants of the bounds: reflecting a column multiplies its length by at most qr_r and adds at most qr_F; qr_t bounds the
   elements set to zero, relative to the length of the column *)
Definition qr_s (m ps : nat) : R := / (1 - u) ^ ((m + ps) / 2 + 8).
Definition qr_d (m ps : nat) : R := qr_s m ps * qr_s m ps - 1.
Definition qr_E (m ps : nat) : R := u + 2 * ((1 + u) ^ (m + 2) - 1) * (1 + qr_d m ps).
Definition qr_F (m ps : nat) : R := (1 + u) ^ (m + 2) * (INR m * (3 + 2 * qr_d m ps)) * (/ 2 * eta).
Definition qr_r (m ps : nat) : R := 1 + 2 * qr_d m ps + qr_E m ps.
Definition qr_a (m ps : nat) : R := let s := qr_s m ps in u * (s + s * s + u * u) + ((s - 1) * s + u * u).
Definition qr_t (m ps : nat) : R := let s := qr_s m ps in (s * s - 1) + qr_a m ps * (2 * s + qr_a m ps) + 4 * s * (u * s + u * u).
(* the length of a column of length x after n reflections *)
Definition qr_len (m ps n : nat) (x : R) : R := qr_r m ps ^ n * (x + INR n * qr_F m ps).
Definition qr_tail (m ps n : nat) (x : R) : R := qr_r m ps ^ n * ((qr_t m ps + qr_E m ps) * (x + INR n * qr_F m ps) + INR n * qr_F m ps).
Definition kron (i j : nat) : R := if Nat.eqb i j then 1 else 0.
Definition sum_to (n : nat) (f : nat -> R) : R := Rsum (map f (seq 0 n)).
(* the length of the vector of a reflection is zero or not too small *)
Definition good_norm (nu : float) : Prop := fin nu = true /\ (val nu = 0 \/ bpow radix2 (3 - emax + prec) <= val nu).

Lemma sum_lsum n f : sum_to n f = lsum f (seq 0 n). Proof. apply Rsum_lsum. Qed.

Hypothesis prec1 : (1 < prec)%Z.
Hypothesis range : (3 * prec <= emax)%Z.
Hypothesis range2 : (prec + 7 <= emax)%Z.
Variable fmax : float -> float -> float.
Hypothesis fmaxP : forall x y : float, is_nan x = false -> is_nan y = false -> fmax x y = if flt prec emax x y then y else x.
Variable fused : bool.
Notation fqr := (fdecompose_qr prec emax p0 pe fmax fused).

Section Run.
Variables (rowmajor : bool) (pa pm ps m n : nat) (A : fmat) (scaler : float) (norms : list (float * float)) (QT R Qout Rout : fmat).
Hypothesis nm : (0 < n <= m)%nat.
Hypothesis size : INR ((m + ps) / 2 + 8) * u <= / 8.
Hypothesis run : fqr rowmajor pa pm ps m n A scaler norms QT R Qout Rout.
Hypothesis good : Forall (fun p => good_norm (snd p)) norms.
Hypothesis fQ : forall i j, (i < m)%nat -> (j < m)%nat -> fin (QT i j) = true.

Lemma size' : INR (KK m ps + 3) * u <= / 8.
Proof. unfold KK; replace ((m + ps) / 2 + 5 + 3)%nat with ((m + ps) / 2 + 8)%nat by lia; exact size. Qed.
Lemma ssE : ss prec m ps = qr_s m ps.
Proof. unfold ss, KK, qr_s; replace ((m + ps) / 2 + 5 + 3)%nat with ((m + ps) / 2 + 8)%nat by lia; reflexivity. Qed.
Lemma ddE : dd prec m ps = qr_d m ps. Proof. unfold dd; rewrite ssE; reflexivity. Qed.
Lemma EE' : EE prec m (dd prec m ps) = qr_E m ps. Proof. rewrite ddE; reflexivity. Qed.
Lemma FE : FF prec emax m (dd prec m ps) = qr_F m ps. Proof. rewrite ddE; reflexivity. Qed.
Lemma rrE : rr prec m ps = qr_r m ps. Proof. unfold rr; rewrite EE', ddE; reflexivity. Qed.
Lemma tauE : tau prec m ps = qr_t m ps. Proof. unfold tau, AA; rewrite ssE; reflexivity. Qed.
Lemma grE k x : gr prec emax m ps k x = qr_len m ps k x. Proof. unfold gr; rewrite FE, rrE; reflexivity. Qed.

Lemma m0 : (0 < m)%nat. Proof. lia. Qed.
Lemma the_vs : exists vs, QT = refl prec emax p0 pe fused m vs (fidentity prec emax p0 pe) /\
  R = refl prec emax p0 pe fused m vs (fun i j => fdiv prec emax p0 pe (A i j) scaler) /\ length vs = n /\ Forall (unitary prec emax m ps) vs.
Proof.
destruct run as [_ [h _]].
destruct (loop_vs prec emax p0 pe prec1 range range2 fmax fmaxP fused m ps pm m0 size' (seq 0 n) norms _ _ _ _ 0%nat h) as [vs [h1 [h2 [h3 [h4 _]]]]].
- apply Forall_forall; intros x hx; apply in_seq in hx; lia.
- exact good.
- intros i hi; apply fQ; [exact hi|exact m0].
- exists vs; rewrite seq_length in h3; auto.
Qed.
Lemma id_nrm i : (i < m)%nat -> nrm m (col prec emax (fidentity prec emax p0 pe) i) <= 1.
Proof.
intro hi; rewrite (nrm_ext m _ (fun k => if Nat.eqb k i then 1 else 0)) by (intros; apply id_val).
unfold nrm; rewrite dot_basis, Nat.eqb_refl, sqrt_1 by exact hi; lra.
Qed.
Lemma sum_cols vs X Y i j M N : Forall (unitary prec emax m ps) vs -> length vs = n ->
  colfin prec emax m (refl prec emax p0 pe fused m vs X) i -> colfin prec emax m (refl prec emax p0 pe fused m vs Y) j ->
  nrm m (col prec emax X i) <= M -> nrm m (col prec emax Y j) <= N ->
  nrm m (col prec emax (refl prec emax p0 pe fused m vs X) i) <= qr_len m ps n M /\ nrm m (col prec emax (refl prec emax p0 pe fused m vs Y) j) <= qr_len m ps n N /\
  Rabs (dot m (col prec emax (refl prec emax p0 pe fused m vs X) i) (col prec emax (refl prec emax p0 pe fused m vs Y) j) - dot m (col prec emax X i) (col prec emax Y j)) <= qr_len m ps n M * qr_len m ps n N - M * N.
Proof.
intros h1 h2 h3 h4 h5 h6.
destruct (refl_dot prec emax p0 pe prec1 fused m ps m0 size' vs h1 X Y i j M N h3 h4 h5 h6) as [k1 [k2 k3]].
assert (M0 : 0 <= M) by (apply Rle_trans with (2 := h5), nrm_pos); assert (N0 : 0 <= N) by (apply Rle_trans with (2 := h6), nrm_pos).
assert (l1 := itn_le prec emax m ps m0 size' n M M0); assert (l2 := itn_le prec emax m ps m0 size' n N N0); rewrite grE in l1, l2; rewrite h2 in *.
assert (z1 := nrm_pos m (col prec emax (refl prec emax p0 pe fused m vs X) i)); assert (z2 := nrm_pos m (col prec emax (refl prec emax p0 pe fused m vs Y) j)).
split; [lra|split; [lra|]]; apply Rle_trans with (1 := k3); apply Rplus_le_compat_r, Rmult_le_compat; lra.
Qed.
Lemma columns_orth i j : (i < m)%nat -> (j < m)%nat -> Rabs (lsum (fun k => val (QT k i) * val (QT k j)) (seq 0 m) - delta i j) <= qr_len m ps n 1 * qr_len m ps n 1 - 1.
Proof.
intros hi hj; destruct the_vs as [vs [eQ [_ [hl hv]]]].
assert (fi : forall j, (j < m)%nat -> colfin prec emax m QT j) by (intros a ha b hb; apply fQ; assumption).
rewrite eQ in fi.
destruct (sum_cols vs _ _ i j 1 1 hv hl (fi i hi) (fi j hj) (id_nrm i hi) (id_nrm j hj)) as [_ [_ h]]; rewrite <- eQ in h.
assert (e : dot m (col prec emax (fidentity prec emax p0 pe) i) (col prec emax (fidentity prec emax p0 pe) j) = delta i j).
{ rewrite (dot_ext m _ _ (fun k => if Nat.eqb k i then 1 else 0) (fun k => if Nat.eqb k j then 1 else 0)) by (intros; apply id_val).
  rewrite dot_basis by exact hi; reflexivity. }
rewrite e in h; replace (1 * 1) with 1 in h by ring; exact h.
Qed.

(** * C92: the columns of Q are orthonormal up to a small bound *)
Theorem C92_orthonormal : forall i j, (i < n)%nat -> (j < n)%nat ->
  Rabs (sum_to m (fun l => val (Qout l i) * val (Qout l j)) - kron i j) <= INR m * (qr_len m ps n 1 ^ 2 - 1).
Proof.
intros i j hi hj; destruct run as [_ [_ [eq _]]]; rewrite eq, sum_lsum.
replace (qr_len m ps n 1 ^ 2) with (qr_len m ps n 1 * qr_len m ps n 1) by ring.
apply (gram m (fun i j => val (QT i j)) _ columns_orth i j); lia.
Qed.
(* the rows of a square Q *)
Theorem C92_square : n = m -> forall i j, (i < n)%nat -> (j < n)%nat ->
  Rabs (sum_to n (fun l => val (Qout i l) * val (Qout j l)) - kron i j) <= qr_len m ps n 1 ^ 2 - 1.
Proof.
intros e i j hi hj; destruct run as [_ [_ [eq _]]]; rewrite eq, sum_lsum; replace (qr_len m ps n 1 ^ 2) with (qr_len m ps n 1 * qr_len m ps n 1) by ring.
rewrite e at 1; apply (columns_orth i j); lia.
Qed.
(* no row of Q is longer than 1 by more than the rounding *)
Theorem C92_rows : forall i, (i < m)%nat -> sqrt (sum_to n (fun l => val (Qout i l) ^ 2)) <= qr_len m ps n 1.
Proof.
intros i hi; destruct run as [_ [_ [eq _]]]; rewrite eq, sum_lsum; destruct the_vs as [vs [eQ [_ [hl hv]]]].
assert (fi : colfin prec emax m QT i) by (intros b hb; apply fQ; assumption); rewrite eQ in fi.
destruct (sum_cols vs _ _ i i 1 1 hv hl fi fi (id_nrm i hi) (id_nrm i hi)) as [h _]; rewrite <- eQ in h; apply Rle_trans with (2 := h).
unfold nrm, dot, col; apply sqrt_le_1_alt; replace m with (n + (m - n))%nat by lia; rewrite seq_app, lsum_app.
rewrite (lsum_ext (fun l => val (QT l i) ^ 2) (fun l => val (QT l i) * val (QT l i))) by (intros; ring).
assert (0 <= lsum (fun l => val (QT l i) * val (QT l i)) (seq (0 + n) (m - n))) by (apply lsum_pos; intros; nra); lra.
Qed.

(** * C93: the product of the factors *)
Lemma scaler_pos : fin scaler = true -> 0 < val scaler.
Proof.
intro f; destruct run as [[t [_ e]] _]; destruct (min_val prec emax p0 pe prec1 range2) as [mv mf].
assert (z : 0 < bpow radix2 (2 - emax)) by apply bpow_gt_0.
unfold std_fmax in e; destruct (flt prec emax (fmin_normal prec emax p0 pe) t) eqn:E.
- rewrite e in *; apply flt_val in E; [rewrite mv in E; lra|exact mf|exact f].
- rewrite e, mv; exact z.
Qed.
Theorem C93_residual :
  (forall i j, (i < m)%nat -> (j < n)%nat -> fin (R i j) = true) -> (forall i j, (i < n)%nat -> (j < n)%nat -> fin (Rout i j) = true) ->
  forall i j, (i < m)%nat -> (j < n)%nat ->
  let s := val scaler in let a := sqrt (sum_to m (fun l => val (A l j) ^ 2)) in let h := (1 + u) * a / s + INR m * (/ 2 * eta) in
  let N := qr_len m ps n 1 in let H := qr_len m ps n h in
  0 < s /\ Rabs (sum_to n (fun l => val (Qout i l) * val (Rout l j)) - val (A i j)) <=
  s * ((N * H - h) + N * qr_tail m ps n h + u * (N * H)) + INR m * N * (/ 2 * eta) + u * Rabs (val (A i j)) + s * (/ 2 * eta).
Proof.
intros fR fRo i j hi hj; cbv zeta.
assert (n0 : (0 < n)%nat) by lia.
destruct run as [_ [loop [eq er]]].
assert (fs : fin scaler = true).
{ assert (h := fRo 0%nat j n0 hj); rewrite er in h; destruct (fmul_inv _ _ _ _ _ _ h); assumption. }
assert (s0 := scaler_pos fs); split; [exact s0|].
set (s := val scaler) in *; set (a := sqrt _); set (h := (1 + u) * a / s + INR m * (/ 2 * eta)).
destruct the_vs as [vs [eQ [eR [hl hv]]]]; set (R0 := fun i j => fdiv prec emax p0 pe (A i j) scaler) in *.
assert (fQc : forall j, (j < m)%nat -> colfin prec emax m QT j) by (intros b hb c hc; apply fQ; assumption).
assert (fRc : colfin prec emax m R j) by (intros b hb; apply fR; assumption).
assert (u0 : 0 < u) by apply bpow_gt_0; assert (e0 : 0 < eta) by apply bpow_gt_0.
assert (f0 : colfin prec emax m R0 j) by (rewrite eR in fRc; apply (refl_fin prec emax p0 pe prec1 fused m m0 vs R0 j fRc)).
assert (v0 : forall l, (l < m)%nat -> Rabs (val (R0 l j) - val (A l j) / s) <= u * Rabs (val (A l j) / s) + / 2 * eta).
{ intros l hl0; destruct (fdiv_inv prec emax p0 pe _ _ (f0 l hl0) fs) as [_ [_ ev]]; unfold R0; rewrite ev.
  assert (T := RN_err prec emax p0 (val (A l j) / s)); rewrite epsE in T; exact T. }
assert (aE : nrm m (fun l => val (A l j)) = a).
{ unfold a; rewrite sum_lsum; unfold nrm, dot; f_equal; apply lsum_ext; intros; ring. }
assert (hM : nrm m (col prec emax R0 j) <= h).
{ apply Rle_trans with (nrm m (fun l => (1 + u) * / s * Rabs (val (A l j)) + / 2 * eta)).
  - apply nrm_le; intros l hl0; unfold col; assert (k := v0 l hl0).
    replace (val (R0 l j)) with (val (A l j) / s + (val (R0 l j) - val (A l j) / s)) by ring; apply Rle_trans with (1 := Rabs_triang _ _).
    assert (k2 : Rabs (val (A l j) / s) = Rabs (val (A l j)) * / s) by (unfold Rdiv; rewrite Rabs_mult, (Rabs_pos_eq (/ s)) by (apply Rlt_le, Rinv_0_lt_compat, s0); reflexivity).
    rewrite k2 in *; lra.
  - apply Rle_trans with (1 := triangle _ _ _); rewrite nrm_scal, nrm_abs, aE, Rabs_pos_eq.
    + assert (k := nrm_const m (/ 2 * eta) ltac:(lra)); unfold h, Rdiv; lra.
    + apply Rmult_le_pos; [lra|apply Rlt_le, Rinv_0_lt_compat, s0]. }
assert (fQi := fQc i hi); rewrite eQ in fQi; assert (fRj := fRc); rewrite eR in fRj.
destruct (sum_cols vs _ _ i j 1 h hv hl fQi fRj (id_nrm i hi) hM) as [bQ [bR bD]]; rewrite <- eQ in bQ, bD; rewrite <- eR in bR, bD.
set (N := qr_len m ps n 1) in *; set (H := qr_len m ps n h) in *.
assert (e1 : dot m (col prec emax (fidentity prec emax p0 pe) i) (col prec emax R0 j) = val (R0 i j)).
{ rewrite (dot_ext m _ _ (fun k => if Nat.eqb k i then 1 else 0) (col prec emax R0 j)) by (intros; try reflexivity; apply id_val); rewrite dot_basis by exact hi; reflexivity. }
rewrite e1, Rmult_1_l in bD.
assert (bT := loop_tail prec emax p0 pe prec1 range range2 fmax fmaxP fused m ps pm m0 size' n norms _ _ _ _ j h ltac:(lia) loop good (fQc 0%nat m0) hj fRc hM).
rewrite rrE, tauE, EE', FE in bT; fold (qr_tail m ps n h) in bT; set (T := qr_tail m ps n h) in *.
set (q := col prec emax QT i) in *; set (x := col prec emax R j) in *; set (y := msk (fun l => Nat.ltb j l) x) in *; set (z := msk (fun l => Nat.leb l j) x).
assert (dz : dot m q z = dot m q x - dot m q y).
{ assert (k := dot_plus m z y q); rewrite (dot_ext m (fun l => z l + y l) q x q) in k.
  - rewrite (dot_sym m q z), (dot_sym m q x), (dot_sym m q y); lra.
  - intros l _; unfold z, y, msk; destruct (Nat.leb_spec l j); destruct (Nat.ltb_spec j l); try lia; ring.
  - reflexivity. }
assert (nz : nrm m z <= H).
{ apply Rle_trans with (2 := bR); rewrite <- (nrm_abs m x); apply nrm_le; intros l _; unfold z, msk; destruct (Nat.leb l j); [apply Rle_refl|rewrite Rabs_R0; apply Rabs_pos]. }
assert (N0 : 0 <= N) by (apply Rle_trans with (2 := bQ), nrm_pos).
assert (H0 : 0 <= H) by (apply Rle_trans with (2 := bR), nrm_pos).
assert (dy : Rabs (dot m q y) <= N * T) by (apply Rle_trans with (1 := cauchy _ _ _), Rmult_le_compat; try apply nrm_pos; assumption).
(* the product as a sum over all rows *)
set (o := fun l => if Nat.ltb l n then val (Rout l j) else 0).
assert (so : sum_to n (fun l => val (Qout i l) * val (Rout l j)) = dot m q o).
{ rewrite sum_lsum; unfold dot; replace m with (n + (m - n))%nat by lia; rewrite seq_app, lsum_app, (lsum_zero _ (seq (0 + n) (m - n))).
  - rewrite Rplus_0_r; apply lsum_ext; intros l hl0; apply in_seq in hl0; unfold o; destruct (Nat.ltb_spec l n); [|lia]; rewrite eq; reflexivity.
  - intros l hl0; apply in_seq in hl0; unfold o; destruct (Nat.ltb_spec l n); [lia|ring]. }
assert (oz : forall l, (l < m)%nat -> Rabs (o l - s * z l) <= u * s * Rabs (z l) + / 2 * eta).
{ intros l hl0; unfold o; destruct (Nat.ltb_spec l n) as [ln|ln].
  - rewrite er; assert (ff := fRo l j ln hj); rewrite er in ff; cbv beta in ff; rewrite (fmul_val _ _ _ _ _ _ ff); fold s.
    replace (val (if Nat.ltb j l then fzero prec emax else R l j)) with (z l).
    + assert (TT := RN_err prec emax p0 (s * z l)); rewrite epsE in TT; rewrite Rabs_mult, (Rabs_pos_eq s) in TT by lra; rewrite Rmult_assoc; exact TT.
    + unfold z, msk, x, col; destruct (Nat.leb_spec l j); destruct (Nat.ltb_spec j l); try lia; reflexivity.
  - unfold z, msk; destruct (Nat.leb_spec l j); [lia|]; rewrite Rmult_0_r, Rminus_0_r, !Rabs_R0, Rmult_0_r; lra. }
assert (no : nrm m (fun l => o l - s * z l) <= u * s * H + INR m * (/ 2 * eta)).
{ apply Rle_trans with (nrm m (fun l => u * s * Rabs (z l) + / 2 * eta)); [apply nrm_le; exact oz|].
  apply Rle_trans with (1 := triangle _ _ _); rewrite nrm_scal, nrm_abs, Rabs_pos_eq by (apply Rmult_le_pos; lra).
  assert (k := nrm_const m (/ 2 * eta) ltac:(lra)); assert (k2 : u * s * nrm m z <= u * s * H) by (apply Rmult_le_compat_l; [apply Rmult_le_pos; lra|exact nz]); lra. }
assert (do : dot m q o = s * dot m q z + dot m q (fun l => o l - s * z l)).
{ rewrite (dot_sym m q o), (dot_sym m q z), (dot_sym m q (fun l => o l - s * z l)), <- dot_scal, <- dot_plus; apply dot_ext; intros; [ring|reflexivity]. }
rewrite so, do, dz.
assert (d1 : Rabs (dot m q (fun l => o l - s * z l)) <= N * (u * s * H + INR m * (/ 2 * eta))).
{ apply Rle_trans with (1 := cauchy _ _ _), Rmult_le_compat; try apply nrm_pos; assumption. }
assert (d2 : Rabs (s * val (R0 i j) - val (A i j)) <= u * Rabs (val (A i j)) + s * (/ 2 * eta)).
{ replace (s * val (R0 i j) - val (A i j)) with (s * (val (R0 i j) - val (A i j) / s)) by (field; lra); rewrite Rabs_mult, (Rabs_pos_eq s) by lra.
  apply Rle_trans with (s * (u * Rabs (val (A i j) / s) + / 2 * eta)); [apply Rmult_le_compat_l; [lra|apply v0, hi]|].
  unfold Rdiv; rewrite Rabs_mult, (Rabs_pos_eq (/ s)) by (apply Rlt_le, Rinv_0_lt_compat, s0); apply Req_le; field; lra. }
replace (s * (dot m q x - dot m q y) + dot m q (fun l => o l - s * z l) - val (A i j)) with
  ((s * ((dot m q x - val (R0 i j)) + - dot m q y) + dot m q (fun l => o l - s * z l)) + (s * val (R0 i j) - val (A i j))) by ring.
apply Rle_trans with (1 := Rabs_triang _ _); assert (d3 : Rabs (s * ((dot m q x - val (R0 i j)) + - dot m q y)) <= s * ((N * H - h) + N * T)).
{ rewrite Rabs_mult, (Rabs_pos_eq s) by lra; apply Rmult_le_compat_l; [lra|]; apply Rle_trans with (1 := Rabs_triang _ _); rewrite Rabs_Ropp; apply Rplus_le_compat; assumption. }
assert (d4 := Rabs_triang (s * ((dot m q x - val (R0 i j)) + - dot m q y)) (dot m q (fun l => o l - s * z l))); lra.
Qed.
End Run.
End FloatQRProps.
Print Assumptions C92_orthonormal.
Print Assumptions C92_square.
Print Assumptions C92_rows.
Print Assumptions C93_residual.

(** * A run in double precision: reductions from the right *)
Notation fl := (binary_float 53 1024).
Fixpoint red (op : fl -> fl -> fl) (x : fl) (l : list fl) : fl := match l with [] => x | y :: l => op x (red op y l) end.
Lemma red_run op x l : freduce 53 1024 op (x :: l) (red op x l).
Proof.
revert x; induction l as [|y l IH]; intro x; [apply fred_one|]; exact (fred_app 53 1024 op [x] (y :: l) _ _ (fred_one 53 1024 op x) (IH y)).
Qed.
Definition redl op (l : list fl) : fl := match l with [] => fzero 53 1024 | x :: l => red op x l end.
Definition dscale (l : list fl) : fl := redl dmax (map (fabs 53 1024) l).
Definition dlen (l : list fl) : fl :=
  let s := fclamp 53 1024 (dscale l) (fmin_normal 53 1024 eq_refl eq_refl) (fmax_value 53 1024 eq_refl eq_refl) in
  fmul 53 1024 eq_refl eq_refl (fsqrt 53 1024 eq_refl eq_refl (redl (fadd 53 1024 eq_refl eq_refl) (map (fun x => fmul 53 1024 eq_refl eq_refl x x) (fdivs 53 1024 eq_refl eq_refl l s)))) s.
Lemma dlen_run l : l <> [] -> flength_precise 53 1024 eq_refl eq_refl dmax 0 0 l (dlen l).
Proof.
intro h; destruct l as [|x l]; [tauto|]; exists (dscale (x :: l)); eexists; split; [|split; [eexists; split; [|reflexivity]|reflexivity]].
- unfold fscale, fmaximum; cbn [repeat]; rewrite app_nil_r; apply red_run.
- unfold flength_squared, fsum; cbn [repeat]; rewrite app_nil_r; apply red_run.
Qed.
Fixpoint dloop (m : nat) (ks : list nat) (st : fmat 53 1024 * fmat 53 1024) : list (fl * fl) * (fmat 53 1024 * fmat 53 1024) :=
  match ks with
  | [] => ([], st)
  | k :: ks =>
    let nx := dlen (elements 53 1024 m (hh_column 53 1024 (snd st) k)) in
    let w := hh_u 53 1024 eq_refl eq_refl (snd st) k nx in
    let nu := dlen (elements 53 1024 m w) in
    let v := hh_v 53 1024 eq_refl eq_refl w k nu in
    let r := dloop m ks (freflect 53 1024 eq_refl eq_refl false m v (fst st), freflect 53 1024 eq_refl eq_refl false m v (snd st)) in
    ((nx, nu) :: fst r, snd r)
  end.
Lemma dloop_run m ks st : (0 < m)%nat -> fqr_loop 53 1024 eq_refl eq_refl dmax false 0 0 m ks (fst (dloop m ks st)) st (snd (dloop m ks st)).
Proof.
intro m0; revert st; induction ks as [|k ks IH]; intro st; [reflexivity|]; cbn [dloop fst snd fqr_loop]; eexists; split; [|apply IH].
assert (ne : forall f, elements 53 1024 m f <> []) by (intro f; unfold elements; destruct m; [lia|discriminate]).
unfold fhouseholder; cbv zeta; split; [apply dlen_run, ne|split; [apply dlen_run, ne|reflexivity]].
Qed.
Fixpoint dstripes (l : list (list fl)) (s : fl) : fl := match l with [] => s | x :: l => dstripes l (std_fmax 53 1024 s (dscale x)) end.
Lemma dstripes_run l s : Forall (fun x => x <> []) l -> fscale_stripes 53 1024 dmax 0 l s (dstripes l s).
Proof.
revert s; induction l as [|x l IH]; intros s h; [reflexivity|]; inversion h as [|? ? h1 h2]; subst; cbn [dstripes fscale_stripes]; exists (dscale x); split; [|apply IH, h2].
destruct x as [|y x]; [tauto|]; unfold fscale, fmaximum; cbn [repeat]; rewrite app_nil_r; apply red_run.
Qed.
Definition dscaler (m n : nat) (A : fmat 53 1024) : fl := std_fmax 53 1024 (fmin_normal 53 1024 eq_refl eq_refl) (dstripes (stripes 53 1024 true m n A) (fzero 53 1024)).
Definition dqr (m n : nat) (A : fmat 53 1024) : list (fl * fl) * (fmat 53 1024 * fmat 53 1024) :=
  dloop m (seq 0 n) (fidentity 53 1024 eq_refl eq_refl, fun i j => fdiv 53 1024 eq_refl eq_refl (A i j) (dscaler m n A)).
(* every matrix has a run *)
Lemma dqr_run m n A : (0 < n <= m)%nat -> fdecompose_qr 53 1024 eq_refl eq_refl dmax false true 0 0 0 m n A (dscaler m n A) (fst (dqr m n A))
  (fst (snd (dqr m n A))) (snd (snd (dqr m n A))) (fun i j => fst (snd (dqr m n A)) j i)
  (fun i j => fmul 53 1024 eq_refl eq_refl (dscaler m n A) (if Nat.ltb j i then fzero 53 1024 else snd (snd (dqr m n A)) i j)).
Proof.
intro nm; split; [|split; [|split; reflexivity]].
- exists (dstripes (stripes 53 1024 true m n A) (fzero 53 1024)); split; [|reflexivity]; apply dstripes_run, Forall_forall.
  intros x hx; unfold stripes in hx; apply in_map_iff in hx; destruct hx as [i [e _]]; subst x; unfold elements; destruct n; [lia|discriminate].
- rewrite <- surjective_pairing; apply dloop_run; lia.
Qed.
Definition mat2 (a b c d : fl) : fmat 53 1024 := fun i j => match i, j with 0%nat, 0%nat => a | 0%nat, _ => b | _, 0%nat => c | _, _ => d end.

(* A column of the smallest subnormal numbers beside a column of ones: Q and QR are far off *)
Definition tiny : fmat 53 1024 := mat2 (dbl 1 (-1074)) (dbl 1 0) (dbl 1 (-1074)) (dbl 1 0).
Theorem C92_refuted : exists (A : fmat 53 1024) scaler norms QT R Q Ro,
  fdecompose_qr 53 1024 eq_refl eq_refl dmax false true 0 0 0 2 2 A scaler norms QT R Q Ro /\
  (forall i j, (i < 2)%nat -> (j < 2)%nat -> is_finite (A i j) = true /\ is_finite (QT i j) = true /\ is_finite (R i j) = true /\ is_finite (Ro i j) = true) /\
  Rabs (sum_to 2 (fun l => B2R (Q l 0%nat) * B2R (Q l 1%nat))) = / 2 /\ sum_to 2 (fun l => B2R (Q l 0%nat) ^ 2) = 2 /\
  B2R (A 0%nat 1%nat) = 1 /\ sum_to 2 (fun l => B2R (Q 0%nat l) * B2R (Ro l 1%nat)) = 5 / 2.
Proof.
exists tiny; do 6 eexists; split; [exact (dqr_run 2 2 tiny ltac:(lia))|].
set (QT := fst (snd (dqr 2 2 tiny))); set (Ro := fun i j => fmul 53 1024 eq_refl eq_refl _ _).
assert (q00 : B2R (QT 0%nat 0%nat) = -1) by (dval; lra).
assert (q01 : B2R (QT 0%nat 1%nat) = -1) by (dval; lra).
assert (q10 : B2R (QT 1%nat 0%nat) = 1) by (dval; lra).
assert (q11 : B2R (QT 1%nat 1%nat) = - / 2) by (dval; lra).
assert (r01 : B2R (Ro 0%nat 1%nat) = -2) by (dval; lra).
assert (r11 : B2R (Ro 1%nat 1%nat) = / 2) by (dval; lra).
split.
{ intros [|[|i]] [|[|j]] hi hj; try lia; repeat split; vm_compute; reflexivity. }
unfold sum_to, Rsum; cbn [map seq fold_right]; rewrite q00, q01, q10, q11, r01, r11.
split; [replace (-1 * 1 + (-1 * - / 2 + 0)) with (- / 2) by lra; rewrite Rabs_Ropp, Rabs_pos_eq; lra|].
split; [lra|split; [dval; lra|lra]].
Qed.
Print Assumptions C92_refuted.

(* (3 1; 4 2) meets the hypotheses *)
Definition m3142 : fmat 53 1024 := mat2 (dbl 3 0) (dbl 1 0) (dbl 4 0) (dbl 2 0).
Example C92_example : (0 < 2 <= 2)%nat /\ INR ((2 + 0) / 2 + 8) * u 53 <= / 8 /\
  fdecompose_qr 53 1024 eq_refl eq_refl dmax false true 0 0 0 2 2 m3142 (dscaler 2 2 m3142) (fst (dqr 2 2 m3142)) (fst (snd (dqr 2 2 m3142)))
    (snd (snd (dqr 2 2 m3142))) (fun i j => fst (snd (dqr 2 2 m3142)) j i)
    (fun i j => fmul 53 1024 eq_refl eq_refl (dscaler 2 2 m3142) (if Nat.ltb j i then fzero 53 1024 else snd (snd (dqr 2 2 m3142)) i j)) /\
  Forall (fun p => good_norm 53 1024 (snd p)) (fst (dqr 2 2 m3142)) /\
  forall i j, (i < 2)%nat -> (j < 2)%nat -> is_finite (fst (snd (dqr 2 2 m3142)) i j) = true /\ is_finite (snd (snd (dqr 2 2 m3142)) i j) = true /\
    is_finite (fmul 53 1024 eq_refl eq_refl (dscaler 2 2 m3142) (if Nat.ltb j i then fzero 53 1024 else snd (snd (dqr 2 2 m3142)) i j)) = true.
Proof.
split; [lia|split; [unfold u; simpl; lra|split; [exact (dqr_run 2 2 m3142 ltac:(lia))|split]]].
- assert (e : exists a b c d, fst (dqr 2 2 m3142) = [(a, b); (c, d)] /\ is_finite b = true /\ is_finite d = true /\ 1 <= B2R b /\ / 1024 <= B2R d).
  { do 4 eexists; split; [reflexivity|split; [vm_compute; reflexivity|split; [vm_compute; reflexivity|split; dval; lra]]]. }
  assert (t : bpow radix2 (3 - 1024 + 53) <= / 1024) by (apply Rle_trans with (bpow radix2 (-10)); [apply bpow_le; lia|simpl; lra]).
  destruct e as [a [b [c [d [e [f1 [f2 [h1 h2]]]]]]]]; rewrite e; constructor; [split; [exact f1|right; cbn [snd]; lra]|constructor; [split; [exact f2|right; cbn [snd]; lra]|constructor]].
- intros [|[|i]] [|[|j]] hi hj; try lia; repeat split; vm_compute; reflexivity.
Qed.
(* what the bounds amount to in double precision, for 4 x 4 matrices and for 100 x 100 matrices *)
Example C92_bound_4 : 4 * (qr_len 53 1024 4 0 4 1 ^ 2 - 1) <= 1 / 10 ^ 12.
Proof.
unfold qr_len, qr_r, qr_F, qr_E, qr_d, qr_s, u, eta; simpl bpow; change ((4 + 0) / 2 + 8)%nat with 10%nat; change (4 + 2)%nat with 6%nat; simpl INR.
replace (bpow radix2 (3 - 1024 - 53)) with (powerRZ 2 (-1074)) by (rewrite bpow_powerRZ; reflexivity).
interval with (i_prec 120).
Qed.
Example C92_bound_100 : INR 100 * (qr_len 53 1024 100 0 100 1 ^ 2 - 1) <= 1 / 10 ^ 8 /\ INR ((100 + 0) / 2 + 8) * u 53 <= / 8.
Proof.
unfold qr_len, qr_r, qr_F, qr_E, qr_d, qr_s, u, eta; simpl bpow; change ((100 + 0) / 2 + 8)%nat with 58%nat; change (100 + 2)%nat with 102%nat; rewrite !INR_IZR_INZ; simpl Z.of_nat.
replace (bpow radix2 (3 - 1024 - 53)) with (powerRZ 2 (-1074)) by (rewrite bpow_powerRZ; reflexivity).
split; interval with (i_prec 120).
Qed.
(* the residual of a 4 x 4 matrix whose column has length 1 after scaling *)
Example C93_bound_4 : let N := qr_len 53 1024 4 0 4 1 in (N * N - 1) + N * qr_tail 53 1024 4 0 4 1 + u 53 * (N * N) <= 1 / 10 ^ 12.
Proof.
unfold qr_tail, qr_t, qr_a, qr_len, qr_r, qr_F, qr_E, qr_d, qr_s, u, eta; simpl bpow; change ((4 + 0) / 2 + 8)%nat with 10%nat; change (4 + 2)%nat with 6%nat; simpl INR.
replace (bpow radix2 (3 - 1024 - 53)) with (powerRZ 2 (-1074)) by (rewrite bpow_powerRZ; reflexivity).
cbv zeta; interval with (i_prec 120).
Qed.
