(* C94: the QR decomposition of a finite matrix in floating point does not overflow, and C92, C93 hold for its result. *)
From Coq Require Import ZArith List Arith Bool Reals Lia Lra Psatz.
From Flocq Require Import Core IEEE754.BinarySingleNaN.
From Interval Require Import Tactic.
From Verif Require Import M_Float P_Float P_FloatD M_FloatN P_FloatN M_FloatS M_FloatLU P_FloatLU P_FloatTri P_FloatDec M_FloatQR Props_Float Props_FloatN Props_FloatS P_Norm P_FloatQR P_FloatHH P_FloatQRL P_FloatQRF Props_FloatQR.
Import ListNotations.
Local Open Scope R_scope.

Section FloatQRFProps.
Variables prec emax : Z.
Context (p0 : Prec_gt_0 prec) (pe : Prec_lt_emax prec emax).
Notation float := (binary_float prec emax).
Notation val := (@B2R prec emax).
Notation fin := (@is_finite prec emax).
Notation u := (u prec).
Notation eta := (eta prec emax).
Notation fmat := (fmat prec emax).
Notation bp := (bpow radix2).
Notation qr_len := (qr_len prec emax).
Notation qr_tail := (qr_tail prec emax).
Notation col := (col prec emax).
Notation colfin := (colfin prec emax).
Hypothesis prec1 : (1 < prec)%Z.
Hypothesis range : (3 * prec <= emax)%Z.
Hypothesis range2 : (prec + 7 <= emax)%Z.
Variable fmax : float -> float -> float.
Hypothesis fmaxP : forall x y : float, is_nan x = false -> is_nan y = false -> fmax x y = if flt prec emax x y then y else x.
Variable fused : bool.
Notation fqr := (fdecompose_qr prec emax p0 pe fmax fused).
(* the length of the vector of a reflection is not a nonzero number below this *)
Definition not_tiny (nu : float) : Prop := val nu = 0 \/ bp (3 - emax + prec) <= val nu.

Section Run.
Variables (rowmajor : bool) (pa pm ps m n : nat) (A : fmat) (scaler : float) (norms : list (float * float)) (QT R Qout Rout : fmat).
Hypothesis nm : (0 < n <= m)%nat.
Hypothesis size : INR ((m + ps) / 2 + 8) * u <= / 8.
Hypothesis run : fqr rowmajor pa pm ps m n A scaler norms QT R Qout Rout.
Hypothesis fA : forall i j, (i < m)%nat -> (j < n)%nat -> fin (A i j) = true.
Hypothesis room : INR m * (64 * qr_len m ps n (INR m)) <= bp (emax - 1).
Hypothesis nt : Forall (fun p => not_tiny (snd p)) norms.

Lemma msize : INR (KK m ps + 3) * u <= / 8.
Proof. unfold KK; replace ((m + ps) / 2 + 5 + 3)%nat with ((m + ps) / 2 + 8)%nat by lia; exact size. Qed.
Lemma mpos : (0 < m)%nat. Proof. lia. Qed.
Lemma scaler_spec : fin scaler = true /\ forall i j, (i < m)%nat -> (j < n)%nat -> Rabs (val (A i j)) <= val scaler.
Proof.
destruct run as [[t [h e]] _].
assert (hl : Forall (fun v => v <> [] /\ Forall (fun x => fin x = true) v) (stripes prec emax rowmajor m n A)).
{ apply Forall_forall; intros v hv; unfold stripes in hv; destruct rowmajor; apply in_map_iff in hv; destruct hv as [k [<- hk]]; apply in_seq in hk; unfold elements.
  - split; [destruct n; [lia|discriminate]|]; apply Forall_forall; intros x hx; apply in_map_iff in hx; destruct hx as [l [<- hl]]; apply in_seq in hl; apply fA; lia.
  - split; [destruct m; [lia|discriminate]|]; apply Forall_forall; intros x hx; apply in_map_iff in hx; destruct hx as [l [<- hl]]; apply in_seq in hl; apply fA; lia. }
destruct (stripes_scale prec emax fmax fmaxP pa _ _ _ h hl eq_refl) as [ft [_ bt]].
destruct (min_val prec emax p0 pe prec1 range2) as [mv mf].
assert (g : fin scaler = true /\ val t <= val scaler).
{ rewrite e; unfold std_fmax; assert (c := flt_val prec emax _ t mf ft); destruct (flt prec emax (fmin_normal prec emax p0 pe) t); [split; [exact ft|lra]|].
  split; [exact mf|]; assert (~ val (fmin_normal prec emax p0 pe) < val t) by (intro k; apply c in k; discriminate); lra. }
destruct g as [g1 g2]; split; [exact g1|]; intros i j hi hj; apply Rle_trans with (2 := g2).
rewrite Forall_forall in bt; unfold stripes in bt; destruct rowmajor.
- assert (b := bt (elements prec emax n (A i)) ltac:(apply in_map_iff; exists i; split; [reflexivity|apply in_seq; lia])).
  rewrite Forall_forall in b; apply b; apply in_map_iff; exists j; split; [reflexivity|apply in_seq; lia].
- assert (b := bt (elements prec emax m (fun i => A i j)) ltac:(apply in_map_iff; exists j; split; [reflexivity|apply in_seq; lia])).
  rewrite Forall_forall in b; apply b; apply in_map_iff; exists i; split; [reflexivity|apply in_seq; lia].
Qed.
Lemma scaled j : (j < n)%nat -> colfin m (fun i j => fdiv prec emax p0 pe (A i j) scaler) j /\ nrm m (col (fun i j => fdiv prec emax p0 pe (A i j) scaler) j) <= INR m.
Proof.
intro hj; destruct scaler_spec as [fs bs]; assert (s0 := scaler_pos prec emax p0 pe prec1 range2 fmax fused _ _ _ _ _ _ _ _ _ _ _ _ _ run fs).
assert (e : forall i, (i < m)%nat -> fin (fdiv prec emax p0 pe (A i j) scaler) = true /\ Rabs (val (fdiv prec emax p0 pe (A i j) scaler)) <= 1).
{ intros i hi; assert (q : Rabs (val (A i j) / val scaler) <= 1).
  { unfold Rdiv; rewrite Rabs_mult, (Rabs_pos_eq (/ val scaler)) by (apply Rlt_le, Rinv_0_lt_compat, s0).
    apply (Rmult_le_reg_r (val scaler)); [exact s0|]; rewrite Rmult_assoc, Rinv_l, Rmult_1_r, Rmult_1_l by lra; apply bs; assumption. }
  assert (f1 : generic_format radix2 (FLT_exp (SpecFloat.emin prec emax) prec) 1) by (change 1 with (bp 0); apply format_bp; try assumption; unfold SpecFloat.emin; lia).
  assert (r1 := RNb prec emax p0 _ 1 f1 ltac:(lra) q).
  assert (o1 : 1 < bp emax) by (replace 1 with (bp 0) by reflexivity; apply bpow_lt; lia).
  destruct (fdiv_fin prec emax p0 pe (A i j) scaler (fA i j hi hj) ltac:(lra) ltac:(lra)) as [h1 h2]; split; [exact h1|rewrite h2; exact r1]. }
split; [intros i hi; apply e, hi|].
apply Rle_trans with (nrm m (fun _ => 1)); [apply nrm_le; intros i hi; unfold P_FloatQRL.col; try rewrite Rabs_R1; apply e, hi|].
assert (k := nrm_const m 1 ltac:(lra)); lra.
Qed.
Lemma finite_run : (forall j, (j < m)%nat -> colfin m QT j) /\ (forall j, (j < n)%nat -> colfin m R j) /\ Forall (fun p => fin (snd p) = true) norms.
Proof.
assert (m1 : 1 <= INR m) by (replace 1 with (INR 1) by reflexivity; apply le_INR; lia).
assert (hs := msize); assert (mp := mpos).
assert (L1 := itn_le prec emax m ps mp hs n (INR m) ltac:(lra)).
rewrite (grE prec emax ps m n nm) in L1; assert (L2 := itn_ge prec emax m ps mp hs n (INR m) ltac:(lra)).
set (x := qr_len m ps n (INR m)) in *.
destruct (mag radix2 x) as [a ha]; cbn [mag_val] in ha; specialize (ha ltac:(lra)); rewrite Rabs_pos_eq in ha by lra.
assert (a0 : (0 <= a)%Z).
{ assert (k : (0 < a)%Z) by (apply (lt_bpow radix2); simpl bpow at 1; lra); lia. }
assert (rm : INR m * bp (a + 5) <= bp (emax - 1)).
{ replace (a + 5)%Z with (a - 1 + 6)%Z by lia; rewrite bpow_plus; change (bp 6) with 64; apply Rle_trans with (2 := room), Rmult_le_compat_l; lra. }
destruct run as [_ [loop _]].
apply (loop_fin prec emax p0 pe prec1 range range2 fmax fmaxP fused m ps pm mp hs a a0 rm n (seq 0 n) norms _ _ _ _ (INR m) loop).
- apply Forall_forall; intros k hk; apply in_seq in hk; lia.
- exact nt.
- intros j hj; split; [intros i hi; apply id_fin|]; apply Rle_trans with 1; [|exact m1]; apply (id_nrm prec emax p0 pe m j hj).
- exact scaled.
- rewrite seq_length; lra.
Qed.
(** * C94: no overflow *)
Theorem C94_finite : fin scaler = true /\ Forall (fun p => good_norm prec emax (snd p)) norms /\
  (forall i j, (i < m)%nat -> (j < n)%nat -> fin (Qout i j) = true) /\
  (val scaler * qr_len m ps n (INR m) <= bp (emax - 1) -> forall i j, (i < n)%nat -> (j < n)%nat -> fin (Rout i j) = true).
Proof.
destruct scaler_spec as [fs bs]; destruct finite_run as [h1 [h2 h3]].
assert (g : Forall (fun p => good_norm prec emax (snd p)) norms).
{ rewrite Forall_forall in *; intros p hp; split; [apply h3, hp|apply nt, hp]. }
split; [exact fs|split; [exact g|split]].
- intros i j hi hj; destruct run as [_ [_ [-> _]]]; apply h1; lia.
- intros hov i j hi hj.
  assert (fQ : forall i j, (i < m)%nat -> (j < m)%nat -> fin (QT i j) = true) by (intros; apply h1; assumption).
  assert (s0 := scaler_pos prec emax p0 pe prec1 range2 fmax fused _ _ _ _ _ _ _ _ _ _ _ _ _ run fs).
  destruct (the_vs prec emax p0 pe prec1 range range2 fmax fmaxP fused _ _ _ _ _ _ _ _ _ _ _ _ _ nm size run g fQ) as [vs [eQ [eR [hl hv]]]].
  assert (fR := h2 j hj); rewrite eR in fR; destruct (scaled j hj) as [sf sn].
  destruct (sum_cols prec emax p0 pe prec1 fused ps m n nm size vs _ _ j j (INR m) (INR m) hv hl fR fR sn sn) as [b _]; rewrite <- eR in b.
  assert (im : (i < m)%nat) by lia; assert (be := nrm_entry m (col R j) i im).
  destruct run as [_ [_ [_ ->]]]; apply fmul_fin; [exact fs|destruct (Nat.ltb j i); [reflexivity|apply h2; assumption]|].
  apply ovf; try assumption; apply Rle_trans with (2 := hov); rewrite Rabs_mult, (Rabs_pos_eq (val scaler)) by lra.
  apply Rmult_le_compat_l; [lra|]; destruct (Nat.ltb j i); [simpl; rewrite Rabs_R0; apply Rle_trans with (2 := b), nrm_pos|exact (Rle_trans _ _ _ be b)].
Qed.
(* C92 without the hypothesis that the results are finite *)
Theorem C94_orthonormal : forall i j, (i < n)%nat -> (j < n)%nat ->
  Rabs (sum_to m (fun l => val (Qout l i) * val (Qout l j)) - kron i j) <= INR m * (qr_len m ps n 1 ^ 2 - 1).
Proof.
destruct C94_finite as [_ [g _]]; destruct finite_run as [h1 _].
exact (C92_orthonormal prec emax p0 pe prec1 range range2 fmax fmaxP fused _ _ _ _ _ _ _ _ _ _ _ _ _ nm size run g (fun i j hi hj => h1 j hj i hi)).
Qed.
(* C93 without the hypothesis that the results are finite *)
Theorem C94_residual : val scaler * qr_len m ps n (INR m) <= bp (emax - 1) -> forall i j, (i < m)%nat -> (j < n)%nat ->
  let s := val scaler in let a := sqrt (sum_to m (fun l => val (A l j) ^ 2)) in let h := (1 + u) * a / s + INR m * (/ 2 * eta) in
  let N := qr_len m ps n 1 in let H := qr_len m ps n h in
  0 < s /\ Rabs (sum_to n (fun l => val (Qout i l) * val (Rout l j)) - val (A i j)) <=
  s * ((N * H - h) + N * qr_tail m ps n h + u * (N * H)) + INR m * N * (/ 2 * eta) + u * Rabs (val (A i j)) + s * (/ 2 * eta).
Proof.
intro hov; destruct C94_finite as [_ [g [_ fRo]]]; destruct finite_run as [h1 [h2 _]].
exact (C93_residual prec emax p0 pe prec1 range range2 fmax fmaxP fused _ _ _ _ _ _ _ _ _ _ _ _ _ nm size run g (fun i j hi hj => h1 j hj i hi) (fun i j hi hj => h2 j hj i hi) (fRo hov)).
Qed.
End Run.
End FloatQRFProps.
Print Assumptions C94_finite.
Print Assumptions C94_orthonormal.
Print Assumptions C94_residual.

(* (3 1; 4 2) in double precision meets the hypotheses *)
Lemma room_2 : qr_len 53 1024 2 0 2 2 <= 3.
Proof.
unfold qr_len, qr_r, qr_F, qr_E, qr_d, qr_s, u, eta; simpl bpow; change ((2 + 0) / 2 + 8)%nat with 9%nat; change (2 + 2)%nat with 4%nat; simpl INR.
replace (bpow radix2 (3 - 1024 - 53)) with (powerRZ 2 (-1074)) by (rewrite bpow_powerRZ; reflexivity).
interval with (i_prec 120).
Qed.
Example C94_example : INR 2 * (64 * qr_len 53 1024 2 0 2 (INR 2)) <= bpow radix2 (1024 - 1) /\ B2R (dscaler 2 2 m3142) * qr_len 53 1024 2 0 2 (INR 2) <= bpow radix2 (1024 - 1) /\
  (forall i j, (i < 2)%nat -> (j < 2)%nat -> is_finite (m3142 i j) = true) /\ Forall (fun p => not_tiny 53 1024 (snd p)) (fst (dqr 2 2 m3142)).
Proof.
assert (h := room_2); simpl (INR 2); assert (k : 1024 <= bpow radix2 (1024 - 1)) by (apply Rle_trans with (bpow radix2 10); [simpl; lra|apply bpow_le; lia]).
replace (1 + 1) with 2 by ring; split; [lra|split; [|split]].
- assert (e : B2R (dscaler 2 2 m3142) = 4) by (dval; lra); rewrite e; lra.
- intros [|[|i]] [|[|j]] hi hj; try lia; reflexivity.
- destruct C92_example as [_ [_ [_ [g _]]]]; rewrite Forall_forall in *; intros p hp; apply g, hp.
Qed.
