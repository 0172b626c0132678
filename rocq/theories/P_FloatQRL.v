(* Lemmas for C92 and C93: the loop of the QR decomposition in floating point. *)
From Coq Require Import ZArith List Arith Bool Reals Lia Lra Psatz.
From Flocq Require Import Core IEEE754.BinarySingleNaN.
From Verif Require Import M_Float P_Float P_FloatD M_FloatN P_FloatN M_FloatS M_FloatLU P_FloatLU P_FloatTri P_FloatDec M_FloatQR Props_Float Props_FloatN Props_FloatS P_Norm P_FloatQR P_FloatHH.
Import ListNotations.
Local Open Scope R_scope.

(** * Rows and columns of a nearly orthogonal matrix *)
Section Gram.
Variable m : nat.
Notation S f := (lsum f (seq 0 m)).
Lemma lsum_mul f g : S f * S g = S (fun i => S (fun j => f i * g j)).
Proof.
rewrite Rmult_comm, <- lsum_scal; apply lsum_ext; intros i _; rewrite lsum_scal; ring.
Qed.
Lemma lsum_one f i : (i < m)%nat -> (forall k, (k < m)%nat -> 0 <= f k) -> f i <= S f.
Proof.
intros hi h; replace (seq 0 m) with (seq 0 i ++ i :: seq (Datatypes.S i) (m - i - 1)).
- rewrite lsum_app; unfold lsum at 2; simpl; fold (lsum f (seq (Datatypes.S i) (m - i - 1))).
  assert (0 <= lsum f (seq 0 i)) by (apply lsum_pos; intros k hk; apply h; apply in_seq in hk; lia).
  assert (0 <= lsum f (seq (Datatypes.S i) (m - i - 1))) by (apply lsum_pos; intros k hk; apply h; apply in_seq in hk; lia); lra.
- change (i :: seq (Datatypes.S i) (m - i - 1)) with (seq i (Datatypes.S (m - i - 1))); rewrite <- seq_app; f_equal; lia.
Qed.
Definition delta (i j : nat) : R := if Nat.eqb i j then 1 else 0.
Lemma lsum_delta f i : (i < m)%nat -> S (fun k => delta i k * f k) = f i.
Proof.
intro hi; rewrite <- (dot_basis m i f hi); apply lsum_ext; intros k _; unfold delta; rewrite Nat.eqb_sym; reflexivity.
Qed.
Lemma frob (G : nat -> nat -> R) : S (fun i => S (fun j => (G i j - delta i j) ^ 2)) =
  S (fun i => S (fun j => G i j * G i j)) - 2 * S (fun i => G i i) + INR m.
Proof.
assert (e : forall i, (i < m)%nat -> S (fun j => (G i j - delta i j) ^ 2) = S (fun j => G i j * G i j) + (-2 * G i i + 1)).
{ intros i hi; rewrite (lsum_ext _ (fun j => G i j * G i j + delta i j * (-2 * G i j + 1))).
  - rewrite lsum_plus, (lsum_delta (fun j => -2 * G i j + 1) i hi); reflexivity.
  - intros j _; unfold delta; destruct (Nat.eqb i j); ring. }
rewrite (lsum_ext _ (fun i => S (fun j => G i j * G i j) + (-2 * G i i + 1))) by (intros i hi; apply in_seq in hi; apply e; lia).
rewrite !lsum_plus, lsum_scal; replace (S (fun _ => 1)) with (INR m); [ring|].
clear; rewrite <- (seq_length m 0) at 1; induction (seq 0 m) as [|x l IH]; [reflexivity|]; unfold lsum in *; simpl fold_right; rewrite <- IH.
change (length (x :: l)) with (Datatypes.S (length l)); rewrite S_INR; ring.
Qed.
Lemma gram (X : nat -> nat -> R) e : (forall i j, (i < m)%nat -> (j < m)%nat -> Rabs (S (fun k => X k i * X k j) - delta i j) <= e) ->
  forall i j, (i < m)%nat -> (j < m)%nat -> Rabs (S (fun k => X i k * X j k) - delta i j) <= INR m * e.
Proof.
intros h i j hi hj.
set (C := fun i j => S (fun k => X k i * X k j)); set (W := fun i j => S (fun k => X i k * X j k)).
assert (e0 : 0 <= e) by (apply Rle_trans with (2 := h i j hi hj), Rabs_pos).
assert (tr : S (fun i => W i i) = S (fun i => C i i)) by (unfold W, C; apply lsum_swap).
assert (sq : S (fun i => S (fun j => W i j * W i j)) = S (fun i => S (fun j => C i j * C i j))).
{ transitivity (S (fun i => S (fun j => S (fun k => S (fun l => (X i k * X i l) * (X j k * X j l)))))).
  - apply lsum_ext; intros a _; apply lsum_ext; intros b _; unfold W; rewrite lsum_mul; apply lsum_ext; intros k _; apply lsum_ext; intros l _; ring.
  - symmetry; transitivity (S (fun k => S (fun l => S (fun i => S (fun j => (X i k * X i l) * (X j k * X j l)))))).
    + apply lsum_ext; intros k _; apply lsum_ext; intros l _; unfold C; rewrite lsum_mul; reflexivity.
    + transitivity (S (fun k => S (fun i => S (fun l => S (fun j => (X i k * X i l) * (X j k * X j l)))))).
      { apply lsum_ext; intros k _; apply (lsum_swap (fun l i => S (fun j => (X i k * X i l) * (X j k * X j l)))). }
      rewrite (lsum_swap (fun k i => S (fun l => S (fun j => (X i k * X i l) * (X j k * X j l))))); apply lsum_ext; intros a _.
      transitivity (S (fun k => S (fun j => S (fun l => (X a k * X a l) * (X j k * X j l))))).
      { apply lsum_ext; intros k _; apply (lsum_swap (fun l j => (X a k * X a l) * (X j k * X j l))). }
      apply (lsum_swap (fun k j => S (fun l => (X a k * X a l) * (X j k * X j l)))). }
assert (fr : S (fun i => S (fun j => (W i j - delta i j) ^ 2)) = S (fun i => S (fun j => (C i j - delta i j) ^ 2))) by (rewrite !frob, tr, sq; reflexivity).
assert (cn : forall c n, lsum (fun _ => c) (seq 0 n) = INR n * c).
{ clear; intros c n; rewrite <- (seq_length n 0) at 2; induction (seq 0 n) as [|x l IH]; [unfold lsum; simpl; ring|]; unfold lsum in *; simpl fold_right; rewrite IH.
  change (length (x :: l)) with (Datatypes.S (length l)); rewrite S_INR; ring. }
assert (up : S (fun i => S (fun j => (C i j - delta i j) ^ 2)) <= (INR m * e) ^ 2).
{ apply Rle_trans with (S (fun _ => S (fun _ => e ^ 2))).
  - apply lsum_le; intros a ha; apply lsum_le; intros b hb; apply in_seq in ha; apply in_seq in hb.
    rewrite <- (pow2_abs (C a b - delta a b)); apply pow_incr; split; [apply Rabs_pos|apply h; lia].
  - rewrite !cn; apply Req_le; ring. }
assert (lo : (W i j - delta i j) ^ 2 <= S (fun i => S (fun j => (W i j - delta i j) ^ 2))).
{ apply Rle_trans with (S (fun j => (W i j - delta i j) ^ 2)).
  - apply (lsum_one (fun j => (W i j - delta i j) ^ 2) j hj); intros; apply pow2_ge_0.
  - apply (lsum_one (fun i => S (fun j => (W i j - delta i j) ^ 2)) i hi); intros; apply lsum_pos; intros; apply pow2_ge_0. }
fold (W i j); assert (n0 := pos_INR m); assert (0 <= INR m * e) by (apply Rmult_le_pos; assumption).
apply Rsqr_incr_0_var; [|assumption]; rewrite <- Rsqr_abs, !Rsqr_pow2; lra.
Qed.
End Gram.

Section FloatQRL.
Variables prec emax : Z.
Context (p0 : Prec_gt_0 prec) (pe : Prec_lt_emax prec emax).
Hypothesis prec1 : (1 < prec)%Z.
Hypothesis range : (3 * prec <= emax)%Z.
Hypothesis range2 : (prec + 7 <= emax)%Z.
Notation float := (binary_float prec emax).
Notation val := (@B2R prec emax).
Notation fin := (@is_finite prec emax).
Notation u := (u prec).
Notation eta := (eta prec emax).
Notation fmat := (fmat prec emax).
Variable fmax : float -> float -> float.
Hypothesis fmaxP : forall x y : float, is_nan x = false -> is_nan y = false -> fmax x y = if flt prec emax x y then y else x.
Variable fused : bool.
Notation freflect := (freflect prec emax p0 pe fused).
Notation fhouseholder := (fhouseholder prec emax p0 pe fmax).
Notation fqr_loop := (fqr_loop prec emax p0 pe fmax fused).
Variables (m ps pm : nat).
Hypothesis m0 : (0 < m)%nat.
Hypothesis size : INR (KK m ps + 3) * u <= / 8.
Notation dd := (dd prec m ps).
Notation E := (EE prec m dd).
Notation F := (FF prec emax m dd).
Notation tau := (tau prec m ps).
Definition rr : R := 1 + 2 * dd + E.
Definition ok (nu : float) : Prop := fin nu = true /\ (val nu = 0 \/ bpow radix2 (3 - emax + prec) <= val nu).
Definition col (X : fmat) (j : nat) : nat -> R := fun i => val (X i j).
Definition colfin (X : fmat) (j : nat) : Prop := forall i, (i < m)%nat -> fin (X i j) = true.
Definition refl (vs : list (nat -> float)) (X : fmat) : fmat := fold_left (fun X v => freflect m v X) vs X.
Definition unitary (v : nat -> float) : Prop := Rabs (dot m (fun i => val (v i)) (fun i => val (v i)) - 1) <= dd.

Lemma E0 : 0 <= E.
Proof. unfold EE; assert (g := gm0 prec m); assert (d := dd0 prec m ps m0 size); assert (0 < u) by apply bpow_gt_0; assert (0 <= gm prec m * (1 + dd)) by (apply Rmult_le_pos; lra); lra. Qed.
Lemma F0 : 0 <= F.
Proof.
unfold FF; assert (d := dd0 prec m ps m0 size); assert (0 < u) by apply bpow_gt_0; assert (0 < eta) by apply bpow_gt_0.
assert (0 <= (1 + u) ^ (m + 2)) by (apply pow_le; lra); assert (n := pos_INR m); repeat apply Rmult_le_pos; lra.
Qed.
Lemma rr1 : 1 <= rr.
Proof. unfold rr; assert (e := E0); assert (d := dd0 prec m ps m0 size); lra. Qed.

(* the bounds after n reflections *)
Fixpoint itn (n : nat) (x : R) : R := match n with 0%nat => x | S n => itn n (rr * x + F) end.
Definition gr (n : nat) (x : R) : R := rr ^ n * (x + INR n * F).
Lemma itn_le n x : 0 <= x -> itn n x <= gr n x.
Proof.
unfold gr; assert (f := F0); assert (r := rr1); revert x; induction n as [|n IH]; intros x hx; [simpl; lra|].
simpl itn; apply Rle_trans with (1 := IH (rr * x + F) ltac:(nra)); rewrite S_INR; simpl pow.
assert (q : 0 <= rr ^ n) by (apply pow_le; lra); assert (n0 := pos_INR n).
replace (rr * rr ^ n * (x + (INR n + 1) * F)) with (rr ^ n * (rr * (x + (INR n + 1) * F))) by ring; apply Rmult_le_compat_l; [exact q|].
assert (0 <= (rr - 1) * ((INR n + 1) * F)) by (apply Rmult_le_pos; [lra|apply Rmult_le_pos; lra]); lra.
Qed.
Lemma itn_mono n x y : x <= y -> itn n x <= itn n y.
Proof. assert (r := rr1); revert x y; induction n as [|n IH]; intros x y h; [exact h|]; simpl; apply IH; nra. Qed.
Lemma gr_mono k n x y : (k <= n)%nat -> 0 <= x <= y -> gr k x <= gr n y.
Proof.
intros kn [h0 h]; unfold gr; assert (r := rr1); assert (f := F0); assert (n0 := pos_INR k).
apply Rmult_le_compat; [apply pow_le; lra|nra|apply Rle_pow; assumption|].
assert (INR k * F <= INR n * F) by (apply Rmult_le_compat_r; [exact f|apply le_INR, kn]); lra.
Qed.

Lemma refl_fin vs X j : colfin (refl vs X) j -> colfin X j /\ Forall (fun v => forall i, (i < m)%nat -> fin (v i) = true) vs.
Proof.
revert X; induction vs as [|v vs IH]; intros X h; [auto|]; destruct (IH (freflect m v X) h) as [h1 h2].
destruct (reflect_element prec emax p0 pe prec1 fused m v X 0 j m0 (h1 0%nat m0)) as [_ [_ [h3 _]]].
split; [intros i hi; apply (h3 i hi)|constructor; [intros i hi; apply (h3 i hi)|exact h2]].
Qed.
Lemma step_bound v X j b M : colfin (freflect m v X) j -> unitary v -> (forall i, b i = false -> val (v i) = 0) -> nrm m (msk b (col X j)) <= M ->
  nrm m (fun i => msk b (col (freflect m v X) j) i - reflect m (fun i => val (v i)) (msk b (col X j)) i) <= E * M + F.
Proof.
intros hf hu hb hM; apply Rle_trans with (1 := column_step prec emax p0 pe prec1 fused m v X j b dd m0 (dd0 prec m ps m0 size) hf hb hu).
apply Rplus_le_compat_r, Rmult_le_compat_l; [apply E0|exact hM].
Qed.
Lemma refl_dot vs : Forall unitary vs -> forall X Y i j M N, colfin (refl vs X) i -> colfin (refl vs Y) j -> nrm m (col X i) <= M -> nrm m (col Y j) <= N ->
  nrm m (col (refl vs X) i) <= itn (length vs) M /\ nrm m (col (refl vs Y) j) <= itn (length vs) N /\
  Rabs (dot m (col (refl vs X) i) (col (refl vs Y) j) - dot m (col X i) (col Y j)) <= itn (length vs) M * itn (length vs) N - M * N.
Proof.
induction vs as [|v vs IH]; intros hv X Y i j M N fX fY hM hN.
- simpl; rewrite !Rminus_diag_eq, Rabs_R0 by reflexivity; repeat split; [exact hM|exact hN|lra].
- inversion hv as [|? ? hv1 hv2]; subst; cbn [length itn].
  destruct (refl_fin vs (freflect m v X) i fX) as [fX1 _]; destruct (refl_fin vs (freflect m v Y) j fY) as [fY1 _].
  assert (a := step_bound v X i (fun _ => true) M fX1 hv1 ltac:(discriminate) hM).
  assert (b := step_bound v Y j (fun _ => true) N fY1 hv1 ltac:(discriminate) hN).
  destruct (step_dot m dd (fun i => val (v i)) (dd0 prec m ps m0 size) hv1 (col X i) (col Y j) (col (freflect m v X) i) (col (freflect m v Y) j) M N (rr * M + F) (rr * N + F) _ _ hM hN a b) as [k1 [k2 k3]].
  { unfold rr; lra. }
  { unfold rr; lra. }
  destruct (IH hv2 (freflect m v X) (freflect m v Y) i j _ _ fX fY k1 k2) as [h1 [h2 h3]].
  split; [exact h1|split; [exact h2|]].
  change (refl (v :: vs) X) with (refl vs (freflect m v X)); change (refl (v :: vs) Y) with (refl vs (freflect m v Y)).
  replace (dot m (col (refl vs (freflect m v X)) i) (col (refl vs (freflect m v Y)) j) - dot m (col X i) (col Y j)) with
    ((dot m (col (refl vs (freflect m v X)) i) (col (refl vs (freflect m v Y)) j) - dot m (col (freflect m v X) i) (col (freflect m v Y) j)) +
     (dot m (col (freflect m v X) i) (col (freflect m v Y) j) - dot m (col X i) (col Y j))) by ring.
  apply Rle_trans with (1 := Rabs_triang _ _); lra.
Qed.
Lemma refl_mask b vs : Forall (fun v => unitary v /\ forall i, b i = false -> val (v i) = 0) vs -> forall X j M, colfin (refl vs X) j -> nrm m (msk b (col X j)) <= M ->
  nrm m (msk b (col (refl vs X) j)) <= itn (length vs) M.
Proof.
induction vs as [|v vs IH]; intros hv X j M fX hM; [exact hM|].
inversion hv as [|? ? [hv1 hv3] hv2]; subst; cbn [length itn]; destruct (refl_fin vs (freflect m v X) j fX) as [fX1 _].
apply (IH hv2 (freflect m v X) j _ fX).
assert (a := step_bound v X j b M fX1 hv1 hv3 hM).
destruct (step_dot m dd (fun i => val (v i)) (dd0 prec m ps m0 size) hv1 (msk b (col X j)) (msk b (col X j)) (msk b (col (freflect m v X) j)) (msk b (col (freflect m v X) j)) M M (rr * M + F) (rr * M + F) _ _ hM hM a a) as [k1 _];
  [unfold rr; lra|unfold rr; lra|exact k1].
Qed.

(** * The loop *)
Lemma loop_app ks1 ks2 : forall norms st st', fqr_loop pm ps m (ks1 ++ ks2) norms st st' ->
  exists n1 n2 st1, norms = n1 ++ n2 /\ fqr_loop pm ps m ks1 n1 st st1 /\ fqr_loop pm ps m ks2 n2 st1 st'.
Proof.
induction ks1 as [|k ks1 IH]; intros norms st st' h.
- exists [], norms, st; repeat split; exact h.
- destruct norms as [|[nx nu] norms]; [destruct h|]; destruct h as [v [h1 h2]]; destruct (IH _ _ _ h2) as [n1 [n2 [st1 [e1 [e2 e3]]]]].
  exists ((nx, nu) :: n1), n2, st1; repeat split; [rewrite e1; reflexivity|exists v; auto|exact e3].
Qed.
Lemma loop_vs ks : forall norms QT R QT' R' j, fqr_loop pm ps m ks norms (QT, R) (QT', R') -> Forall (fun k => (k < m)%nat) ks -> Forall (fun n => ok (snd n)) norms ->
  colfin QT' j -> exists vs, QT' = refl vs QT /\ R' = refl vs R /\ length vs = length ks /\
  Forall unitary vs /\ (forall k0, Forall (fun k => (k0 <= k)%nat) ks -> Forall (fun v => forall i, (i < k0)%nat -> val (v i) = 0) vs).
Proof.
induction ks as [|k ks IH]; intros norms QT R QT' R' j h hk hn hf.
- destruct norms as [|? ?]; [|destruct h]; injection h as -> ->; exists []; repeat split; auto.
- destruct norms as [|[nx nu] norms]; [destruct h|]; destruct h as [v [h1 h2]]; cbn [fst snd] in *.
  inversion hk as [|? ? k1 k2]; subst; inversion hn as [|? ? [n1 n2] n3]; subst; cbn [snd] in *.
  destruct (IH _ _ _ _ _ j h2 k2 n3 hf) as [vs [e1 [e2 [e3 [e4 e5]]]]].
  assert (fv : forall i, (i < m)%nat -> fin (v i) = true).
  { change (refl vs (freflect m v QT)) with (refl (v :: vs) QT) in e1; rewrite e1 in hf; destruct (refl_fin _ _ _ hf) as [_ h3]; inversion h3; assumption. }
  exists (v :: vs); split; [exact e1|split; [exact e2|split; [simpl; rewrite e3; reflexivity|split]]].
  + constructor; [|exact e4]; exact (hh_unit prec emax p0 pe prec1 range range2 fmax fmaxP m ps pm m0 size R k nx nu v k1 h1 n1 n2 fv).
  + intros k0 hk0; inversion hk0 as [|? ? g1 g2]; subst; constructor; [|apply e5, g2].
    intros i hi; apply (hh_zero prec emax p0 pe fmax m ps pm m0 R k nx nu v k1 h1 n1 i); lia.
Qed.
(* the part below the diagonal, before it is set to zero *)
Lemma loop_tail n norms QT R QT' R' j M : (n <= m)%nat -> fqr_loop pm ps m (seq 0 n) norms (QT, R) (QT', R') -> Forall (fun n => ok (snd n)) norms ->
  colfin QT' 0 -> (j < n)%nat -> colfin R' j -> nrm m (col R j) <= M -> 
  nrm m (msk (fun i => Nat.ltb j i) (col R' j)) <= rr ^ n * ((tau + E) * (M + INR n * F) + INR n * F).
Proof.
intros nm h hn fQ hj fR hM.
replace (seq 0 n) with (seq 0 j ++ j :: seq (S j) (n - j - 1)) in h.
2: { change (j :: seq (S j) (n - j - 1)) with (seq j (S (n - j - 1))); rewrite <- seq_app; f_equal; lia. }
destruct (loop_app _ _ _ _ _ h) as [n1 [n2 [[Q1 R1] [en [h1 h2]]]]]; subst norms; apply Forall_app in hn; destruct hn as [o1 o2].
destruct n2 as [|[nx nu] n2]; [destruct h2|]; destruct h2 as [v [h2 h3]]; cbn [fst snd] in *; inversion o2 as [|? ? [o3 o4] o5]; subst; cbn [snd] in *.
destruct (loop_vs _ _ _ _ _ _ 0 h3) as [vs [e1 [e2 [e3 [e4 e5]]]]]; [apply Forall_forall; intros x hx; apply in_seq in hx; lia|exact o5|exact fQ|].
subst QT' R'; destruct (refl_fin _ _ _ fQ) as [fQ1 _]; destruct (refl_fin _ _ _ fR) as [fR1 _].
assert (fQ2 := fQ1); change (freflect m v Q1) with (refl [v] Q1) in fQ2; destruct (refl_fin _ _ _ fQ2) as [fQ3 fv]; inversion fv as [|? ? fv1 _]; subst; clear fv fQ2.
assert (fR2 := fR1); change (freflect m v R1) with (refl [v] R1) in fR2; destruct (refl_fin _ _ _ fR2) as [fR3 _]; clear fR2.
destruct (loop_vs _ _ _ _ _ _ 0 h1) as [ws [g1 [g2 [g3 [g4 _]]]]]; [apply Forall_forall; intros x hx; apply in_seq in hx; lia|exact o1|exact fQ3|].
rewrite seq_length in e3, g3.
assert (hj' : (j < m)%nat) by lia.
assert (B1 : nrm m (col R1 j) <= itn j M).
{ rewrite g2 in *; destruct (refl_dot ws g4 R R j j M M fR3 fR3 hM hM) as [k1 _]; rewrite g3 in k1; exact k1. }
assert (M0 : 0 <= M) by (apply Rle_trans with (2 := hM), nrm_pos).
assert (B2 := Rle_trans _ _ _ B1 (itn_le j M M0)).
assert (B3 : nrm m (xh prec emax R1 j) <= gr j M).
{ apply Rle_trans with (2 := B2); rewrite <- (nrm_abs m (col R1 j)); apply nrm_le; intros i _; unfold xh, msk, col; destruct (Nat.leb j i); [apply Rle_refl|rewrite Rabs_R0; apply Rabs_pos]. }
assert (uv := hh_unit prec emax p0 pe prec1 range range2 fmax fmaxP m ps pm m0 size R1 j nx nu v hj' h2 o3 o4 fv1).
assert (zv := hh_zero prec emax p0 pe fmax m ps pm m0 R1 j nx nu v hj' h2 o3).
assert (tv := hh_tail prec emax p0 pe prec1 range range2 fmax fmaxP m ps pm m0 size R1 j nx nu v hj' h2 fR3 o3 o4 fv1).
assert (c := step_bound v R1 j (fun i => Nat.leb j i) _ fR1 uv ltac:(intros i hi; apply Nat.leb_gt in hi; apply zv, hi) B3).
change (msk (fun i => Nat.leb j i) (col R1 j)) with (xh prec emax R1 j) in c.
assert (t0 := tau0 prec m ps m0 size); assert (E0' := E0); assert (f := F0); assert (r := rr1).
assert (G0 : 0 <= gr j M) by (apply Rle_trans with (2 := B3), nrm_pos).
assert (B4 : nrm m (msk (fun i => Nat.ltb j i) (col (freflect m v R1) j)) <= (tau + E) * gr j M + F).
{ set (q := fun i => msk (fun i => Nat.leb j i) (col (freflect m v R1) j) i - reflect m (fun i => val (v i)) (xh prec emax R1 j) i) in *.
  set (p := reflect m (fun i => val (v i)) (xh prec emax R1 j)) in *.
  rewrite (nrm_ext m _ (fun i => msk (fun i => Nat.ltb j i) p i + msk (fun i => Nat.ltb j i) q i)).
  - apply Rle_trans with (1 := triangle _ _ _).
    assert (k1 : nrm m (msk (fun i => Nat.ltb j i) q) <= E * gr j M + F).
    { apply Rle_trans with (2 := c); rewrite <- (nrm_abs m q); apply nrm_le; intros i _; unfold msk; destruct (Nat.ltb j i); [apply Rle_refl|rewrite Rabs_R0; apply Rabs_pos]. }
    assert (k2 := Rmult_le_compat_l tau _ _ t0 B3); change (nrm m (fun i => msk (fun i => Nat.ltb j i) p i)) with (nrm m (msk (fun i => Nat.ltb j i) p)) ; change (nrm m (fun i => msk (fun i => Nat.ltb j i) q i)) with (nrm m (msk (fun i => Nat.ltb j i) q)); lra.
  - intros i _; unfold msk, q, p, msk; destruct (Nat.ltb_spec j i); [|ring]; destruct (Nat.leb_spec j i); [ring|lia]. }
assert (B5 : nrm m (msk (fun i => Nat.ltb j i) (col (refl vs (freflect m v R1)) j)) <= itn (length vs) ((tau + E) * gr j M + F)).
{ apply refl_mask; [|exact fR|exact B4].
  apply Forall_forall; intros x hx; split; [rewrite Forall_forall in e4; apply e4, hx|].
  assert (e6 := e5 (S j)); rewrite !Forall_forall in e6; intros i hi; apply Nat.ltb_ge in hi; apply (e6 ltac:(intros y hy; apply in_seq in hy; lia) x hx i); lia. }
assert (x0 : 0 <= (tau + E) * gr j M + F) by (assert (0 <= (tau + E) * gr j M) by (apply Rmult_le_pos; lra); lra).
apply Rle_trans with (1 := B5); rewrite e3; apply Rle_trans with (1 := itn_le _ _ x0).
unfold gr; set (a := (n - j - 1)%nat).
assert (p1 : 1 <= rr ^ a) by (apply pow_R1_Rle; exact r); assert (p2 : 1 <= rr ^ j) by (apply pow_R1_Rle; exact r).
assert (p3 : rr ^ a * rr ^ j <= rr ^ n) by (rewrite <- pow_add; apply Rle_pow; [exact r|unfold a; lia]).
assert (p4 : rr ^ a <= rr ^ n) by (apply Rle_pow; [exact r|unfold a; lia]).
assert (j1 : INR j * F <= INR n * F) by (apply Rmult_le_compat_r; [exact f|apply le_INR; lia]).
assert (j2 : F + INR a * F <= INR n * F).
{ replace (F + INR a * F) with (INR (S a) * F) by (rewrite S_INR; ring); apply Rmult_le_compat_r; [exact f|apply le_INR; unfold a; lia]. }
assert (j0 : 0 <= INR j * F) by (apply Rmult_le_pos; [apply pos_INR|exact f]); assert (a0 : 0 <= INR a * F) by (apply Rmult_le_pos; [apply pos_INR|exact f]).
apply Rle_trans with (rr ^ a * rr ^ j * ((tau + E) * (M + INR j * F)) + rr ^ a * (F + INR a * F)); [apply Req_le; ring|].
replace (rr ^ n * ((tau + E) * (M + INR n * F) + INR n * F)) with (rr ^ n * ((tau + E) * (M + INR n * F)) + rr ^ n * (INR n * F)) by ring.
apply Rplus_le_compat; apply Rmult_le_compat; try (apply Rmult_le_pos); try lra; try (apply Rmult_le_compat_l; lra).
Qed.
End FloatQRL.
