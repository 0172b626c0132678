(* Lemmas for C92 and C93: no overflow in the QR decomposition of a finite matrix. *)
From Coq Require Import ZArith List Arith Bool Reals Lia Lra Psatz.
From Flocq Require Import Core IEEE754.BinarySingleNaN.
From Verif Require Import M_Float P_Float P_FloatD M_FloatN P_FloatN M_FloatS M_FloatLU P_FloatLU P_FloatTri P_FloatDec M_FloatQR Props_Float Props_FloatN Props_FloatS P_Norm P_FloatQR P_FloatHH P_FloatQRL.
Import ListNotations.
Local Open Scope R_scope.

Section FloatQRF.
Variables prec emax : Z.
Context (p0 : Prec_gt_0 prec) (pe : Prec_lt_emax prec emax).
Hypothesis prec1 : (1 < prec)%Z.
Hypothesis range : (3 * prec <= emax)%Z.
Hypothesis range2 : (prec + 7 <= emax)%Z.
Notation float := (binary_float prec emax).
Notation val := (@B2R prec emax).
Notation fin := (@is_finite prec emax).
Notation u := (u prec).
Notation eta := (eta prec emax).
Notation RN := (round radix2 (FLT_exp (SpecFloat.emin prec emax) prec) ZnearestE).
Notation format := (generic_format radix2 (FLT_exp (SpecFloat.emin prec emax) prec)).
Notation bp := (bpow radix2).
Notation fmat := (fmat prec emax).
Variable fmax : float -> float -> float.
Hypothesis fmaxP : forall x y : float, is_nan x = false -> is_nan y = false -> fmax x y = if flt prec emax x y then y else x.
Variable fused : bool.
Notation freflect := (freflect prec emax p0 pe fused).
Notation fhouseholder := (fhouseholder prec emax p0 pe fmax).
Notation fqr_loop := (fqr_loop prec emax p0 pe fmax fused).
Notation frun := (frun prec emax p0 pe fused).
Notation fmadd := (fmadd prec emax p0 pe fused).
Notation fmul := (fmul prec emax p0 pe).
Notation fadd := (fadd prec emax p0 pe).
Notation fsub := (fsub prec emax p0 pe).
Notation fdiv := (fdiv prec emax p0 pe).
Notation ftwo := (ftwo prec emax p0 pe).
Notation fone := (fone prec emax p0 pe).
Notation fzero := (fzero prec emax).
Notation elements := (elements prec emax).
Notation flength_precise := (flength_precise prec emax p0 pe fmax).

Lemma format_bp e : (SpecFloat.emin prec emax <= e)%Z -> format (bp e).
Proof. intro h; apply generic_format_bpow; unfold FLT_exp; generalize p0; unfold Prec_gt_0; lia. Qed.
Lemma RNb x y : format y -> 0 <= y -> Rabs x <= y -> Rabs (RN x) <= y.
Proof. intros fy y0 h; rewrite <- (Rabs_pos_eq y y0); apply RN_le; [exact p0|exact fy|rewrite (Rabs_pos_eq y y0); exact h]. Qed.
Lemma ovf t : Rabs t <= bp (emax - 1) -> Rabs (RN t) < bp emax.
Proof.
intro h; apply Rle_lt_trans with (bp (emax - 1)); [|apply bpow_lt; lia].
apply RNb; [apply format_bp; unfold SpecFloat.emin; lia|apply bpow_ge_0|exact h].
Qed.
Lemma format_nat k q : (SpecFloat.emin prec emax <= q)%Z -> INR k <= bp prec -> format (INR k * bp q).
Proof.
intros hq hk; rewrite INR_IZR_INZ in *; apply format_multiple; [exact prec1|exact hq|].
rewrite bpow_plus, Rabs_mult, (Rabs_pos_eq (bp q)) by apply bpow_ge_0; apply Rmult_le_compat_r; [apply bpow_ge_0|].
rewrite Rabs_pos_eq; [exact hk|apply IZR_le; lia].
Qed.

Section Run.
Variable q : Z.
Hypothesis hq : (SpecFloat.emin prec emax <= q)%Z.
Definition small (p : float * float) : Prop := fin (fst p) = true /\ fin (snd p) = true /\ Rabs (val (fst p) * val (snd p)) <= bp q.
Lemma small_mul p : bp q <= bp (emax - 1) -> small p -> fin (fmul (fst p) (snd p)) = true /\ Rabs (val (fmul (fst p) (snd p))) <= bp q.
Proof.
intros hl [h1 [h2 h3]]; assert (f : fin (fmul (fst p) (snd p)) = true) by (apply fmul_fin; [exact h1|exact h2|apply ovf; lra]).
split; [exact f|]; rewrite (fmul_val _ _ _ _ _ _ f); apply RNb; [apply format_bp, hq|apply bpow_ge_0|exact h3].
Qed.
Lemma run_step l : forall k acc, Forall small l -> (0 < k)%nat -> INR (k + length l) <= bp prec -> INR (k + length l) * bp q <= bp (emax - 1) ->
  fin acc = true -> Rabs (val acc) <= INR k * bp q ->
  let r := fold_left (fun acc p => fmadd (fst p) (snd p) acc) l acc in fin r = true /\ Rabs (val r) <= INR (k + length l) * bp q.
Proof.
assert (bq := bpow_gt_0 radix2 q).
induction l as [|p l IH]; intros k acc hs k0 h1 h2 fa ha; cbv zeta; [simpl; rewrite Nat.add_0_r; auto|].
inversion hs as [|? ? s1 s2]; subst; cbn [fold_left length] in *; replace (k + S (length l))%nat with (S k + length l)%nat in * by lia.
assert (le : INR (S k) <= INR (S k + length l)) by (apply le_INR; lia).
assert (l2 : INR (S k) * bp q <= bp (emax - 1)) by (apply Rle_trans with (2 := h2), Rmult_le_compat_r; lra).
assert (k1 : 1 <= INR k) by (replace 1 with (INR 1) by reflexivity; apply le_INR; lia).
assert (l3 : bp q <= bp (emax - 1)) by (rewrite S_INR in l2; nra).
assert (fS : format (INR (S k) * bp q)) by (apply format_nat; [exact hq|lra]).
assert (p1 : 0 <= INR (S k) * bp q) by (apply Rmult_le_pos; [apply pos_INR|lra]).
assert (G : fin (fmadd (fst p) (snd p) acc) = true /\ Rabs (val (fmadd (fst p) (snd p) acc)) <= INR (S k) * bp q).
{ unfold M_FloatS.fmadd; destruct fused.
  - destruct s1 as [g1 [g2 g3]]; assert (t : Rabs (val (fst p) * val (snd p) + val acc) <= INR (S k) * bp q).
    { apply Rle_trans with (1 := Rabs_triang _ _); rewrite S_INR; lra. }
    assert (f : fin (ffma prec emax p0 pe (fst p) (snd p) acc) = true) by (apply ffma_fin; [exact g1|exact g2|exact fa|apply ovf; lra]).
    split; [exact f|]; rewrite (ffma_val _ _ _ _ _ _ _ f); apply RNb; assumption.
  - destruct (small_mul p l3 s1) as [g1 g2]; set (t := fmul (fst p) (snd p)) in *.
    assert (tb : Rabs (val t + val acc) <= INR (S k) * bp q) by (apply Rle_trans with (1 := Rabs_triang _ _); rewrite S_INR; lra).
    assert (f : fin (fadd t acc) = true) by (apply fadd_fin; [exact g1|exact fa|apply ovf; lra]).
    split; [exact f|]; rewrite (fadd_val _ _ _ _ _ _ f); apply RNb; assumption. }
destruct G as [G1 G2]; apply IH; auto; lia.
Qed.
Lemma run_fwd a b : length a = length b -> Forall small (combine a b) -> INR (length a) <= bp prec -> INR (length a) * bp q <= bp (emax - 1) ->
  fin (frun a b) = true /\ Rabs (val (frun a b)) <= INR (length a) * bp q.
Proof.
intros L hs h1 h2; assert (lc : length (combine a b) = length a) by (rewrite combine_length, <- L; lia); rewrite <- lc in *.
assert (bq := bpow_gt_0 radix2 q).
unfold M_FloatS.frun; destruct (combine a b) as [|p l]; [simpl; rewrite Rabs_R0, Rmult_0_l; split; [reflexivity|lra]|].
inversion hs as [|? ? s1 s2]; subst; cbn [length] in *.
assert (l3 : bp q <= bp (emax - 1)) by (rewrite S_INR in h2; generalize (pos_INR (length l)); nra).
destruct (small_mul p l3 s1) as [g1 g2].
apply (run_step l 1 _ s2); try assumption; [lia|simpl INR; lra].
Qed.
End Run.

Variables (m ps pm : nat).
Hypothesis m0 : (0 < m)%nat.
Hypothesis size : INR (KK m ps + 3) * u <= / 8.
Variable a : Z.
Hypothesis a0 : (0 <= a)%Z.
Hypothesis room : INR m * bp (a + 5) <= bp (emax - 1).
Notation col := (col prec emax).
Notation colfin := (colfin prec emax m).
Notation unitary := (unitary prec emax m ps).

Lemma bpa k : (0 <= k)%Z -> bp (a + k) = IZR (2 ^ k) * bp a.
Proof. intro hk; rewrite bpow_plus, Rmult_comm; f_equal; change 2%Z with (radix_val radix2); rewrite IZR_Zpower by exact hk; reflexivity. Qed.
Lemma m1 : 1 <= INR m. Proof. replace 1 with (INR 1) by reflexivity; apply le_INR; lia. Qed.
Lemma mprec : INR m <= bp prec.
Proof. apply Rle_trans with (2 := count prec m ps m0 size); apply le_INR; lia. Qed.
Lemma bpa1 : 1 <= bp a. Proof. replace 1 with (bp 0) by reflexivity; apply bpow_le, a0. Qed.
Lemma room' : INR m * (32 * bp a) <= bp (emax - 1).
Proof. assert (h := room); rewrite (bpa 5) in h by lia; exact h. Qed.
Lemma emin0 : (SpecFloat.emin prec emax <= 0)%Z. Proof. unfold SpecFloat.emin; generalize p0; unfold Prec_gt_0; lia. Qed.
Lemma nrm_entry f i : (i < m)%nat -> Rabs (f i) <= nrm m f.
Proof.
intro hi; rewrite <- (dot_basis m i f hi); apply Rle_trans with (1 := cauchy _ _ _).
unfold nrm at 1; rewrite dot_basis, Nat.eqb_refl, sqrt_1, Rmult_1_l by exact hi; apply Rle_refl.
Qed.

Lemma two_fin : fin ftwo = true.
Proof.
assert (h := room'); assert (h1 := m1); assert (h2 := bpa1); unfold M_FloatQR.ftwo; apply fadd_fin; [apply is_finite_Bone|apply is_finite_Bone|].
apply ovf; unfold M_Float.fone; rewrite Bone_correct, Rabs_pos_eq by lra; nra.
Qed.
Lemma reflect_fin v X j : (forall i, (i < m)%nat -> fin (v i) = true /\ Rabs (val (v i)) <= 2) -> (forall i, (i < m)%nat -> fin (X i j) = true /\ Rabs (val (X i j)) <= bp a) ->
  colfin (freflect m v X) j.
Proof.
intros hv hX i hi; unfold M_FloatQR.freflect; set (w := frun (elements m v) (column_of prec emax m X j)).
assert (n1 := m1); assert (b1 := bpa1); assert (r := room').
assert (W : fin w = true /\ Rabs (val w) <= INR m * bp (a + 1)).
{ assert (L : length (elements m v) = m) by (unfold M_FloatQR.elements; rewrite map_length, seq_length; reflexivity).
  replace (INR m) with (INR (length (elements m v))) by (rewrite L; reflexivity); apply run_fwd.
  - generalize emin0; lia.
  - unfold M_FloatQR.elements, column_of; rewrite !map_length; reflexivity.
  - unfold M_FloatQR.elements, column_of; rewrite combine_self, Forall_map, Forall_forall; intros l hl; apply in_seq in hl.
    destruct (hv l ltac:(lia)) as [v1 v2]; destruct (hX l ltac:(lia)) as [x1 x2]; split; [exact v1|split; [exact x1|]]; cbn [fst snd].
    rewrite Rabs_mult, (bpa 1) by lia; apply Rmult_le_compat; try apply Rabs_pos; assumption.
  - rewrite L; apply mprec.
  - rewrite L, (bpa 1) by lia; apply Rle_trans with (2 := r), Rmult_le_compat_l; [lra|]; simpl; lra. }
destruct W as [W1 W2]; destruct (hv i hi) as [v1 v2]; destruct (hX i hi) as [x1 x2].
assert (fd : fin (fmul ftwo (v i)) = true).
{ apply fmul_fin; [apply two_fin|exact v1|]; rewrite (two_val prec emax p0 pe prec1 two_fin); apply ovf; rewrite Rabs_mult, Rabs_pos_eq by lra; nra. }
destruct (double_val prec emax p0 pe prec1 _ fd) as [_ ed].
change (fin (fsub (X i j) (fmul (fmul ftwo (v i)) w)) = true).
assert (tb : Rabs (val (fmul ftwo (v i)) * val w) <= INR m * bp (a + 3)).
{ rewrite ed, !Rabs_mult, (Rabs_pos_eq 2), (bpa 3) by (lra || lia); rewrite (bpa 1) in W2 by lia; change (2 ^ 1)%Z with 2%Z in W2; change (2 ^ 3)%Z with 8%Z.
  apply Rle_trans with (2 * 2 * (INR m * (2 * bp a))); [|lra].
  apply Rmult_le_compat; [apply Rmult_le_pos; [lra|apply Rabs_pos]|apply Rabs_pos|lra|exact W2]. }
assert (nb : 0 <= INR m * bp a) by (apply Rmult_le_pos; lra).
assert (q0 : 0 <= INR m * bp (a + 3)) by (apply Rmult_le_pos; [lra|apply bpow_ge_0]).
assert (q1 : INR m * bp (a + 3) <= bp (emax - 1)) by (rewrite (bpa 3) by lia; cbn [Z.pow Z.pow_pos Pos.iter Z.mul Pos.mul]; lra).
assert (fm : fin (fmul (fmul ftwo (v i)) w) = true) by (apply fmul_fin; [exact fd|exact W1|apply ovf; lra]).
assert (vb : Rabs (val (fmul (fmul ftwo (v i)) w)) <= INR m * bp (a + 3)).
{ rewrite (fmul_val _ _ _ _ _ _ fm); apply RNb; [apply format_nat; [generalize emin0; lia|apply mprec]|exact q0|exact tb]. }
apply fsub_fin; [exact x1|exact fm|]; apply ovf; apply Rle_trans with (Rabs (val (X i j)) + Rabs (val (fmul (fmul ftwo (v i)) w))).
- unfold Rminus; apply Rle_trans with (1 := Rabs_triang _ _); rewrite Rabs_Ropp; apply Rle_refl.
- rewrite (bpa 3) in vb by lia; cbn [Z.pow Z.pow_pos Pos.iter Z.mul Pos.mul] in vb; nra.
Qed.

Lemma length_fwd (x : nat -> float) (r : float) : flength_precise pm ps (elements m x) r -> (forall i, (i < m)%nat -> fin (x i) = true) ->
  nrm m (fun i => val (x i)) <= bp (a + 4) -> fin r = true /\ Rabs (val r) <= 2 * nrm m (fun i => val (x i)) + / 2 * eta.
Proof.
intros h hx hn.
assert (F : Forall (fun x => fin x = true) (elements m x)) by (apply Forall_forall; intros y hy; apply in_map_iff in hy; destruct hy as [i [<- hi]]; apply in_seq in hi; apply hx; lia).
assert (L : length (elements m x) = m) by (unfold M_FloatQR.elements; rewrite map_length, seq_length; reflexivity).
assert (nl : elements m x <> []) by (intro e; rewrite e in L; simpl in L; lia).
generalize (C78_length_precise prec emax p0 pe prec1 ltac:(lia) range2 fmax fmaxP (elements m x) pm ps r nl F); rewrite L, norm_nrm; intro H.
assert (s := ss1 prec m ps m0 size); destruct (ss_up prec m ps m0 size) as [g _]; unfold KK in g.
set (n := nrm m (fun i => val (x i))) in *; assert (n0 : 0 <= n) by apply nrm_pos.
assert (ub : n * (1 + u) ^ ((m + ps) / 2 + 5) <= 2 * n) by (rewrite (Rmult_comm 2); apply Rmult_le_compat_l; lra).
assert (u0 : 0 < u) by apply bpow_gt_0; assert (e0 : 0 < eta) by apply bpow_gt_0.
assert (u1 := u14 prec m ps m0 size).
destruct (H (count prec m ps m0 size) h) as [[H1 H2]|[_ H1]].
- split; [exact H1|]; assert (0 <= n * (1 - u) ^ ((m + ps) / 2 + 5)) by (apply Rmult_le_pos; [exact n0|apply pow_le; lra]).
  apply Rabs_le; lra.
- exfalso; rewrite (proj1 (max_val prec emax p0 pe prec1)) in H1.
  assert (k1 : bp (emax - prec) <= bp (emax - 1)) by (apply bpow_le; lia); assert (k2 : bp emax = 2 * bp (emax - 1)) by (replace emax with (emax - 1 + 1)%Z at 1 by lia; rewrite bpow_plus; simpl; lra).
  assert (r' := room'); assert (b1 := bpa1); assert (n1 := m1); rewrite (bpa 4) in hn by lia; cbn [Z.pow Z.pow_pos Pos.iter Z.mul Pos.mul] in hn; nra.
Qed.
Lemma eta1 : eta <= 1.
Proof. unfold Props_Float.eta; replace 1 with (bp 0) by reflexivity; apply bpow_le; lia. Qed.
Lemma alpha_fin (x nx : float) : fin x = true -> fin nx = true -> fin (hh_alpha prec emax p0 pe x nx) = true.
Proof.
intros fx fn; unfold hh_alpha; assert (fa : fin (fabs prec emax x) = true) by (rewrite fabs_fin; exact fx).
assert (o1 : 1 < bp emax) by (replace 1 with (bp 0) by reflexivity; apply bpow_lt; lia).
destruct (fneq prec emax (fabs prec emax x) fzero) eqn:E.
- assert (nz : val x <> 0).
  { apply fneq_val in E; [|exact fa]; rewrite fabs_val in E; intro z; apply E; rewrite z; apply Rabs_R0. }
  assert (nm : val (fabs prec emax x) <> 0) by (rewrite fabs_val; apply Rabs_no_R0, nz).
  assert (sg : exists g, (g = 1 \/ g = -1) /\ RN (val x / val (fabs prec emax x)) = g).
  { rewrite fabs_val; assert (rn1 := RN_one prec emax p0 pe); destruct (Rlt_dec (val x) 0) as [l|l].
    - exists (-1); split; [right; reflexivity|]; rewrite Rabs_left by exact l; replace (val x / - val x) with (- (1)) by (field; lra); rewrite RN_opp, rn1; ring.
    - exists 1; split; [left; reflexivity|]; rewrite Rabs_pos_eq by lra; replace (val x / val x) with 1 by (field; lra); exact rn1. }
  destruct sg as [g [hg eg]].
  destruct (fdiv_fin prec emax p0 pe x (fabs prec emax x) fx nm) as [h1 h2]; [rewrite eg; destruct hg; subst g; [rewrite Rabs_R1|rewrite Rabs_left; lra]; lra|].
  apply fmul_fin; [rewrite fin_opp; exact h1|exact fn|]; rewrite val_opp, h2, eg.
  destruct hg; subst g; [replace (- (1) * val nx) with (- val nx) by ring|replace (- -1 * val nx) with (val nx) by ring].
  + rewrite RN_opp, Rabs_Ropp, RN_id; apply val_lt.
  + rewrite RN_id; apply val_lt.
- apply fmul_fin; [apply is_finite_Bone|exact fn|]; unfold M_Float.fone; rewrite Bone_correct, Rmult_1_l, RN_id; apply val_lt.
Qed.
Lemma householder_fin Rm k nx nu v : (k < m)%nat -> fhouseholder pm ps m k Rm nx nu v -> colfin Rm k -> nrm m (col Rm k) <= bp a ->
  (val nu = 0 \/ bp (3 - emax + prec) <= val nu) -> fin nu = true /\ forall i, (i < m)%nat -> fin (v i) = true.
Proof.
intros kl hh fR hN thr; destruct hh as [h1 [h2 ->]]; cbv zeta in h2.
assert (b1 := bpa1); assert (n1 := m1); assert (r := room'); assert (e1 := eta1); assert (e0 : 0 < eta) by apply bpow_gt_0.
assert (fc : forall i, (i < m)%nat -> fin (hh_column prec emax Rm k i) = true).
{ intros i hi; unfold hh_column; destruct (Nat.ltb i k); [reflexivity|apply fR, hi]. }
assert (nc : nrm m (fun i => val (hh_column prec emax Rm k i)) <= bp a).
{ apply Rle_trans with (2 := hN); rewrite <- (nrm_abs m (col Rm k)); apply nrm_le; intros i _; unfold hh_column, P_FloatQRL.col; destruct (Nat.ltb i k); [simpl; rewrite Rabs_R0; apply Rabs_pos|apply Rle_refl]. }
destruct (length_fwd _ nx h1 fc ltac:(rewrite (bpa 4) by lia; cbn [Z.pow Z.pow_pos Pos.iter Z.mul Pos.mul]; lra)) as [fnx bnx].
set (c := hh_column prec emax Rm k) in *.
assert (fa := alpha_fin (c k) nx (fc k kl) fnx).
destruct (alpha_val prec emax p0 pe (c k) nx (fc k kl) fa) as [_ ea].
assert (ab : Rabs (val (hh_alpha prec emax p0 pe (c k) nx)) <= 3 * bp a).
{ rewrite ea, Rabs_mult; replace (Rabs (if Req_EM_T (val (c k)) 0 then 1 else if Rlt_dec (val (c k)) 0 then 1 else -1)) with 1; [lra|].
  destruct (Req_EM_T (val (c k)) 0); [rewrite Rabs_R1; reflexivity|]; destruct (Rlt_dec (val (c k)) 0); [rewrite Rabs_R1; reflexivity|rewrite Rabs_left; lra]. }
assert (ck : Rabs (val (c k)) <= bp a) by (apply Rle_trans with (2 := nc); apply (nrm_entry (fun i => val (c i)) k kl)).
assert (db : Rabs (val (c k) - val (hh_alpha prec emax p0 pe (c k) nx)) <= bp (a + 2)).
{ rewrite (bpa 2) by lia; cbn [Z.pow Z.pow_pos Pos.iter Z.mul Pos.mul]; unfold Rminus; apply Rle_trans with (1 := Rabs_triang _ _); rewrite Rabs_Ropp; lra. }
assert (fk : fin (fsub (c k) (hh_alpha prec emax p0 pe (c k) nx)) = true).
{ apply fsub_fin; [apply fc, kl|exact fa|]; apply ovf; rewrite (bpa 2) in db by lia; cbn [Z.pow Z.pow_pos Pos.iter Z.mul Pos.mul] in db; nra. }
assert (vk : Rabs (val (fsub (c k) (hh_alpha prec emax p0 pe (c k) nx))) <= 4 * bp a).
{ rewrite (fsub_val _ _ _ _ _ _ fk); assert (z : bp (a + 2) = 4 * bp a) by (rewrite (bpa 2) by lia; reflexivity); rewrite <- z.
  apply RNb; [apply format_bp; generalize emin0; lia|apply bpow_ge_0|exact db]. }
set (w := hh_u prec emax p0 pe Rm k nx) in *.
assert (fw : forall i, (i < m)%nat -> fin (w i) = true).
{ intros i hi; unfold w, hh_u; fold c; destruct (Nat.eqb_spec i k); [exact fk|apply fc, hi]. }
assert (nw : nrm m (fun i => val (w i)) <= 5 * bp a).
{ apply Rle_trans with (nrm m (fun i => Rabs (val (c i)) + 4 * bp a * (if Nat.eqb i k then 1 else 0))).
  - apply nrm_le; intros i hi; unfold w, hh_u; fold c; destruct (Nat.eqb_spec i k); [generalize (Rabs_pos (val (c i))); lra|lra].
  - apply Rle_trans with (1 := triangle _ _ _); rewrite nrm_abs, nrm_scal, Rabs_pos_eq by lra.
    unfold nrm at 2; rewrite dot_basis, Nat.eqb_refl, sqrt_1 by exact kl; lra. }
destruct (length_fwd w nu h2 fw ltac:(rewrite (bpa 4) by lia; cbn [Z.pow Z.pow_pos Pos.iter Z.mul Pos.mul]; lra)) as [fnu _].
split; [exact fnu|]; intros i hi; unfold hh_v; destruct (fneq prec emax nu fzero) eqn:E.
- apply fneq_val in E; [|exact fnu]; destruct thr as [z|t]; [tauto|].
  assert (t0 : 0 < bp (3 - emax + prec)) by apply bpow_gt_0.
  assert (te : eta <= bp (3 - emax + prec)) by (unfold Props_Float.eta; apply bpow_le; lia).
  assert (LV := length_val prec emax p0 pe prec1 range range2 fmax fmaxP m ps pm m0 size w nu h2 fnu); cbv zeta in LV.
  destruct (ss_up prec m ps m0 size) as [_ g]; assert (s := ss1 prec m ps m0 size).
  set (N := nrm m (fun i => val (w i))) in *; assert (N0 : 0 <= N) by apply nrm_pos.
  assert (s7 : 7 / 8 <= / ss prec m ps) by (replace (7 / 8) with (/ (8 / 7)) by lra; apply Rinv_le_contravar; lra).
  assert (k1 : N * (7 / 8) <= N * (1 - u) ^ KK m ps) by (apply Rmult_le_compat_l; lra).
  assert (NU : N <= 2 * val nu) by lra.
  assert (wi : Rabs (val (w i)) <= N) by apply (nrm_entry (fun i => val (w i)) i hi).
  apply fdiv_fin; [apply fw, hi|exact E|]; apply ovf; unfold Rdiv; rewrite Rabs_mult, (Rabs_pos_eq (/ val nu)) by (apply Rlt_le, Rinv_0_lt_compat; lra).
  apply Rle_trans with 2.
  + apply (Rmult_le_reg_r (val nu)); [lra|]; rewrite Rmult_assoc, Rinv_l, Rmult_1_r by exact E; lra.
  + nra.
- destruct (Nat.eqb i k); [apply is_finite_Bone|apply fw, hi].
Qed.
Lemma itn_ge n x : 0 <= x -> x <= itn prec emax m ps n x.
Proof.
assert (f := F0 prec emax m ps m0 size); assert (r := rr1 prec m ps m0 size); revert x; induction n as [|n IH]; intros x hx; [simpl; lra|].
simpl; assert (x <= rr prec m ps * x + FF prec emax m (dd prec m ps)) by nra; apply Rle_trans with (1 := H), IH; lra.
Qed.
Lemma loop_fin n ks : forall norms QT R QT' R' x, fqr_loop pm ps m ks norms (QT, R) (QT', R') -> Forall (fun k => (k < m)%nat /\ (k < n)%nat) ks ->
  Forall (fun p => val (snd p) = 0 \/ bp (3 - emax + prec) <= val (snd p)) norms ->
  (forall j, (j < m)%nat -> colfin QT j /\ nrm m (col QT j) <= x) -> (forall j, (j < n)%nat -> colfin R j /\ nrm m (col R j) <= x) -> itn prec emax m ps (length ks) x <= bp a ->
  (forall j, (j < m)%nat -> colfin QT' j) /\ (forall j, (j < n)%nat -> colfin R' j) /\ Forall (fun p => fin (snd p) = true) norms.
Proof.
induction ks as [|k ks IH]; intros norms QT R QT' R' x h hk hn hQ hR hx.
- destruct norms as [|? ?]; [|destruct h]; injection h as -> ->; repeat split; [apply hQ|apply hR|constructor].
- destruct norms as [|[nx nu] norms]; [destruct h|]; destruct h as [v [h1 h2]]; cbn [fst snd length itn] in *.
  inversion hk as [|? ? [k1 k1'] k2]; subst; inversion hn as [|? ? n1 n2]; subst; cbn [snd] in *.
  assert (x0 : 0 <= x) by (apply Rle_trans with (2 := proj2 (hR k k1')), nrm_pos).
  assert (f := F0 prec emax m ps m0 size); assert (r := rr1 prec m ps m0 size).
  set (x1 := rr prec m ps * x + FF prec emax m (dd prec m ps)) in *.
  assert (xa : x <= bp a) by (assert (x <= x1) by (unfold x1; nra); generalize (itn_ge (length ks) x1 ltac:(lra)); lra).
  destruct (hR k k1') as [fk bk].
  destruct (householder_fin R k nx nu v k1 h1 fk ltac:(lra) n1) as [fnu fv].
  assert (hu := hh_unit prec emax p0 pe prec1 range range2 fmax fmaxP m ps pm m0 size R k nx nu v k1 h1 fnu n1 fv).
  assert (hv : forall i, (i < m)%nat -> fin (v i) = true /\ Rabs (val (v i)) <= 2).
  { intros i hi; split; [apply fv, hi|]; apply Rle_trans with (1 := nrm_entry (fun i => val (v i)) i hi).
    assert (s := ss1 prec m ps m0 size); apply Rle_trans with (ss prec m ps); [|lra].
    destruct h1 as [_ [h3 e]]; cbv zeta in h3; subst v; apply (vector_nrm prec emax p0 pe prec1 range range2 fmax fmaxP m ps pm m0 size _ k nu k1 h3 fnu n1 fv). }
  assert (S : forall X j, colfin X j /\ nrm m (col X j) <= x -> colfin (freflect m v X) j /\ nrm m (col (freflect m v X) j) <= x1).
  { intros X j [g1 g2].
    assert (g3 : colfin (freflect m v X) j).
    { apply reflect_fin; [exact hv|]; intros i hi; split; [apply g1, hi|]; apply Rle_trans with (1 := nrm_entry (col X j) i hi); lra. }
    split; [exact g3|].
    assert (b := step_bound prec emax p0 pe prec1 fused m ps m0 size v X j (fun _ => true) x g3 hu ltac:(discriminate) g2).
    destruct (step_dot m (dd prec m ps) (fun i => val (v i)) (dd0 prec m ps m0 size) hu (col X j) (col X j) (col (freflect m v X) j) (col (freflect m v X) j) x x x1 x1 _ _ g2 g2 b b) as [k3 _];
      [unfold x1, rr; lra|unfold x1, rr; lra|exact k3]. }
  destruct (IH norms _ _ QT' R' x1 h2 k2 n2) as [a1 [a2 a3]].
  + intros j hj; apply S, hQ, hj.
  + intros j hj; apply S, hR, hj.
  + exact hx.
  + split; [exact a1|split; [exact a2|constructor; [exact fnu|exact a3]]].
Qed.
(* the scaled matrix *)
Lemma stripes_scale l : forall s r, fscale_stripes prec emax fmax pm l s r -> Forall (fun v => v <> [] /\ Forall (fun x => fin x = true) v) l -> fin s = true ->
  fin r = true /\ val s <= val r /\ Forall (Forall (fun x => Rabs (val x) <= val r)) l.
Proof.
induction l as [|v l IH]; intros s r h hl fs; [simpl in h; subst r; split; [exact fs|split; [lra|constructor]]|].
destruct h as [t [h1 h2]]; inversion hl as [|? ? [v1 v2] v3]; subst.
destruct (scaleP prec emax fmax fmaxP pm v t h1 v2 v1) as [ft [_ bt]].
assert (fm : fin (std_fmax prec emax s t) = true) by (unfold std_fmax; destruct (flt prec emax s t); assumption).
assert (gm : val s <= val (std_fmax prec emax s t) /\ val t <= val (std_fmax prec emax s t)).
{ unfold std_fmax; assert (c := flt_val prec emax s t fs ft); destruct (flt prec emax s t); [generalize (proj1 c eq_refl); lra|].
  assert (~ val s < val t) by (intro k; apply c in k; discriminate); lra. }
destruct (IH _ _ h2 v3 fm) as [g1 [g2 g3]]; split; [exact g1|split; [lra|constructor; [|exact g3]]].
apply Forall_forall; intros x hx; generalize (bt x hx); lra.
Qed.
End FloatQRF.
