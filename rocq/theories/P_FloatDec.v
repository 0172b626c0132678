(* The floating point LU and LUP decompositions: invariants of the loops *)
From Coq Require Import ZArith List Arith Bool Reals Lia Lra Psatz Permutation.
From Flocq Require Import Core Mult_error IEEE754.BinarySingleNaN.
From Verif Require Import M_Float P_Float P_FloatD M_FloatN P_FloatN M_FloatLU P_FloatLU P_FloatTri.
Import ListNotations.
Local Open Scope R_scope.

Section FloatDec.
Variables prec emax : Z.
Context (prec_gt_0_ : Prec_gt_0 prec) (prec_lt_emax_ : Prec_lt_emax prec emax).
Hypothesis prec1 : (1 < prec)%Z.
Notation float := (binary_float prec emax).
Notation emin := (SpecFloat.emin prec emax).
Notation format := (generic_format radix2 (FLT_exp emin prec)).
Notation RN := (round radix2 (FLT_exp emin prec) ZnearestE).
Notation bp := (bpow radix2).
Notation val := (@B2R prec emax).
Notation fin := (@is_finite prec emax).
Notation fdiv := (fdiv prec emax prec_gt_0_ prec_lt_emax_).
Notation fzero := (fzero prec emax).
Notation fmat := (fmat prec emax).
Notation fmsub := (fmsub prec emax prec_gt_0_ prec_lt_emax_).
Notation chain := (chain prec emax).
Notation bound := (bound prec emax).
Notation fidentity := (fidentity prec emax prec_gt_0_ prec_lt_emax_).
Variable fused : bool.
Notation rows := (flu_rows prec emax prec_gt_0_ prec_lt_emax_ fused).
Notation row := (flu_row prec emax prec_gt_0_ prec_lt_emax_ fused).

Lemma fold_lu (k : nat) (prow : nat -> float) (ts : list nat) : NoDup ts -> forall (L U : fmat) i j,
  let st := fold_left (row k prow) ts (L, U) in
  (In i ts -> fst st i j = (if Nat.eqb j k then fdiv (U i k) (prow k) else L i j) /\
     snd st i j = (if Nat.eqb j k then fzero else fmsub fused (U i j) (prow j) (fdiv (U i k) (prow k)))) /\
  (~ In i ts -> fst st i j = L i j /\ snd st i j = U i j).
Proof.
induction ts as [|t ts IH]; intros nd L U i j; [simpl; tauto|]; inversion nd as [|x l nt nd']; subst.
cbv zeta; cbn [fold_left]; unfold flu_row at 2 4 6 8.
set (L1 := fset prec emax L t k _); set (U1 := fset prec emax _ t k _).
destruct (IH nd' L1 U1 i j) as [h1 h2]; cbv zeta in h1, h2; split.
- intros [<-|hi].
  + destruct (h2 nt) as [e1 e2]; rewrite e1, e2; unfold L1, U1, fset, fset_row; rewrite Nat.eqb_refl; cbn [andb]; auto.
  + assert (ne : Nat.eqb i t = false) by (apply Nat.eqb_neq; intros ->; tauto).
    destruct (h1 hi) as [e1 e2]; rewrite e1, e2; unfold L1, U1, fset, fset_row; rewrite ne; cbn [andb]; auto.
- intro hi; assert (ne : Nat.eqb i t = false) by (apply Nat.eqb_neq; intros ->; simpl in hi; tauto).
  destruct (h2 (fun h => hi (or_intror h))) as [e1 e2]; rewrite e1, e2; unfold L1, U1, fset, fset_row; rewrite ne; cbn [andb]; auto.
Qed.
Lemma rowsE n k prow (L U : fmat) i j : let st := rows n k prow (L, U) in
  ((k < i)%nat -> (i < n)%nat -> fst st i j = (if Nat.eqb j k then fdiv (U i k) (prow k) else L i j) /\
     snd st i j = (if Nat.eqb j k then fzero else fmsub fused (U i j) (prow j) (fdiv (U i k) (prow k)))) /\
  ((i <= k)%nat -> fst st i j = L i j /\ snd st i j = U i j).
Proof.
destruct (fold_lu k prow (seq (S k) (n - S k)) (seq_NoDup _ _) L U i j) as [h1 h2]; split; intros; [apply h1|apply h2]; rewrite in_seq; lia.
Qed.

Definition sg (p k i : nat) : nat := if Nat.eqb i k then p else if Nat.eqb i p then k else i.
Lemma swapE (p k m : nat) (L : fmat) i j : fold_left (fswap prec emax p k) (seq 0 m) L i j = if Nat.ltb j m then L (sg p k i) j else L i j.
Proof.
revert i j; induction m as [|m IH]; intros i j; [reflexivity|].
rewrite seq_S, fold_left_app; cbn [fold_left plus]; set (L1 := fold_left _ _ _) in *; unfold fswap, fset.
destruct (Nat.eqb_spec j m) as [->|nj].
- rewrite !IH, Nat.ltb_irrefl; rewrite (proj2 (Nat.ltb_lt m (S m))) by lia; unfold sg; destruct (Nat.eqb i k); cbn [andb]; [reflexivity|].
  destruct (Nat.eqb i p); reflexivity.
- rewrite !andb_false_r, IH; destruct (Nat.ltb_spec j m), (Nat.ltb_spec j (S m)); lia || reflexivity.
Qed.

Lemma sg_sg p k i : sg p k (sg p k i) = i.
Proof.
unfold sg; destruct (Nat.eqb_spec i k) as [->|n1]; [destruct (Nat.eqb_spec p k) as [->|n2]; [reflexivity|rewrite Nat.eqb_refl; reflexivity]|].
destruct (Nat.eqb_spec i p) as [->|n2]; [rewrite Nat.eqb_refl; reflexivity|]; rewrite !(proj2 (Nat.eqb_neq _ _)) by assumption; reflexivity.
Qed.
Lemma sg_lt p k i : (k <= p)%nat -> (i < k)%nat -> sg p k i = i.
Proof. intros hp h; unfold sg; rewrite !(proj2 (Nat.eqb_neq _ _)) by lia; reflexivity. Qed.
Lemma sg_ge p k i : (k <= p)%nat -> (k <= i)%nat -> (k <= sg p k i)%nat.
Proof. intros hp h; unfold sg; destruct (Nat.eqb i k); [lia|]; destruct (Nat.eqb i p); lia. Qed.
Lemma sg_n m p k i : (k < m)%nat -> (p < m)%nat -> (i < m)%nat -> (sg p k i < m)%nat.
Proof. intros hk hp h; unfold sg; destruct (Nat.eqb i k); [lia|]; destruct (Nat.eqb i p); lia. Qed.
Lemma sg_min p k i : (k <= p)%nat -> Nat.min (sg p k i) k = Nat.min i k.
Proof. intro hp; destruct (Nat.le_gt_cases k i) as [l|l]; [generalize (sg_ge p k i hp l); lia|rewrite sg_lt by lia; reflexivity]. Qed.

Variable n : nat.
Variable A0 : fmat.
Definition AF (L U : fmat) : Prop := forall i j, (i < n)%nat -> (j < n)%nat -> fin (L i j) = true /\ fin (U i j) = true.
Definition UG (k : nat) (L : fmat) : Prop := forall i j, (i < n)%nat -> (j < n)%nat -> (k <= j)%nat \/ (i <= j)%nat -> L i j = fidentity i j.
Definition tm (L U : fmat) (i j p : nat) : R := val (L i p) * val (U p j).
Definition facts (k : nat) (L U : fmat) (P : nat -> nat) : Prop :=
  (forall i j, (i < n)%nat -> (j < n)%nat -> (j < Nat.min i k)%nat -> val (U i j) = 0) /\
  (forall i j, (i < n)%nat -> (j < n)%nat -> (Nat.min i k <= j)%nat ->
     chain (Nat.min i k) (val (A0 (P i) j)) (lsum (tm L U i j) (seq 0 (Nat.min i k))) (lsum (fun p => Rabs (tm L U i j p)) (seq 0 (Nat.min i k))) (val (U i j))) /\
  (forall i j, (i < n)%nat -> (j < n)%nat -> (j < Nat.min i k)%nat ->
     Rabs (val (A0 (P i) j) - (lsum (tm L U i j) (seq 0 j) + tm L U i j j)) <=
     bound (S j) (lsum (fun p => Rabs (tm L U i j p)) (seq 0 j) + Rabs (tm L U i j j)) (Rabs (val (U j j)))).

Lemma val_one : val (fone prec emax prec_gt_0_ prec_lt_emax_) = 1.
Proof. apply Bone_correct. Qed.
Lemma id_val i j : val (fidentity i j) = if Nat.eqb i j then 1 else 0.
Proof. unfold M_FloatLU.fidentity; destruct (Nat.eqb i j); [apply val_one|reflexivity]. Qed.
Lemma id_fin i j : fin (fidentity i j) = true.
Proof. unfold M_FloatLU.fidentity; destruct (Nat.eqb i j); [apply is_finite_Bone|reflexivity]. Qed.
Lemma lpos (L U : fmat) i j l : 0 <= lsum (fun p => Rabs (tm L U i j p)) l.
Proof. apply lsum_pos; intros; apply Rabs_pos. Qed.
Lemma lsum_S f m : lsum f (seq 0 (S m)) = lsum f (seq 0 m) + f m.
Proof. rewrite seq_S, lsum_app; simpl; ring. Qed.

(* the elimination of column k *)
Section Elim.
Variables (k : nat) (L U : fmat) (P : nat -> nat).
Hypothesis hk : (k < n)%nat.
Let L' : fmat := fst (rows n k (U k) (L, U)).
Let U' : fmat := snd (rows n k (U k) (L, U)).
Lemma elimE i j : ((k < i)%nat -> (i < n)%nat -> L' i j = (if Nat.eqb j k then fdiv (U i k) (U k k) else L i j) /\
     U' i j = (if Nat.eqb j k then fzero else fmsub fused (U i j) (U k j) (fdiv (U i k) (U k k)))) /\
  ((i <= k)%nat -> L' i j = L i j /\ U' i j = U i j).
Proof. exact (rowsE n k (U k) L U i j). Qed.
Lemma elim_UG : UG k L -> UG (S k) L'.
Proof.
intros h i j hi hj hh; destruct (elimE i j) as [h1 h2]; destruct (Nat.le_gt_cases i k) as [l|l].
- rewrite (proj1 (h2 l)); apply h; lia.
- rewrite (proj1 (h1 l hi)); destruct (Nat.eqb_spec j k) as [->|_]; [lia|]; apply h; lia.
Qed.
Lemma elim_AF : UG k L -> AF L' U' -> AF L U.
Proof.
intros ug af i j hi hj; destruct (af i j hi hj) as [f1 f2]; destruct (elimE i j) as [h1 h2]; destruct (Nat.le_gt_cases i k) as [l|l].
- destruct (h2 l) as [e1 e2]; rewrite e1 in f1; rewrite e2 in f2; auto.
- destruct (h1 l hi) as [e1 e2]; rewrite e1 in f1; rewrite e2 in f2; destruct (Nat.eqb_spec j k) as [->|_].
  + assert (fk : fin (U k k) = true).
    { destruct (af k k hk hk) as [_ f]; rewrite (proj2 (proj2 (elimE k k) (le_n k))) in f; exact f. }
    split; [rewrite ug by lia; apply id_fin|apply (fdiv_inv prec emax _ _ _ _ f1 fk)].
  + split; [exact f1|apply (fmsub_inv prec emax _ _ fused _ _ _ f2)].
Qed.
Lemma elim_facts : UG k L -> AF L' U' -> facts k L U P -> facts (S k) L' U' P.
Proof.
intros ug af' [F2 [F3 F4]]; assert (af := elim_AF ug af').
assert (low : forall i j, (i <= k)%nat -> L' i j = L i j /\ U' i j = U i j) by (intros i j; apply elimE).
assert (up : forall i j, (k < i)%nat -> (i < n)%nat -> L' i j = (if Nat.eqb j k then fdiv (U i k) (U k k) else L i j) /\
     U' i j = (if Nat.eqb j k then fzero else fmsub fused (U i j) (U k j) (fdiv (U i k) (U k k)))) by (intros i j; apply elimE).
assert (tmE : forall i j p, (i < n)%nat -> (p < Nat.min i k)%nat -> tm L' U' i j p = tm L U i j p).
{ intros i j p hi hp; unfold tm; rewrite (proj2 (low p j ltac:(lia))); destruct (Nat.le_gt_cases i k) as [l|l].
  - rewrite (proj1 (low i p l)); reflexivity.
  - rewrite (proj1 (up i p l hi)), (proj2 (Nat.eqb_neq p k)) by lia; reflexivity. }
assert (sE : forall i j m, (i < n)%nat -> (m <= Nat.min i k)%nat -> lsum (tm L' U' i j) (seq 0 m) = lsum (tm L U i j) (seq 0 m) /\
  lsum (fun p => Rabs (tm L' U' i j p)) (seq 0 m) = lsum (fun p => Rabs (tm L U i j p)) (seq 0 m)).
{ intros i j m hi hm; split; apply lsum_ext; intros p hp; apply in_seq in hp; rewrite tmE by lia; reflexivity. }
assert (scl : forall i, (k < i)%nat -> (i < n)%nat -> L' i k = fdiv (U i k) (U k k) /\ fin (fdiv (U i k) (U k k)) = true).
{ intros i l hi; assert (e := proj1 (up i k l hi)); rewrite Nat.eqb_refl in e; destruct (af' i k hi hk) as [f _]; rewrite e in f; auto. }
split; [|split].
- intros i j hi hj hm; destruct (Nat.le_gt_cases i k) as [l|l].
  + rewrite (proj2 (low i j l)); apply F2; lia.
  + rewrite (proj2 (up i j l hi)); destruct (Nat.eqb_spec j k) as [->|nj]; [reflexivity|].
    destruct (fmsub_zero prec emax prec_gt_0_ prec_lt_emax_ fused (U i j) (U k j) (fdiv (U i k) (U k k))) as [_ e].
    * apply af; lia.
    * apply af; lia.
    * apply scl; lia.
    * rewrite (F2 k j) by lia; ring.
    * rewrite e; apply F2; lia.
- intros i j hi hj hm; destruct (Nat.le_gt_cases i k) as [l|l].
  + replace (Nat.min i (S k)) with (Nat.min i k) by lia; destruct (sE i j (Nat.min i k) hi ltac:(lia)) as [e1 e2]; rewrite e1, e2, (proj2 (low i j l)).
    apply F3; lia.
  + replace (Nat.min i (S k)) with (S k) by lia; rewrite !lsum_S; destruct (sE i j k hi ltac:(lia)) as [e1 e2]; rewrite e1, e2.
    assert (F := F3 i j hi hj ltac:(lia)); replace (Nat.min i k) with k in F by lia.
    apply chain_step with (1 := lpos _ _ _ _ _) (2 := F).
    assert (e := proj2 (up i j l hi)); rewrite (proj2 (Nat.eqb_neq j k)) in e by lia.
    assert (f := proj2 (af' i j hi hj)); rewrite e in f |- *; assert (h := fmsub_err prec emax _ _ fused _ _ _ f).
    unfold tm; rewrite (proj1 (scl i l hi)), (proj2 (low k j (le_n k))), Rmult_comm; exact h.
- intros i j hi hj hm; destruct (Nat.eqb_spec j k) as [->|nj].
  + assert (l : (k < i)%nat) by lia; destruct (sE i k k hi ltac:(lia)) as [e1 e2]; rewrite e1, e2, (proj2 (low k k (le_n k))).
    assert (F := F3 i k hi hj ltac:(lia)); replace (Nat.min i k) with k in F by lia.
    apply div_bound with (s := val (U i k)); [apply lpos|apply Rabs_pos|exact F|].
    unfold tm; rewrite (proj1 (scl i l hi)), (proj2 (low k k (le_n k))), Rmult_comm; apply fdiv_err; [apply scl; lia|apply af; lia].
  + assert (jk : (j < k)%nat) by lia; destruct (sE i j j hi ltac:(lia)) as [e1 e2]; rewrite e1, e2, tmE, (proj2 (low j j ltac:(lia))) by lia; apply F4; lia.
Qed.
End Elim.

(* no elimination: the column is zero *)
Lemma skip_facts k L U P : (k < n)%nat -> UG k L -> (forall i, (k < i)%nat -> (i < n)%nat -> val (U i k) = 0) -> facts k L U P -> facts (S k) L U P.
Proof.
intros hk ug z [F2 [F3 F4]].
assert (tz : forall i j, (k < i)%nat -> (i < n)%nat -> tm L U i j k = 0).
{ intros i j l hi; unfold tm; rewrite ug, id_val, (proj2 (Nat.eqb_neq i k)) by lia; ring. }
split; [|split].
- intros i j hi hj hm; destruct (Nat.eqb_spec j k) as [->|nj]; [apply z; lia|apply F2; lia].
- intros i j hi hj hm; destruct (Nat.le_gt_cases i k) as [l|l].
  + replace (Nat.min i (S k)) with (Nat.min i k) by lia; apply F3; lia.
  + replace (Nat.min i (S k)) with (S k) by lia; rewrite !lsum_S.
    assert (F := F3 i j hi hj ltac:(lia)); replace (Nat.min i k) with k in F by lia.
    apply chain_step with (1 := lpos _ _ _ _ _) (2 := F); rewrite tz by lia.
    replace (val (U i j) - 0 - val (U i j)) with 0 by ring; rewrite Rabs_R0; assert (a := Rabs_pos (val (U i j))).
    generalize (bpow_gt_0 radix2 (- prec)) (bpow_gt_0 radix2 (emin - 1)); nra.
- intros i j hi hj hm; destruct (Nat.eqb_spec j k) as [->|nj]; [|apply F4; lia].
  assert (F := F3 i k hi hj ltac:(lia)); replace (Nat.min i k) with k in F by lia.
  apply div_bound with (s := val (U i k)); [apply lpos|apply Rabs_pos|exact F|].
  rewrite tz, z, Rminus_0_r, Rabs_R0 by lia; generalize (bpow_gt_0 radix2 (emin - 1)) (Rabs_pos (val (U k k))); nra.
Qed.

(* exchange of two rows *)
Section Swap.
Variables (k p : nat) (L U : fmat) (P : nat -> nat).
Hypothesis hk : (k < n)%nat.
Hypothesis hp : (k <= p < n)%nat.
Let L1 : fmat := fold_left (fswap prec emax p k) (seq 0 k) L.
Let U1 : fmat := fset_row prec emax (fset_row prec emax U p (U k)) k (U p).
Let P1 := swap_perm p k P.
Lemma L1E i j : L1 i j = if Nat.ltb j k then L (sg p k i) j else L i j.
Proof. apply swapE. Qed.
Lemma U1E i j : U1 i j = U (sg p k i) j.
Proof. unfold U1, fset_row, sg; destruct (Nat.eqb i k); [reflexivity|]; destruct (Nat.eqb i p); reflexivity. Qed.
Lemma P1E i : P1 i = P (sg p k i).
Proof. unfold P1, swap_perm, sg; destruct (Nat.eqb i k); [reflexivity|]; destruct (Nat.eqb i p); reflexivity. Qed.
Lemma swap_UG : UG k L -> UG k L1.
Proof.
intros h i j hi hj hh; rewrite L1E; destruct (Nat.ltb_spec j k) as [l|l].
- rewrite sg_lt by lia; apply h; lia.
- apply h; lia.
Qed.
Lemma swap_AF : UG k L -> AF L1 U1 <-> AF L U.
Proof.
intro ug; split; intros h i j hi hj.
- split.
  + destruct (Nat.ltb_spec j k) as [l|l].
    * destruct (h (sg p k i) j (sg_n n p k i hk (proj2 hp) hi) hj) as [f _]; rewrite L1E, (proj2 (Nat.ltb_lt j k) l), sg_sg in f; exact f.
    * rewrite ug by lia; apply id_fin.
  + destruct (h (sg p k i) j (sg_n n p k i hk (proj2 hp) hi) hj) as [_ f]; rewrite U1E, sg_sg in f; exact f.
- rewrite L1E, U1E; split; [destruct (Nat.ltb j k)|]; apply h; auto; apply sg_n; lia.
Qed.
Lemma swap_facts : facts k L U P -> facts k L1 U1 P1.
Proof.
intros [F2 [F3 F4]].
assert (tE : forall i j q, (q < Nat.min i k)%nat -> tm L1 U1 i j q = tm L U (sg p k i) j q).
{ intros i j q hq; unfold tm; rewrite L1E, U1E, (proj2 (Nat.ltb_lt q k)), (sg_lt p k q) by lia; reflexivity. }
assert (sE : forall i j m, (m <= Nat.min i k)%nat -> lsum (tm L1 U1 i j) (seq 0 m) = lsum (tm L U (sg p k i) j) (seq 0 m) /\
  lsum (fun q => Rabs (tm L1 U1 i j q)) (seq 0 m) = lsum (fun q => Rabs (tm L U (sg p k i) j q)) (seq 0 m)).
{ intros i j m hm; split; apply lsum_ext; intros q hq; apply in_seq in hq; rewrite tE by lia; reflexivity. }
split; [|split]; intros i j hi hj hm; assert (hs := sg_n n p k i hk (proj2 hp) hi); assert (em := sg_min p k i (proj1 hp)).
- rewrite U1E; apply F2; lia.
- destruct (sE i j (Nat.min i k) (le_n _)) as [e1 e2]; rewrite e1, e2, U1E, P1E, <- em; apply F3; lia.
- destruct (sE i j j ltac:(lia)) as [e1 e2]; rewrite e1, e2, tE, P1E, U1E, (sg_lt p k j) by lia; apply F4; lia.
Qed.
End Swap.

(** * The decompositions *)
Lemma init_facts P : (forall i, P i = i) -> facts 0 fidentity A0 P.
Proof.
intro e; split; [|split]; intros i j hi hj hm; [lia| |lia]; rewrite Nat.min_0_r, e; apply chain0.
Qed.
Lemma init_UG : UG 0 fidentity.
Proof. intros i j _ _ _; reflexivity. Qed.

Notation lu_state := (fun m => fold_left (fun (st : fmat * fmat) k => rows n k (snd st k) st) (seq 0 m) (fidentity, A0)).
Lemma lu_inv m : (m <= n)%nat -> UG m (fst (lu_state m)) /\ (AF (fst (lu_state m)) (snd (lu_state m)) -> facts m (fst (lu_state m)) (snd (lu_state m)) (fun i => i)).
Proof.
induction m as [|m IH]; intro h.
- simpl; split; [apply init_UG|intros _; apply init_facts; reflexivity].
- destruct (IH ltac:(lia)) as [g f]; cbv beta in g, f |- *; rewrite seq_S, fold_left_app; cbn [fold_left plus].
  destruct (fold_left _ (seq 0 m) _) as [L U]; cbn [fst snd] in g, f |- *; split; [apply elim_UG; [lia|exact g]|].
  intro af; apply elim_facts; [lia|exact g|exact af|]; apply f; apply elim_AF with (k := m); [lia|exact g|exact af].
Qed.

(* what the facts say at the end *)
Lemma facts_end L U P : UG (n - 1) L -> facts (n - 1) L U P -> forall i j, (i < n)%nat -> (j < n)%nat ->
  (i = j -> val (L i j) = 1) /\ ((i < j)%nat -> val (L i j) = 0) /\ ((j < i)%nat -> val (U i j) = 0) /\
  Rabs (val (A0 (P i) j) - lsum (fun p => val (L i p) * val (U p j)) (seq 0 n)) <=
  bound n (lsum (fun p => Rabs (val (L i p) * val (U p j))) (seq 0 n)) (Rabs (val (U j j))).
Proof.
intros ug [F2 [F3 F4]].
assert (l1 : forall i, (i < n)%nat -> val (L i i) = 1) by (intros; rewrite ug, id_val, Nat.eqb_refl by lia; reflexivity).
assert (l0 : forall i j, (i < j)%nat -> (j < n)%nat -> val (L i j) = 0) by (intros; rewrite ug, id_val, (proj2 (Nat.eqb_neq _ _)) by lia; reflexivity).
assert (u0 : forall i j, (j < i)%nat -> (i < n)%nat -> val (U i j) = 0) by (intros; apply F2; lia).
intros i j hi hj; split; [intros <-; apply l1, hi|split; [intro; apply l0; assumption|split; [intro; apply u0; assumption|]]].
change (Rabs (val (A0 (P i) j) - lsum (tm L U i j) (seq 0 n)) <= bound n (lsum (fun p => Rabs (tm L U i j p)) (seq 0 n)) (Rabs (val (U j j)))).
assert (cut : forall m, (m < n)%nat -> (forall p, (m < p)%nat -> (p < n)%nat -> tm L U i j p = 0) ->
  lsum (tm L U i j) (seq 0 n) = lsum (tm L U i j) (seq 0 m) + tm L U i j m /\
  lsum (fun p => Rabs (tm L U i j p)) (seq 0 n) = lsum (fun p => Rabs (tm L U i j p)) (seq 0 m) + Rabs (tm L U i j m)).
{ intros m hm hz; replace n with (S m + (n - S m))%nat by lia; rewrite !seq_app, !lsum_app, !lsum_S.
  rewrite (lsum_zero (tm L U i j) (seq (0 + S m) _)) by (intros p hp; apply in_seq in hp; apply hz; lia).
  rewrite (lsum_zero (fun p => Rabs (tm L U i j p)) (seq (0 + S m) _)) by (intros p hp; apply in_seq in hp; rewrite hz by lia; apply Rabs_R0).
  split; ring. }
destruct (Nat.le_gt_cases i j) as [l|l].
- destruct (cut i hi) as [e1 e2]; [intros p h1 h2; unfold tm; rewrite l0 by lia; ring|]; rewrite e1, e2.
  assert (F := F3 i j hi hj ltac:(lia)); replace (Nat.min i (n - 1)) with i in F by lia.
  assert (t : tm L U i j i = val (U i j)) by (unfold tm; rewrite l1 by exact hi; ring); rewrite t.
  apply Rle_trans with (1 := chain_bound _ _ _ _ _ _ _ (lpos _ _ _ _ _) F); apply bound_mono; [lia| |split; [lra|apply Rabs_pos]].
  split; [|lra]; generalize (lpos L U i j (seq 0 i)) (Rabs_pos (val (U i j))); lra.
- destruct (cut j hj) as [e1 e2]; [intros p h1 h2; unfold tm; rewrite u0 by lia; ring|]; rewrite e1, e2.
  apply Rle_trans with (1 := F4 i j hi hj ltac:(lia)); apply bound_mono; [lia| |split; [apply Rabs_pos|lra]].
  split; [|lra]; generalize (lpos L U i j (seq 0 j)) (Rabs_pos (tm L U i j j)); lra.
Qed.

Definition perm_ok (P : nat -> nat) : Prop := Permutation (map P (seq 0 n)) (seq 0 n).

Lemma sg_perm k p : (k < n)%nat -> (k <= p < n)%nat -> Permutation (map (sg p k) (seq 0 n)) (seq 0 n).
Proof.
intros hk hp; apply NoDup_Permutation.
- apply FinFun.Injective_map_NoDup; [|apply seq_NoDup]; intros x y h; rewrite <- (sg_sg p k x), <- (sg_sg p k y), h; reflexivity.
- apply seq_NoDup.
- intro x; rewrite in_map_iff, in_seq; split.
  + intros [y [<- hy]]; apply in_seq in hy; generalize (sg_n n p k y hk (proj2 hp) ltac:(lia)); lia.
  + intro h; exists (sg p k x); split; [apply sg_sg|]; apply in_seq; generalize (sg_n n p k x hk (proj2 hp) ltac:(lia)); lia.
Qed.

Lemma maxP (k : nat) (v : nat -> float) : (k < n)%nat -> let p := fmax_element prec emax n k v in (k <= p < n)%nat /\
  ((forall i, (k <= i < n)%nat -> fin (v i) = true) -> forall i, (k <= i < n)%nat -> val (v i) <= val (v p)).
Proof.
intro hk; unfold fmax_element; cbv zeta.
assert (G : forall m, (m <= n - S k)%nat ->
  let p := fold_left (fun best i => if flt prec emax (v best) (v i) then i else best) (seq (S k) m) k in
  (k <= p < n)%nat /\ ((forall i, (k <= i < n)%nat -> fin (v i) = true) -> forall i, (k <= i <= k + m)%nat -> val (v i) <= val (v p))).
{ induction m as [|m IH]; intro hm.
  - cbn [seq fold_left]; split; [lia|]; intros _ i hi; replace i with k by lia; lra.
  - cbv zeta; rewrite seq_S, fold_left_app; cbn [fold_left]; destruct (IH ltac:(lia)) as [h1 h2]; cbv zeta in h1, h2.
    set (p := fold_left _ (seq (S k) m) k) in *; replace (S k + m)%nat with (k + S m)%nat by lia.
    destruct (flt prec emax (v p) (v (k + S m)%nat)) eqn:e; (split; [lia|]); intros hf i hi.
    + apply flt_val in e; [|apply hf; lia|apply hf; lia].
      destruct (Nat.eq_dec i (k + S m)) as [->|ne]; [lra|]; generalize (h2 hf i ltac:(lia)); lra.
    + destruct (Nat.eq_dec i (k + S m)) as [->|ne]; [|apply h2; auto; lia].
      apply Rnot_lt_le; intro c; apply (flt_val prec emax) in c; [congruence|apply hf; lia|apply hf; lia]. }
destruct (G (n - S k)%nat (le_n _)) as [h1 h2]; split; [exact h1|]; intros hf i hi; apply h2; auto; lia.
Qed.

Notation lup_step := (flup_step prec emax prec_gt_0_ prec_lt_emax_ fused n).
Notation lup_state := (fun m => fold_left lup_step (seq 0 m) ((fidentity, A0), fun i : nat => i)).
Definition lup_good (m : nat) (st : (fmat * fmat) * (nat -> nat)) : Prop :=
  UG m (fst (fst st)) /\ perm_ok (snd st) /\ (AF (fst (fst st)) (snd (fst st)) -> facts m (fst (fst st)) (snd (fst st)) (snd st)).
Lemma fneq0 x : fin x = true -> (fneq prec emax x fzero = true <-> val x <> 0).
Proof.
intro f; unfold fneq; rewrite Bcompare_correct; [|exact f|reflexivity]; change (val fzero) with 0.
destruct (Rcompare_spec (val x) 0); split; intro; try discriminate; try reflexivity; lra.
Qed.
Lemma lup_step_good k st : (k < n)%nat -> lup_good k st -> lup_good (S k) (lup_step st k).
Proof.
destruct st as [[L U] P]; intros hk [g [pm f]]; cbn [fst snd] in g, pm, f; unfold flup_step.
set (p := fmax_element prec emax n k (fun i => fabs prec emax (U i k))).
destruct (maxP k (fun i => fabs prec emax (U i k)) hk) as [hp mx]; fold p in hp, mx; cbv zeta.
destruct (fneq prec emax (U p k) fzero) eqn:ez.
- set (L1 := fold_left _ (seq 0 k) L); set (U1 := fset_row prec emax (fset_row prec emax U p (U k)) k (U p)).
  assert (uk : U p = U1 k) by (unfold U1, fset_row; rewrite Nat.eqb_refl; reflexivity).
  rewrite uk; assert (g1 := swap_UG k p L hk hp g); fold L1 in g1.
  unfold lup_good; cbn [fst snd]; split; [apply elim_UG; [exact hk|exact g1]|split].
  + unfold perm_ok; rewrite (map_ext _ (fun i => P (sg p k i)) (P1E k p P)), <- map_map.
    apply Permutation_trans with (2 := pm), Permutation_map, sg_perm; assumption.
  + intro af; apply elim_facts; [exact hk|exact g1|exact af|]; apply swap_facts; [exact hk|exact hp|]; apply f.
    apply (swap_AF k p L U hk hp g); apply elim_AF with (k := k); [exact hk|exact g1|exact af].
- unfold lup_good; cbn [fst snd]; split; [intros i j hi hj hh; apply g; lia|split; [exact pm|]].
  intro af; apply skip_facts; [exact hk|exact g| |apply f, af].
  intros i l hi; assert (fu : forall i, (k <= i < n)%nat -> fin (fabs prec emax (U i k)) = true) by (intros; rewrite fabs_fin; apply af; lia).
  assert (h := mx fu i ltac:(lia)); rewrite !fabs_val in h.
  assert (z : val (U p k) = 0).
  { destruct (Req_dec (val (U p k)) 0) as [e|e]; [exact e|]; apply fneq0 in e; [congruence|apply af; lia]. }
  rewrite z, Rabs_R0 in h; destruct (Req_dec (val (U i k)) 0) as [e|e]; [exact e|]; generalize (Rabs_pos_lt _ e); lra.
Qed.
Lemma lup_inv m : (m <= n)%nat -> lup_good m (lup_state m).
Proof.
induction m as [|m IH]; intro h.
- split; [apply init_UG|split; [unfold perm_ok; cbn [fold_left seq snd]; rewrite map_id; apply Permutation_refl|intros _; apply init_facts; reflexivity]].
- cbv beta; rewrite seq_S, fold_left_app; cbn [fold_left plus]; apply lup_step_good; [lia|apply IH; lia].
Qed.

(** * Growth *)
Section Growth.
Variable M : R.
Hypothesis fM : format M.
Hypothesis M0 : 0 <= M.
Hypothesis hA : forall i j, (i < n)%nat -> (j < n)%nat -> fin (A0 i j) = true /\ Rabs (val (A0 i j)) <= M.
Hypothesis ov : 2 ^ (n - 1) * M < bp emax.
Lemma format2 k : format (2 ^ k * M).
Proof.
induction k as [|k IH]; [rewrite Rmult_1_l; exact fM|]; replace (2 ^ S k * M) with (2 ^ k * M * bp 1) by (change (bp 1) with 2; cbn [pow]; ring).
apply mult_bpow_pos_exact_FLT; [exact IH|lia].
Qed.
Lemma pow2_mono a b : (a <= b)%nat -> 0 <= 2 ^ a * M <= 2 ^ b * M.
Proof.
intro h; assert (0 < 2 ^ a) by (apply pow_lt; lra); assert (2 ^ a <= 2 ^ b) by (apply Rle_pow; [lra|exact h]); split; [apply Rmult_le_pos; lra|].
apply Rmult_le_compat_r; lra.
Qed.
Lemma RN_bound x y : format y -> 0 <= y -> Rabs x <= y -> Rabs (RN x) <= y.
Proof. intros fy y0 h; rewrite <- (Rabs_pos_eq y y0); apply RN_le; [exact prec_gt_0_|exact fy|rewrite (Rabs_pos_eq y y0); exact h]. Qed.
Definition GI (k : nat) (L U : fmat) : Prop := forall i j, (i < n)%nat -> (j < n)%nat ->
  fin (L i j) = true /\ Rabs (val (L i j)) <= 1 /\ fin (U i j) = true /\ Rabs (val (U i j)) <= 2 ^ Nat.min i k * M.
Lemma msub_growth a x y k : (k < n - 1)%nat -> fin a = true -> fin x = true -> fin y = true ->
  Rabs (val a) <= 2 ^ k * M -> Rabs (val x) <= 2 ^ k * M -> Rabs (val y) <= 1 ->
  fin (fmsub fused a x y) = true /\ Rabs (val (fmsub fused a x y)) <= 2 ^ S k * M.
Proof.
intros hk fa fx fy la lx ly.
destruct (pow2_mono k (S k) ltac:(lia)) as [m0 m1]; destruct (pow2_mono (S k) (n - 1) ltac:(lia)) as [m2 m3].
assert (lp : Rabs (val x * val y) <= 2 ^ k * M) by (rewrite Rabs_mult; generalize (Rabs_pos (val x)) (Rabs_pos (val y)); nra).
assert (e2 : 2 ^ S k * M = 2 ^ k * M + 2 ^ k * M) by (simpl; ring).
unfold M_FloatLU.fmsub; destruct fused.
- assert (l : Rabs (RN (val (Bopp x) * val y + val a)) <= 2 ^ S k * M).
  { apply RN_bound; [apply format2|exact m2|]; rewrite val_opp, e2; apply Rle_trans with (1 := Rabs_triang _ _).
    replace (- val x * val y) with (- (val x * val y)) by ring; rewrite Rabs_Ropp; lra. }
  assert (f : fin (ffma prec emax prec_gt_0_ prec_lt_emax_ (Bopp x) y a) = true) by (apply ffma_fin; [rewrite is_finite_Bopp; exact fx|exact fy|exact fa|lra]).
  split; [exact f|]; rewrite (ffma_val _ _ _ _ _ _ _ f); exact l.
- assert (l1 : Rabs (RN (val x * val y)) <= 2 ^ k * M) by (apply RN_bound; [apply format2|exact m0|exact lp]).
  assert (f1 : fin (fmul prec emax prec_gt_0_ prec_lt_emax_ x y) = true) by (apply fmul_fin; [exact fx|exact fy|lra]).
  rewrite <- (fmul_val _ _ _ _ _ _ f1) in l1; set (p := fmul prec emax prec_gt_0_ prec_lt_emax_ x y) in *.
  assert (l : Rabs (RN (val a - val p)) <= 2 ^ S k * M).
  { apply RN_bound; [apply format2|exact m2|]; rewrite e2; unfold Rminus; apply Rle_trans with (1 := Rabs_triang _ _); rewrite Rabs_Ropp; lra. }
  assert (f : fin (fsub prec emax prec_gt_0_ prec_lt_emax_ a p) = true) by (apply fsub_fin; [exact fa|exact f1|lra]).
  split; [exact f|]; rewrite (fsub_val _ _ _ _ _ _ f); exact l.
Qed.
Lemma scale_le x y : fin x = true -> val y <> 0 -> Rabs (val x) <= Rabs (val y) -> fin (fdiv x y) = true /\ Rabs (val (fdiv x y)) <= 1.
Proof.
intros fx y0 l; assert (yp := Rabs_pos_lt _ y0).
assert (l1 : Rabs (RN (val x / val y)) <= 1).
{ apply RN_bound; [apply format1; assumption|lra|]; unfold Rdiv; rewrite Rabs_mult, Rabs_Rinv by exact y0.
  apply (Rmult_le_reg_r (Rabs (val y))); [exact yp|]; rewrite Rmult_assoc, Rinv_l by lra; lra. }
assert (l2 : 1 < bp emax).
{ change 1 with (bp 0); apply bpow_lt; generalize (prec_lt_emax prec emax); lia. }
destruct (fdiv_fin prec emax prec_gt_0_ prec_lt_emax_ x y fx y0) as [f v]; [lra|]; split; [exact f|rewrite v; exact l1].
Qed.
Lemma elim_growth k L U : (k < n - 1)%nat -> GI k L U -> val (U k k) <> 0 ->
  (forall i, (k <= i < n)%nat -> Rabs (val (U i k)) <= Rabs (val (U k k))) ->
  GI (S k) (fst (rows n k (U k) (L, U))) (snd (rows n k (U k) (L, U))).
Proof.
intros hk g p0 mx i j hi hj; destruct (rowsE n k (U k) L U i j) as [h1 h2]; cbv zeta in h1, h2; destruct (g i j hi hj) as [f1 [l1 [f2 l2]]].
destruct (Nat.le_gt_cases i k) as [l|l].
- destruct (h2 l) as [e1 e2]; rewrite e1, e2; replace (Nat.min i (S k)) with (Nat.min i k) by lia; auto.
- destruct (h1 l hi) as [e1 e2]; rewrite e1, e2; replace (Nat.min i (S k)) with (S k) by lia; replace (Nat.min i k) with k in l2 by lia.
  destruct (g i k hi ltac:(lia)) as [_ [_ [fi _]]]; destruct (scale_le (U i k) (U k k) fi p0 (mx i ltac:(lia))) as [fs ls].
  destruct (Nat.eqb_spec j k) as [->|nj].
  + split; [exact fs|split; [exact ls|split; [reflexivity|]]]; simpl (val fzero); rewrite Rabs_R0; apply (pow2_mono (S k) (S k)); lia.
  + destruct (g k j ltac:(lia) hj) as [_ [_ [fk lk]]]; rewrite Nat.min_id in lk.
    destruct (msub_growth (U i j) (U k j) (fdiv (U i k) (U k k)) k hk f2 fk fs l2 lk ls) as [f l']; auto.
Qed.
Lemma swap_growth k p L U : (k < n)%nat -> (k <= p < n)%nat -> GI k L U ->
  GI k (fold_left (fswap prec emax p k) (seq 0 k) L) (fset_row prec emax (fset_row prec emax U p (U k)) k (U p)).
Proof.
intros hk hp g i j hi hj; rewrite swapE, (U1E k p U); assert (hs := sg_n n p k i hk (proj2 hp) hi).
destruct (g (sg p k i) j hs hj) as [f1 [l1 [f2 l2]]]; destruct (g i j hi hj) as [f3 [l3 _]]; rewrite sg_min in l2 by lia.
destruct (Nat.ltb j k); auto.
Qed.
Lemma GI_mono k L U : GI k L U -> GI (S k) L U.
Proof.
intros g i j hi hj; destruct (g i j hi hj) as [f1 [l1 [f2 l2]]]; split; [exact f1|split; [exact l1|split; [exact f2|]]].
apply Rle_trans with (1 := l2); apply pow2_mono; lia.
Qed.
Lemma lup_growth m : (m <= n - 1)%nat -> GI m (fst (fst (lup_state m))) (snd (fst (lup_state m))).
Proof.
induction m as [|m IH]; intro h.
- cbn [fold_left seq fst snd]; intros i j hi hj; rewrite Nat.min_0_r, Rmult_1_l; split; [apply id_fin|split; [|apply hA; assumption]].
  rewrite id_val; destruct (Nat.eqb i j); [rewrite Rabs_R1|rewrite Rabs_R0]; lra.
- cbv beta; rewrite seq_S, fold_left_app; cbn [fold_left plus]; assert (g := IH ltac:(lia)); cbv beta in g.
  destruct (fold_left _ (seq 0 m) _) as [[L U] P]; cbn [fst snd] in g; unfold flup_step.
  set (p := fmax_element prec emax n m (fun i => fabs prec emax (U i m))).
  destruct (maxP m (fun i => fabs prec emax (U i m)) ltac:(lia)) as [hp mx]; fold p in hp, mx; cbv zeta.
  assert (fu : forall i, (m <= i < n)%nat -> fin (fabs prec emax (U i m)) = true) by (intros; rewrite fabs_fin; apply g; lia).
  destruct (fneq prec emax (U p m) fzero) eqn:ez; [|cbn [fst snd]; apply GI_mono, g].
  apply fneq0 in ez; [|apply g; lia].
  assert (g1 := swap_growth m p L U ltac:(lia) hp g); set (L1 := fold_left _ (seq 0 m) L) in *; set (U1 := fset_row prec emax (fset_row prec emax U p (U m)) m (U p)) in *.
  assert (uk : U p = U1 m) by (unfold U1, fset_row; rewrite Nat.eqb_refl; reflexivity).
  rewrite uk in ez |- *; cbn [fst snd]; apply elim_growth; [lia|exact g1|exact ez|].
  intros i hi; rewrite <- uk; unfold U1; rewrite (U1E m p U).
  assert (hs : (m <= sg p m i < n)%nat) by (split; [apply sg_ge; lia|apply sg_n; lia]).
  generalize (mx fu _ hs); rewrite !fabs_val; auto.
Qed.
End Growth.
End FloatDec.
