(* The floating point solvers of triangular systems: invariants of the loops *)
From Coq Require Import ZArith List Arith Bool Reals Lia Lra Psatz Permutation.
From Flocq Require Import Core IEEE754.BinarySingleNaN.
From Verif Require Import M_Float P_Float P_FloatD M_FloatN P_FloatN M_FloatLU P_FloatLU.
Import ListNotations.
Local Open Scope R_scope.

Definition lsum (f : nat -> R) (ds : list nat) : R := fold_right (fun k s => f k + s) 0 ds.
Lemma lsum_app f a b : lsum f (a ++ b) = lsum f a + lsum f b.
Proof. induction a as [|x a IH]; simpl; [ring|]; unfold lsum in *; rewrite IH; ring. Qed.
Lemma lsum_ext f g ds : (forall k, In k ds -> f k = g k) -> lsum f ds = lsum g ds.
Proof. induction ds as [|x a IH]; simpl; intro h; [reflexivity|]; unfold lsum in *; rewrite h, IH; auto. Qed.
Lemma lsum_pos f ds : (forall k, In k ds -> 0 <= f k) -> 0 <= lsum f ds.
Proof. induction ds as [|x a IH]; simpl; intro h; [lra|]; assert (h1 := h x (or_introl eq_refl)); unfold lsum in *; assert (h2 := IH (fun k hk => h k (or_intror hk))); lra. Qed.
Lemma lsum_le f g ds : (forall k, In k ds -> f k <= g k) -> lsum f ds <= lsum g ds.
Proof. induction ds as [|x a IH]; simpl; intro h; [lra|]; assert (h1 := h x (or_introl eq_refl)); unfold lsum in *; assert (h2 := IH (fun k hk => h k (or_intror hk))); lra. Qed.
Lemma lsum_zero f ds : (forall k, In k ds -> f k = 0) -> lsum f ds = 0.
Proof. induction ds as [|x a IH]; simpl; intro h; [reflexivity|]; unfold lsum in *; rewrite h, IH by auto; ring. Qed.
Lemma lsum_abs f ds : Rabs (lsum f ds) <= lsum (fun k => Rabs (f k)) ds.
Proof. induction ds as [|x a IH]; simpl; [rewrite Rabs_R0; lra|]; unfold lsum in *; apply Rle_trans with (1 := Rabs_triang _ _); lra. Qed.
Lemma lsum_plus f g ds : lsum (fun k => f k + g k) ds = lsum f ds + lsum g ds.
Proof. induction ds as [|x a IH]; simpl; [ring|]; unfold lsum in *; rewrite IH; ring. Qed.
Lemma lsum_scal c f ds : lsum (fun k => c * f k) ds = c * lsum f ds.
Proof. induction ds as [|x a IH]; simpl; [ring|]; unfold lsum in *; rewrite IH; ring. Qed.
Lemma lsum_swap (f : nat -> nat -> R) a b : lsum (fun i => lsum (f i) b) a = lsum (fun j => lsum (fun i => f i j) a) b.
Proof.
induction a as [|x a IH]; simpl.
- symmetry; apply lsum_zero; reflexivity.
- change (lsum (f x) b + lsum (fun i => lsum (f i) b) a = lsum (fun j => f x j + lsum (fun i => f i j) a) b); rewrite IH, lsum_plus; reflexivity.
Qed.
Lemma lsum_perm f a b : Permutation a b -> lsum f a = lsum f b.
Proof. intro h; induction h; simpl; unfold lsum in *; simpl; lra. Qed.

Section FloatTri.
Variables prec emax : Z.
Context (prec_gt_0_ : Prec_gt_0 prec) (prec_lt_emax_ : Prec_lt_emax prec emax).
Hypothesis prec1 : (1 < prec)%Z.
Notation float := (binary_float prec emax).
Notation emin := (SpecFloat.emin prec emax).
Notation val := (@B2R prec emax).
Notation fin := (@is_finite prec emax).
Notation fdiv := (fdiv prec emax prec_gt_0_ prec_lt_emax_).
Notation fmat := (fmat prec emax).
Notation fmsub := (fmsub prec emax prec_gt_0_ prec_lt_emax_).
Notation chain := (chain prec emax).
Notation bound := (bound prec emax).
Variable fused : bool.
Notation step := (ftri_step prec emax prec_gt_0_ prec_lt_emax_ fused).

Lemma fold_rows (rowA rowB : nat -> float) (r : nat) (ts : list nat) : NoDup ts -> forall A b : fmat,
  let st := fold_left (fun (st : fmat * fmat) t =>
      let '(A, b) := st in
      let targetA := A t in
      let targetB := b t in
      let multiplier := targetA r in
      (fset_row prec emax A t (fun j => fmsub fused (targetA j) multiplier (rowA j)),
       fset_row prec emax b t (fun j => fmsub fused (targetB j) multiplier (rowB j)))) ts (A, b) in
  forall i j, (In i ts -> fst st i j = fmsub fused (A i j) (A i r) (rowA j) /\ snd st i j = fmsub fused (b i j) (A i r) (rowB j)) /\
    (~ In i ts -> fst st i j = A i j /\ snd st i j = b i j).
Proof.
induction ts as [|t ts IH]; intros nd A b; [simpl; tauto|]; inversion nd as [|x l nt nd']; subst.
cbv zeta; cbn [fold_left]; intros i j; destruct (IH nd' (fset_row prec emax A t (fun j => fmsub fused (A t j) (A t r) (rowA j)))
  (fset_row prec emax b t (fun j => fmsub fused (b t j) (A t r) (rowB j))) i j) as [h1 h2]; cbv zeta in h1, h2; split.
- intros [<-|hi].
  + destruct (h2 nt) as [e1 e2]; rewrite e1, e2; unfold fset_row; rewrite Nat.eqb_refl; auto.
  + destruct (h1 hi) as [e1 e2]; rewrite e1, e2; unfold fset_row; destruct (Nat.eqb_spec i t) as [->|_]; [tauto|auto].
- intro hi; destruct (h2 (fun h => hi (or_intror h))) as [e1 e2]; rewrite e1, e2; unfold fset_row.
  destruct (Nat.eqb_spec i t) as [->|_]; [simpl in hi; tauto|auto].
Qed.
Lemma stepE (ts : list nat) (r : nat) (A b : fmat) : NoDup ts -> ~ In r ts -> forall i j,
  let st := step ts r (A, b) in
  (In i ts -> fst st i j = fmsub fused (A i j) (A i r) (fdiv (A r j) (A r r)) /\ snd st i j = fmsub fused (b i j) (A i r) (fdiv (b r j) (A r r))) /\
  (~ In i ts -> i <> r -> fst st i j = A i j /\ snd st i j = b i j) /\
  (i = r -> fst st i j = fdiv (A r j) (A r r) /\ snd st i j = fdiv (b r j) (A r r)).
Proof.
intros nd nr i j; unfold ftri_step; cbv zeta.
destruct (fold_rows (fun j => fdiv (A r j) (A r r)) (fun j => fdiv (b r j) (A r r)) r ts nd
  (fset_row prec emax A r (fun j => fdiv (A r j) (A r r))) (fset_row prec emax b r (fun j => fdiv (b r j) (A r r))) i j) as [h1 h2]; cbv zeta in h1, h2.
split; [|split].
- intro hi; destruct (h1 hi) as [e1 e2]; refine (conj (eq_trans e1 _) (eq_trans e2 _)); unfold fset_row; destruct (Nat.eqb_spec i r) as [->|_]; tauto || auto.
- intros hi ni; destruct (h2 hi) as [e1 e2]; refine (conj (eq_trans e1 _) (eq_trans e2 _)); unfold fset_row; destruct (Nat.eqb_spec i r) as [->|_]; tauto || auto.
- intros ->; destruct (h2 nr) as [e1 e2]; refine (conj (eq_trans e1 _) (eq_trans e2 _)); unfold fset_row; rewrite Nat.eqb_refl; auto.
Qed.

Fixpoint tri_run (rs : list nat) (st : fmat * fmat) : fmat * fmat :=
  match rs with [] => st | r :: rest => tri_run rest (step rest r st) end.

Variables A0 b0 : fmat.
Variable all : list nat.
Hypothesis nd : NoDup all.
Hypothesis finA : forall i j, In i all -> In j all -> fin (A0 i j) = true.
Hypothesis tri : forall pre t post, all = pre ++ t :: post -> forall j, In j post -> val (A0 t j) = 0.

Definition term (b : fmat) (t c k : nat) : R := val (A0 t k) * val (b k c).
Definition Inv (ds rest : list nat) (A b : fmat) : Prop :=
  (forall t j, In t rest -> In j rest -> fin (A t j) = true /\ val (A t j) = val (A0 t j)) /\
  (forall t c, In t rest -> fin (b t c) = true ->
     chain (length ds) (val (b0 t c)) (lsum (term b t c) ds) (lsum (fun k => Rabs (term b t c k)) ds) (val (b t c))) /\
  (forall t c, In t all -> fin (b t c) = true -> fin (b0 t c) = true) /\
  (forall t c, In t ds -> fin (b t c) = true ->
     Rabs (val (b0 t c) - lsum (term b t c) ds) <= bound (length ds) (lsum (fun k => Rabs (term b t c k)) ds) (Rabs (val (A0 t t)))).

Lemma inv_step ds r rest A b : all = ds ++ r :: rest -> val (A0 r r) <> 0 -> Inv ds (r :: rest) A b ->
  Inv (ds ++ [r]) rest (fst (step rest r (A, b))) (snd (step rest r (A, b))).
Proof.
intros ea l0' [i1 [i2 [i4 i3]]]; assert (nd' := nd); rewrite ea in nd'; apply NoDup_remove in nd'; destruct nd' as [nd1 nd2].
assert (ndr : NoDup rest) by (clear - nd1; induction ds as [|x ds IH]; [exact nd1|]; inversion nd1; auto).
assert (nr : ~ In r rest) by (intro h; apply nd2, in_or_app; auto).
assert (nds : ~ In r ds) by (intro h; apply nd2, in_or_app; auto).
assert (dis : forall k, In k ds -> ~ In k rest).
{ clear - nd1; induction ds as [|x ds IH]; [intros k []|]; simpl in nd1; inversion nd1 as [|y l h1 h2]; subst; intros k [->|h]; [intro h; apply h1, in_or_app; auto|apply IH; auto]. }
assert (ina : forall k, In k (r :: rest) -> In k all) by (intros k h; rewrite ea; apply in_or_app; auto).
assert (E := stepE rest r A b ndr nr); cbv zeta in E; set (A' := fst (step rest r (A, b))) in *; set (b' := snd (step rest r (A, b))) in *.
destruct (i1 r r (or_introl eq_refl) (or_introl eq_refl)) as [fl vl].
assert (l0 : val (A r r) <> 0) by (rewrite vl; exact l0').
assert (eds : forall k c, In k ds -> b' k c = b k c).
{ intros k c hk; apply (E k c); [apply dis, hk|intros ->; tauto]. }
assert (er : forall c, b' r c = fdiv (b r c) (A r r)) by (intro c; apply (E r c); reflexivity).
assert (et : forall t c k, In k ds -> term b' t c k = term b t c k) by (intros t c k hk; unfold term; rewrite eds by exact hk; reflexivity).
assert (s1 : forall t c, lsum (term b' t c) (ds ++ [r]) = lsum (term b t c) ds + term b' t c r).
{ intros t c; rewrite lsum_app, (lsum_ext (term b' t c) (term b t c) ds) by (intros; apply et; assumption); unfold lsum at 2; simpl; ring. }
assert (s2 : forall t c, lsum (fun k => Rabs (term b' t c k)) (ds ++ [r]) = lsum (fun k => Rabs (term b t c k)) ds + Rabs (term b' t c r)).
{ intros t c; rewrite lsum_app, (lsum_ext (fun k => Rabs (term b' t c k)) (fun k => Rabs (term b t c k)) ds) by (intros; rewrite et by assumption; reflexivity).
  unfold lsum at 2; simpl; ring. }
assert (tp : forall t c, 0 <= lsum (fun k => Rabs (term b t c k)) ds) by (intros; apply lsum_pos; intros; apply Rabs_pos).
assert (len : length (ds ++ [r]) = S (length ds)) by (rewrite app_length; simpl; lia).
split; [|split; [|split]].
- intros t j ht hj; destruct (proj1 (E t j) ht) as [e _]; rewrite e.
  destruct (i1 t j (or_intror ht) (or_intror hj)) as [f1 v1]; destruct (i1 t r (or_intror ht) (or_introl eq_refl)) as [f2 v2].
  destruct (i1 r j (or_introl eq_refl) (or_intror hj)) as [f3 v3].
  assert (z : val (A r j) = 0) by (rewrite v3; apply (tri ds r rest ea), hj).
  destruct (fdiv_zero prec emax _ _ _ _ f3 z l0) as [f4 v4].
  destruct (fmsub_zero prec emax prec_gt_0_ prec_lt_emax_ fused _ _ _ f1 f2 f4) as [f5 v5]; [rewrite v4; ring|]; rewrite v5; auto.
- intros t c ht; rewrite s1, s2, len; destruct (proj1 (E t c) ht) as [_ e]; rewrite e, <- er; intro f.
  destruct (fmsub_inv prec emax _ _ fused _ _ _ f) as [fb _].
  destruct (i1 t r (or_intror ht) (or_introl eq_refl)) as [_ v2].
  assert (h := fmsub_err prec emax _ _ fused _ _ _ f); rewrite v2 in h.
  exact (chain_step prec emax _ _ _ _ _ _ _ (tp t c) (i2 t c (or_intror ht) fb) h).
- intros t c ht f; apply i4; [exact ht|]; rewrite ea in ht; apply in_app_or in ht; destruct ht as [ht|[<-|ht]].
  + rewrite eds in f by exact ht; exact f.
  + rewrite er in f; apply (fdiv_inv prec emax _ _ _ _ f fl).
  + rewrite (proj2 (proj1 (E t c) ht)) in f; apply (fmsub_inv prec emax _ _ fused _ _ _ f).
- intros t c ht f; rewrite s1, s2, len; apply in_app_or in ht; destruct ht as [ht|[<-|[]]].
  + assert (z : term b' t c r = 0).
    { unfold term; destruct (in_split _ _ ht) as [p1 [p2 ep]].
      assert (ea' : all = p1 ++ t :: (p2 ++ r :: rest)) by (rewrite ea, ep, <- app_assoc; reflexivity).
      rewrite (tri _ _ _ ea' r) by (apply in_or_app; right; left; reflexivity); ring. }
    rewrite z, Rabs_R0, !Rplus_0_r; rewrite eds in f by exact ht; apply Rle_trans with (1 := i3 t c ht f).
    apply bound_mono; [lia|split; [apply tp|lra]|split; [apply Rabs_pos|lra]].
  + rewrite er in f; destruct (fdiv_inv prec emax _ _ _ _ f fl) as [fb _].
    assert (h := fdiv_err prec emax _ _ _ _ f fl); rewrite <- er, vl in h.
    exact (div_bound prec emax _ _ _ _ _ _ _ (tp r c) (Rabs_pos _) (i2 r c (or_introl eq_refl) fb) h).
Qed.

Lemma nodup_split ds (r : nat) rest : all = ds ++ r :: rest -> NoDup rest /\ ~ In r rest.
Proof.
intro ea; assert (h := nd); rewrite ea in h; clear - h; induction ds as [|x ds IH]; simpl in h; inversion h; auto.
Qed.
Lemma run_frame rs : NoDup rs -> forall (A b : fmat) i c, ~ In i rs -> snd (tri_run rs (A, b)) i c = b i c.
Proof.
induction rs as [|r rs IH]; intros n0 A b i c hi; [reflexivity|]; inversion n0 as [|x l n1 n2]; subst; cbn [tri_run].
assert (E := stepE rs r A b n2 n1 i c); cbv zeta in E; simpl in hi; destruct (step rs r (A, b)) as [A' b']; cbn [fst snd] in E.
rewrite IH by tauto; apply E; [tauto|intros ->; tauto].
Qed.
(* the diagonal elements that were used as divisors are not zero if a column of the result is finite *)
Lemma inv_run rest c0 : forall ds A b, all = ds ++ rest -> Inv ds rest A b -> (forall t, In t rest -> fin (snd (tri_run rest (A, b)) t c0) = true) ->
  Inv all [] (fst (tri_run rest (A, b))) (snd (tri_run rest (A, b))) /\ forall t, In t rest -> val (A0 t t) <> 0.
Proof.
induction rest as [|r rest IH]; intros ds A b ea h f.
- rewrite app_nil_r in ea; subst ds; split; [exact h|intros t []].
- cbn [tri_run] in f |- *; destruct (nodup_split ds r rest ea) as [n1 n2].
  assert (E := proj2 (proj2 (stepE rest r A b n1 n2 r c0)) eq_refl); cbv zeta in E.
  assert (h' := inv_step ds r rest A b ea); destruct (step rest r (A, b)) as [A' b']; cbn [fst snd] in E, h'.
  assert (r0 : val (A0 r r) <> 0).
  { assert (fr := f r (or_introl eq_refl)); rewrite run_frame in fr by assumption; rewrite (proj2 E) in fr.
    destruct (proj1 h r r (or_introl eq_refl) (or_introl eq_refl)) as [fl vl]; rewrite <- vl; apply (fdiv_inv prec emax _ _ _ _ fr fl). }
  destruct (IH (ds ++ [r]) A' b') as [h1 h2]; [rewrite <- app_assoc; exact ea|apply h'; assumption|intros t ht; apply f; right; exact ht|].
  split; [exact h1|]; intros t [<-|ht]; auto.
Qed.
Lemma inv_init : Inv [] all A0 b0.
Proof.
split; [|split; [|split]].
- intros t j ht hj; split; [apply finA; assumption|reflexivity].
- intros t c _ _; apply chain0.
- auto.
- intros t c [].
Qed.
Theorem tri_run_residual c : let x := snd (tri_run all (A0, b0)) in (forall t, In t all -> fin (x t c) = true) -> forall t, In t all ->
  val (A0 t t) <> 0 /\ fin (b0 t c) = true /\
  Rabs (val (b0 t c) - lsum (term x t c) all) <= bound (length all) (lsum (fun k => Rabs (term x t c k)) all) (Rabs (val (A0 t t))).
Proof.
intros x f t ht; destruct (inv_run all c [] A0 b0 eq_refl inv_init f) as [[_ [_ [h1 h2]]] h3].
split; [apply h3, ht|split; [apply h1; auto|apply h2; auto]].
Qed.
End FloatTri.

Section Solvers.
Variables prec emax : Z.
Context (prec_gt_0_ : Prec_gt_0 prec) (prec_lt_emax_ : Prec_lt_emax prec emax).
Hypothesis prec1 : (1 < prec)%Z.
Notation val := (@B2R prec emax).
Notation fin := (@is_finite prec emax).
Notation fmat := (fmat prec emax).
Notation bound := (bound prec emax).
Variable fused : bool.
Notation step := (ftri_step prec emax prec_gt_0_ prec_lt_emax_ fused).
Notation tri_run := (tri_run prec emax prec_gt_0_ prec_lt_emax_ fused).

Lemma lower_run n k (st : fmat * fmat) : (k <= n)%nat ->
  fold_left (fun st r => step (seq (S r) (n - S r)) r st) (seq (n - k) k) st = tri_run (seq (n - k) k) st.
Proof.
revert st; induction k as [|k IH]; intros st h; [reflexivity|].
cbn [seq fold_left P_FloatTri.tri_run]; replace (S (n - S k))%nat with (n - k)%nat by lia; rewrite IH by lia; f_equal; f_equal; f_equal; lia.
Qed.
Lemma lowerE n (A b : fmat) : fsolve_lower prec emax prec_gt_0_ prec_lt_emax_ fused n A b = snd (tri_run (seq 0 n) (A, b)).
Proof. unfold fsolve_lower; assert (h := lower_run n n (A, b) (le_n n)); rewrite Nat.sub_diag in h; rewrite h; reflexivity. Qed.
Lemma upperE n (A b : fmat) : fsolve_upper prec emax prec_gt_0_ prec_lt_emax_ fused n A b = snd (tri_run (rev (seq 0 n)) (A, b)).
Proof.
unfold fsolve_upper; f_equal; generalize (A, b); induction n as [|n IH]; intro st; [reflexivity|].
rewrite seq_S, rev_app_distr; cbn [rev app fold_left P_FloatTri.tri_run plus]; apply IH.
Qed.

Lemma lower_residual n (A b : fmat) c : (forall i j, (i < n)%nat -> (j < n)%nat -> fin (A i j) = true) ->
  (forall i j, (i < j)%nat -> (j < n)%nat -> val (A i j) = 0) ->
  let x := fsolve_lower prec emax prec_gt_0_ prec_lt_emax_ fused n A b in (forall i, (i < n)%nat -> fin (x i c) = true) ->
  forall i, (i < n)%nat -> val (A i i) <> 0 /\ fin (b i c) = true /\
  Rabs (val (b i c) - lsum (fun k => val (A i k) * val (x k c)) (seq 0 n)) <=
  bound n (lsum (fun k => Rabs (val (A i k) * val (x k c))) (seq 0 n)) (Rabs (val (A i i))).
Proof.
intros fA t; cbv zeta; rewrite lowerE; intros f i hi.
assert (H := tri_run_residual prec emax _ _ fused A b (seq 0 n) (seq_NoDup n 0)).
rewrite seq_length in H; apply H; clear H.
- intros i' j; rewrite !in_seq; intros; apply fA; lia.
- intros pre t' post e j hj.
  assert (lp : (length pre < n)%nat) by (rewrite <- (seq_length n 0), e, app_length; simpl; lia).
  assert (et : t' = length pre).
  { assert (h := @seq_nth n 0%nat _ 0%nat lp); rewrite e, app_nth2, Nat.sub_diag in h by lia; simpl in h; lia. }
  destruct (In_nth _ _ 0%nat hj) as [m [lm em]].
  assert (l2 : (length pre + S m < n)%nat) by (rewrite <- (seq_length n 0), e, app_length; simpl; lia).
  assert (ej : j = (length pre + S m)%nat).
  { assert (h := @seq_nth n 0%nat _ 0%nat l2); rewrite e, app_nth2 in h by lia; replace (length pre + S m - length pre)%nat with (S m) in h by lia; simpl in h; rewrite em in h; lia. }
  subst t' j; apply t; lia.
- intros t'; rewrite in_seq; intro; apply f; lia.
- rewrite in_seq; lia.
Qed.
Lemma rev_seq_nth n m : (m < n)%nat -> nth m (rev (seq 0 n)) 0%nat = (n - S m)%nat.
Proof. intro h; rewrite rev_nth by (rewrite seq_length; exact h); rewrite seq_length, seq_nth by lia; reflexivity. Qed.
Lemma upper_residual n (A b : fmat) c : (forall i j, (i < n)%nat -> (j < n)%nat -> fin (A i j) = true) ->
  (forall i j, (j < i)%nat -> (i < n)%nat -> val (A i j) = 0) ->
  let x := fsolve_upper prec emax prec_gt_0_ prec_lt_emax_ fused n A b in (forall i, (i < n)%nat -> fin (x i c) = true) ->
  forall i, (i < n)%nat -> val (A i i) <> 0 /\ fin (b i c) = true /\
  Rabs (val (b i c) - lsum (fun k => val (A i k) * val (x k c)) (seq 0 n)) <=
  bound n (lsum (fun k => Rabs (val (A i k) * val (x k c))) (seq 0 n)) (Rabs (val (A i i))).
Proof.
intros fA t; cbv zeta; rewrite upperE; intros f i hi.
assert (H := tri_run_residual prec emax _ _ fused A b (rev (seq 0 n)) (NoDup_rev (seq_NoDup n 0))).
cbv zeta in H; rewrite rev_length, seq_length in H.
rewrite !(lsum_perm _ (seq 0 n) (rev (seq 0 n))) by apply Permutation_rev; apply H; clear H.
- intros i' j; rewrite <- !in_rev, !in_seq; intros; apply fA; lia.
- intros pre t' post e j hj.
  assert (ln : length (rev (seq 0 n)) = n) by (rewrite rev_length, seq_length; reflexivity).
  assert (lp : (length pre < n)%nat) by (rewrite <- ln, e, app_length; simpl; lia).
  assert (et : t' = (n - S (length pre))%nat).
  { assert (h := rev_seq_nth n _ lp); rewrite e, app_nth2, Nat.sub_diag in h by lia; exact h. }
  destruct (In_nth _ _ 0%nat hj) as [m [lm em]].
  assert (l2 : (length pre + S m < n)%nat) by (rewrite <- ln, e, app_length; simpl; lia).
  assert (ej : j = (n - S (length pre + S m))%nat).
  { assert (h := rev_seq_nth n _ l2); rewrite e, app_nth2 in h by lia; replace (length pre + S m - length pre)%nat with (S m) in h by lia; simpl in h; rewrite em in h; exact h. }
  subst t' j; apply t; lia.
- intros t'; rewrite <- in_rev, in_seq; intro; apply f; lia.
- rewrite <- in_rev, in_seq; lia.
Qed.
End Solvers.
