(* Property C72: ForUnrolled calls the function for exactly the iteration range, in order *)
From Coq Require Import ZArith List Lia Sorted.
From Verif Require Import M_Unroll.
Import ListNotations.
Local Open Scope Z_scope.

(* the calls f first, f (first + step), ..., n of them, one after the other *)
Fixpoint calls {State} (f : Z -> State -> State) (first step : Z) (n : nat) (s : State) : State :=
  match n with O => s | S k => calls f (first + step) step k (f first s) end.
(* the number of integers first + k step, k >= 0, below last *)
Definition range (first last step : Z) (n : nat) : Prop :=
  forall k : nat, (k < n)%nat <-> first + Z.of_nat k * step < last.
(* the same above last, for negative steps *)
Definition range_down (first last step : Z) (n : nat) : Prop :=
  forall k : nat, (k < n)%nat <-> last < first + Z.of_nat k * step.

Lemma range_next first last step n : range first last step (S n) -> range (first + step) last step n.
Proof.
intros h k; specialize (h (S k)); rewrite Nat2Z.inj_succ in h.
replace (first + step + Z.of_nat k * step) with (first + Z.succ (Z.of_nat k) * step) by ring.
rewrite <- h; lia.
Qed.
Lemma range_down_next first last step n : range_down first last step (S n) -> range_down (first + step) last step n.
Proof.
intros h k; specialize (h (S k)); rewrite Nat2Z.inj_succ in h.
replace (first + step + Z.of_nat k * step) with (first + Z.succ (Z.of_nat k) * step) by ring.
rewrite <- h; lia.
Qed.

Section C72.
Context {State : Type} (f : Z -> State -> State).

Lemma loopP last step n : forall first s, range first last step n -> loop State f last step first s (calls f first step n s).
Proof.
induction n as [|n IH]; intros first s h.
- apply loop_end; apply Z.ltb_ge; specialize (h 0%nat); simpl in h; lia.
- apply loop_step; [apply Z.ltb_lt; specialize (h 0%nat); simpl in h; lia|].
  simpl; apply IH, range_next, h.
Qed.
Lemma loop_fun last step first s s1 s2 : loop State f last step first s s1 -> loop State f last step first s s2 -> s1 = s2.
Proof.
induction 1 as [i s e|i s s1 e h IH]; inversion 1; subst; try congruence; apply IH; assumption.
Qed.
Lemma for_unrolled_fun last step limit first s s1 s2 :
  for_unrolled State f last step limit first s s1 -> for_unrolled State f last step limit first s s2 -> s1 = s2.
Proof.
induction 1 as [i s s1 e1 e2 h IH|i s e1 e2|i s s1 e1 h]; inversion 1; subst; try congruence.
- apply IH; assumption.
- eapply loop_fun; eassumption.
Qed.

Lemma unrolledP last step limit n : 0 < step -> forall first s, range first last step n ->
  for_unrolled State f last step limit first s (calls f first step n s).
Proof.
intros hs; assert (ps : (0 <? step) = true) by (apply Z.ltb_lt; exact hs).
induction n as [|n IH]; intros first s h.
all: destruct (Z.quot (last - first) step <=? limit) eqn:e; [|apply unroll_loop; [exact e|apply (loopP _ _ _ _ _ h)]].
- apply unroll_end; [exact e|]; rewrite ps; apply Z.ltb_ge; specialize (h 0%nat); simpl in h; lia.
- apply unroll_call; [exact e|rewrite ps; apply Z.ltb_lt; specialize (h 0%nat); simpl in h; lia|].
  simpl; apply IH, range_next, h.
Qed.

(* for any positive step, any bounds and any limit of unrolling: the loop ends, and its only result is that of the calls
   for first, first + step, ... below last in this order *)
Theorem C72_positive first last step limit n s s' : 0 < step -> range first last step n ->
  for_unrolled State f last step limit first s s' <-> s' = calls f first step n s.
Proof.
intros hs h; split; intro e.
- eapply for_unrolled_fun; [exact e|apply unrolledP; assumption].
- subst; apply unrolledP; assumption.
Qed.
End C72.
Print Assumptions C72_positive.

(* the range always exists *)
Theorem C72_range first last step : 0 < step -> exists n, range first last step n.
Proof.
intro hs; exists (Z.to_nat ((last - first + step - 1) / step)); intro k.
assert (e := Z.div_mod (last - first + step - 1) step ltac:(lia)).
assert (b := Z.mod_pos_bound (last - first + step - 1) step hs).
set (q := (last - first + step - 1) / step) in *; set (r := (last - first + step - 1) mod step) in *.
split; intro h; [assert (Z.of_nat k + 1 <= q) by lia; nia|].
assert (Z.of_nat k < q) by nia; lia.
Qed.
Print Assumptions C72_range.

(* the list of the arguments, read off by a function that records them: it is increasing, and it contains
   exactly the numbers first + k step below last *)
Theorem C72_trace first last step limit trace : 0 < step ->
  for_unrolled (list Z) (fun i s => s ++ [i]) last step limit first [] trace ->
  StronglySorted Z.lt trace /\ (forall x, In x trace <-> exists k : nat, x = first + Z.of_nat k * step /\ x < last).
Proof.
intros hs h; destruct (C72_range first last step hs) as [n hn].
apply (C72_positive _ _ _ _ _ _ _ _ hs hn) in h; subst trace.
assert (e : forall s, calls (fun i s => s ++ [i]) first step n s = s ++ map (fun k => first + Z.of_nat k * step) (seq 0 n)).
  clear hn; revert first; induction n as [|n IH]; intros first s; simpl; [rewrite app_nil_r; reflexivity|].
  rewrite IH, <- app_assoc; f_equal; simpl; f_equal; [lia|].
  rewrite <- seq_shift, map_map; apply map_ext; intro k; lia.
rewrite e; simpl; split.
- clear hn e; generalize 0%nat as m; induction n as [|n IH]; intro m; simpl; constructor; [apply IH|].
  apply Forall_forall; intros x hx; apply in_map_iff in hx; destruct hx as [k [<- hk]]; apply in_seq in hk; nia.
- intro x; rewrite in_map_iff; split.
  + intros [k [<- hk]]; apply in_seq in hk; exists k; split; [reflexivity|apply hn; lia].
  + intros [k [-> hk]]; exists k; split; [reflexivity|]; apply in_seq; apply hn in hk; lia.
Qed.
Print Assumptions C72_trace.

(* negative steps: the unrolled form counts down *)
Theorem C72_down {State} (f : Z -> State -> State) first last step limit n s s' : step < 0 ->
  range_down first last step n -> Z.quot (last - first) step <= limit ->
  for_unrolled State f last step limit first s s' <-> s' = calls f first step n s.
Proof.
intros hs h hl; assert (ps : (0 <? step) = false) by (apply Z.ltb_ge; lia).
assert (P : for_unrolled State f last step limit first s (calls f first step n s)).
{ revert first s h hl; induction n as [|n IH]; intros first s h hl.
  - apply unroll_end; [apply Z.leb_le; exact hl|]; rewrite ps; apply Z.ltb_ge; specialize (h 0%nat); simpl in h; lia.
  - assert (h0 := h 0%nat); simpl in h0.
    apply unroll_call; [apply Z.leb_le; exact hl|rewrite ps; apply Z.ltb_lt; lia|].
    simpl; apply IH; [apply range_down_next, h|].
    apply Z.le_trans with (2 := hl).
    replace (last - (first + step)) with (- (first - last + step)) by ring.
    replace (last - first) with (- (first - last)) by ring.
    replace step with (- (- step)) at 2 3 by ring; rewrite !Z.quot_opp_opp by lia.
    destruct (Z_le_gt_dec 0 (first - last + step)); [apply Z.quot_le_mono; lia|].
    apply Z.le_trans with 0; [|apply Z.quot_pos; lia].
    replace (first - last + step) with (- (- (first - last + step))) by ring; rewrite Z.quot_opp_l by lia.
    assert (0 <= Z.quot (- (first - last + step)) (- step)) by (apply Z.quot_pos; lia); lia. }
split; intro e; [eapply for_unrolled_fun; [exact e|exact P]|subst; exact P].
Qed.
Print Assumptions C72_down.
(* but beyond the limit the function is not called at all: with a negative step the number of calls depends on
   whether the loop is unrolled *)
Theorem C72_down_skipped {State} (f : Z -> State -> State) first last step limit s s' : step < 0 -> last < first ->
  limit < Z.quot (last - first) step ->
  for_unrolled State f last step limit first s s' <-> s' = s.
Proof.
intros hs hl h.
assert (P : for_unrolled State f last step limit first s s).
  apply unroll_loop; [apply Z.leb_gt; exact h|apply loop_end, Z.ltb_ge; lia].
split; intro e; [eapply for_unrolled_fun; [exact e|exact P]|subst; exact P].
Qed.
Print Assumptions C72_down_skipped.

(* 0, 3, 6, 9 below 11, unrolled or not; and the countdown 5, 4, 3 that disappears beyond the limit 2 *)
Example C72_example : range 0 11 3 4 /\
  for_unrolled (list Z) (fun i s => s ++ [i]) 11 3 8 0 [] [0; 3; 6; 9] /\
  for_unrolled (list Z) (fun i s => s ++ [i]) 11 3 2 0 [] [0; 3; 6; 9].
Proof.
assert (r : range 0 11 3 4) by (intro k; lia).
split; [exact r|split; (refine (proj2 (C72_positive _ _ _ _ _ 4 _ _ _ r) _); [lia|reflexivity])].
Qed.
Example C72_down_example : for_unrolled (list Z) (fun i s => s ++ [i]) 2 (-1) 3 5 [] [5; 4; 3] /\
  for_unrolled (list Z) (fun i s => s ++ [i]) 2 (-1) 2 5 [] [].
Proof.
split; [|apply C72_down_skipped; try reflexivity; lia].
assert (r : range_down 5 2 (-1) 3) by (intro k; lia).
refine (proj2 (C72_down _ _ _ _ _ 3 _ _ _ r _) _); [lia|vm_compute; discriminate|reflexivity].
Qed.
