(* Property C82: the common arithmetic type *)
From Coq Require Import List Bool Arith Lia.
From Verif Require Import M_Types.
Import ListNotations.

Section C82.
Variable ty : Type.
Variable plus : ty -> ty -> option ty.
(* the type of t1 + t2 + ... *)
Definition sum_type (first : ty) (rest : list ty) : option ty :=
  fold_left (fun acc t => match acc with Some a => plus a t | None => None end) rest (Some first).

Lemma sum_none rest : fold_left (fun acc t => match acc with Some a => plus a t | None => None end) rest None = None.
Proof. induction rest as [|t rest IH]; [reflexivity|exact IH]. Qed.
Lemma common_sum rest first : common_type ty plus (Type_ first) rest =
  match sum_type first rest with Some t => Type_ t | None => Void end.
Proof.
revert first; induction rest as [|t rest IH]; intro first; [reflexivity|].
unfold sum_type in *; simpl; unfold get_type; destruct (plus first t) as [c|]; [apply IH|].
rewrite sum_none; clear; induction rest as [|t rest IH]; [reflexivity|exact IH].
Qed.

(* for up to two types; there is no sum of no types *)
Theorem C82_two (a b : ty) :
  common_arithmetic_type ty plus [] = Some None /\ common_arithmetic_type ty plus [a] = Some (Some (Type_ a)) /\ common_arithmetic_type ty plus [a; b] = Some (match plus a b with Some c => Some (Type_ c) | None => None end).
Proof.
split; [reflexivity|]; split; [reflexivity|].
unfold common_arithmetic_type; simpl; unfold is_valid, get_type; destruct (plus a b); reflexivity.
Qed.

(* for any number of types of a family closed under addition: the type of their sum *)
Theorem C82_family (P : ty -> Prop) : (forall a b, P a -> P b -> exists c, plus a b = Some c /\ P c) ->
  forall first rest, P first -> Forall P rest ->
  exists t, P t /\ sum_type first rest = Some t /\ common_arithmetic_type ty plus (first :: rest) = Some (Some (Type_ t)).
Proof.
intros H first rest h1 h2; unfold common_arithmetic_type.
assert (V : valid ty plus first rest = true).
{ revert first h1; induction h2 as [|t rest ht h2 IH]; intros first h1; [reflexivity|]; simpl; unfold is_valid.
  destruct (H first t h1 ht) as [c [-> _]]; rewrite (IH t ht); reflexivity. }
assert (W : well_formed ty plus (Type_ first) rest = true).
{ clear V; revert first h1; induction h2 as [|t rest ht h2 IH]; intros first h1; [reflexivity|]; simpl; unfold get_type.
  destruct (H first t h1 ht) as [c [-> hc]]; rewrite (IH c hc), (IH t ht); reflexivity. }
assert (S : exists t, P t /\ sum_type first rest = Some t).
{ clear V W; revert first h1; induction h2 as [|t rest ht h2 IH]; intros first h1; [exists first; split; [exact h1|reflexivity]|].
  unfold sum_type; simpl; destruct (H first t h1 ht) as [c [-> hc]]; exact (IH c hc). }
destruct S as [t [ht S]]; exists t; split; [exact ht|]; split; [exact S|]; rewrite W, V, common_sum, S; reflexivity.
Qed.

(* in general: a type that is not void is the type of the sum *)
Theorem C82_sound_partial first rest t : common_arithmetic_type ty plus (first :: rest) = Some (Some (Type_ t)) -> sum_type first rest = Some t.
Proof.
unfold common_arithmetic_type; destruct (well_formed _ _ _ _); [|discriminate]; destruct (valid _ _ _ _); [|discriminate].
rewrite common_sum; destruct (sum_type first rest); intro h; inversion h; reflexivity.
Qed.
(* and it is found exactly if moreover all neighbours can be added, and all sums over a run of types ending before the last *)
Theorem C82_exact_partial first rest t : common_arithmetic_type ty plus (first :: rest) = Some (Some (Type_ t)) <->
  sum_type first rest = Some t /\ (forall l a b m, first :: rest = l ++ a :: b :: m -> plus a b <> None) /\
  (forall l a r m, first :: rest = l ++ a :: r ++ m -> m <> [] -> sum_type a r <> None).
Proof.
assert (V : valid ty plus first rest = true <-> forall l a b m, first :: rest = l ++ a :: b :: m -> plus a b <> None).
{ revert first; induction rest as [|t2 rest IH]; intro first; simpl.
  - split; [|reflexivity]; intros _ l a b m h; destruct l as [|? [|? ?]]; discriminate.
  - rewrite andb_true_iff, IH; split.
    + intros [h1 h2] [|x l] a b m e; simpl in e; inversion e; subst; [|apply (h2 l a b m); assumption].
      unfold is_valid in h1; destruct (plus a b); discriminate.
    + intro h; split; [generalize (h [] first t2 rest eq_refl); unfold is_valid; destruct (plus first t2); tauto|].
      intros l a b m e; apply (h (first :: l) a b m); rewrite e; reflexivity. }
assert (W : well_formed ty plus (Type_ first) rest = true <-> forall l a r m, first :: rest = l ++ a :: r ++ m -> m <> [] -> sum_type a r <> None).
{ clear V t; revert first; induction rest as [|t2 rest IH]; intro first; simpl.
  - split; [|reflexivity]; intros _ [|x l] a r m e nm; simpl in e; inversion e as [[e1 e2]].
    + destruct r; [discriminate|discriminate].
    + destruct l; discriminate.
  - rewrite andb_true_iff, (IH t2); unfold get_type; split.
    + intros [h1 h2] [|x l] a r m e nm; simpl in e; inversion e as [[e1 e2]]; subst; [|apply (h2 l a r m); assumption].
      destruct r as [|y r]; [discriminate|]; simpl in e2; inversion e2; subst; unfold sum_type; simpl.
      destruct (plus a y) as [c|].
      * rewrite (IH c) in h1; apply (h1 [] c r m eq_refl nm).
      * destruct r; [destruct m; [tauto|discriminate]|discriminate].
    + intro h; split.
      * destruct (plus first t2) as [c|] eqn:E.
        -- rewrite (IH c); intros [|x l] a r m e nm; simpl in e; inversion e as [[e1 e2]]; subst.
           ++ generalize (h [] first (t2 :: r) m eq_refl nm); unfold sum_type; simpl; rewrite E; tauto.
           ++ apply (h (first :: t2 :: l) a r m); [simpl; congruence|exact nm].
        -- destruct rest as [|y rest]; [reflexivity|]; exfalso.
           apply (h [] first [t2] (y :: rest) eq_refl); [discriminate|]; unfold sum_type; simpl; exact E.
      * intros l a r m e nm; apply (h (first :: l) a r m); [simpl; congruence|exact nm]. }
unfold common_arithmetic_type; rewrite <- V, <- W, common_sum.
destruct (well_formed _ _ _ _), (valid _ _ _ _), (sum_type first rest) as [s|]; split; intro h; try discriminate;
  try (inversion h; subst; tauto); try (destruct h as [h1 [h2 h3]]; congruence); try (destruct h as [h1 h2]; inversion h1; subst; reflexivity).
Qed.
End C82.
Print Assumptions C82_two.
Print Assumptions C82_family.
Print Assumptions C82_sound_partial.
Print Assumptions C82_exact_partial.

(** * The arithmetic types of C++ *)
(* the real types from the promoted integers to long double in the order of the usual arithmetic conversions (unsigned types are
   left out), and their complex types *)
Inductive real_ty := Int | Long | Float | Double | LongDouble.
Inductive arith := Real_ (t : real_ty) | Complex_ (t : real_ty).
Definition rank (t : real_ty) : nat := match t with Int => 0 | Long => 1 | Float => 2 | Double => 3 | LongDouble => 4 end.
Definition real_eqb a b := rank a =? rank b.
(* [expr.arith.conv], [complex.ops]: complex<T> + complex<T>, complex<T> + T, T + complex<T>, nothing else *)
Definition cxx_plus (a b : arith) : option arith :=
  match a, b with
  | Real_ s, Real_ t => Some (Real_ (if rank s <=? rank t then t else s))
  | Complex_ s, Real_ t | Real_ s, Complex_ t | Complex_ s, Complex_ t => if real_eqb s t then Some (Complex_ s) else None
  end.

(* real types: the type of highest rank *)
Theorem C82_real (first : real_ty) (rest : list real_ty) :
  exists t, common_arithmetic_type arith cxx_plus (map Real_ (first :: rest)) = Some (Some (Type_ (Real_ t))) /\
    In t (first :: rest) /\ forall s, In s (first :: rest) -> rank s <= rank t.
Proof.
destruct (C82_family arith cxx_plus (fun a => exists t, a = Real_ t)) with (first := Real_ first) (rest := map Real_ rest) as [t [[s ->] [h1 h2]]].
- intros a b [s ->] [t ->]; eexists; split; [reflexivity|eexists; reflexivity].
- exists first; reflexivity.
- apply Forall_forall; intros x hx; apply in_map_iff in hx; destruct hx as [t [<- _]]; exists t; reflexivity.
- exists s; split; [exact h2|]; clear h2; revert first h1; induction rest as [|t rest IH]; intros first h.
  + unfold sum_type in h; simpl in h; inversion h; subst; simpl; split; [tauto|]; intros x [->|[]]; lia.
  + change (sum_type arith cxx_plus (Real_ (if rank first <=? rank t then t else first)) (map Real_ rest) = Some (Real_ s)) in h.
    destruct (IH _ h) as [h1 h2]; destruct (Nat.leb_spec (rank first) (rank t)) as [l|l].
    * split; [simpl in *; tauto|]; intros x [->|[->|hx]]; [apply Nat.le_trans with (1 := l)| |]; apply h2; simpl; tauto.
    * split; [simpl in *; tauto|]; intros x [->|[->|hx]]; [|apply Nat.le_trans with (rank first); [lia|]|]; apply h2; simpl; tauto.
Qed.
Print Assumptions C82_real.
(* complex types and reals of the same precision *)
Theorem C82_complex (p : real_ty) (first : arith) (rest : list arith) :
  Forall (fun a => a = Real_ p \/ a = Complex_ p) (first :: rest) -> In (Complex_ p) (first :: rest) ->
  common_arithmetic_type arith cxx_plus (first :: rest) = Some (Some (Type_ (Complex_ p))).
Proof.
intros hF hC; assert (E : real_eqb p p = true) by (unfold real_eqb; apply Nat.eqb_refl).
destruct (C82_family arith cxx_plus (fun a => a = Real_ p \/ a = Complex_ p)) with (first := first) (rest := rest) as [t [ht [h1 ->]]].
- intros a b [->| ->] [->| ->]; simpl; rewrite ?E; eexists; (split; [reflexivity|]); try (right; reflexivity).
  left; destruct (rank p <=? rank p); reflexivity.
- inversion hF; assumption.
- inversion hF; assumption.
- do 3 f_equal; clear ht; revert first hF hC h1; induction rest as [|x rest IH]; intros first hF hC h.
  + destruct hC as [->|[]]; inversion h; reflexivity.
  + inversion hF as [|? ? f1 hF1]; inversion hF1 as [|? ? f2 hF2]; subst; unfold sum_type in h; simpl in h.
    assert (R : forall y, y = Real_ p \/ y = Complex_ p -> (y = Complex_ p \/ In (Complex_ p) rest) ->
      fold_left (fun acc t => match acc with Some a => cxx_plus a t | None => None end) rest (Some y) = Some t -> t = Complex_ p).
    { intros y hy hy' h'; apply (IH y); [constructor; assumption|simpl; destruct hy' as [->|]; tauto|exact h']. }
    destruct f1 as [->| ->], f2 as [->| ->]; simpl in h; rewrite ?E in h.
    * replace (if rank p <=? rank p then p else p) with p in h by (destruct (rank p <=? rank p); reflexivity).
      apply (R (Real_ p)); [tauto| |exact h]; destruct hC as [e|[e|e]]; try discriminate; tauto.
    * apply (R (Complex_ p)); [tauto|tauto|exact h].
    * apply (R (Complex_ p)); [tauto|tauto|exact h].
    * apply (R (Complex_ p)); [tauto|tauto|exact h].
Qed.
Print Assumptions C82_complex.

(* complex<float>, float, double: the neighbours can be added, the sum cannot; the common type is void *)
Theorem C82_void_refuted : exists first rest, sum_type arith cxx_plus first rest = None /\
  common_arithmetic_type arith cxx_plus (first :: rest) = Some (Some Void).
Proof. exists (Complex_ Float), [Real_ Float; Real_ Double]; split; reflexivity. Qed.
Print Assumptions C82_void_refuted.
(* float, int, complex<float>: the sum can be formed, the last two types cannot be added; there is no common type *)
Theorem C82_missing_refuted : exists first rest, sum_type arith cxx_plus first rest = Some (Complex_ Float) /\
  common_arithmetic_type arith cxx_plus (first :: rest) = Some None.
Proof. exists (Real_ Float), [Real_ Int; Complex_ Float]; split; reflexivity. Qed.
Print Assumptions C82_missing_refuted.

Example C82_example : common_arithmetic_type arith cxx_plus (map Real_ [Int; Float; Double; Long]) = Some (Some (Type_ (Real_ Double))) /\
  common_arithmetic_type arith cxx_plus [Real_ Float; Complex_ Float; Real_ Float] = Some (Some (Type_ (Complex_ Float))).
Proof. split; reflexivity. Qed.
