(* Lemmas about reading and writing streams *)
From Coq Require Import ZArith List Ascii Bool Lia.
From Verif Require Import M_Stream.
Import ListNotations.
Local Open Scope char_scope.

(** * Functions on texts equal to the loops *)
Lemma rws_open t fuel : (length t < fuel)%nat -> read_while_space fuel (open t) =
  match skip_space t with [] => Ok None (Stream [] true false) | c :: r => Ok (Some c) (open (c :: r)) end.
Proof.
revert fuel; induction t as [|c t IH]; intros [|fuel] h; simpl in h; try lia; [reflexivity|].
simpl; destruct (space c); [apply IH; lia|reflexivity].
Qed.
Lemma rws_bad s fuel : good s = false -> read_while_space (S fuel) s = Throw Runtime_error s.
Proof. intro h; simpl; rewrite h; reflexivity. Qed.

Fixpoint take (depth : Z) (t : text) : option (text * text) :=
  match t with
  | [] => None
  | c :: t =>
    let d := next_depth c depth in
    if (0 <? d)%Z then match take d t with Some (a, b) => Some (c :: a, b) | None => None end else Some ([c], t)
  end.
Lemma read_array_loopE t : forall fuel depth str, (length t < fuel)%nat -> read_array_loop fuel depth str (open t) =
  match take depth t with Some (a, b) => Ok (str ++ a) (open b) | None => Throw Invalid_argument (Stream [] true true) end.
Proof.
induction t as [|c t IH]; intros [|fuel] depth str h; simpl in h; try lia; [reflexivity|].
simpl; destruct (0 <? next_depth c depth)%Z; [|reflexivity].
change (Stream t false false) with (open t); rewrite IH by lia.
destruct (take (next_depth c depth) t) as [[a b]|]; [rewrite <- app_assoc|]; reflexivity.
Qed.
Lemma read_arrayE t : read_array (open t) =
  match take 0 t with Some (a, b) => Ok a (open b) | None => Throw Invalid_argument (Stream [] true true) end.
Proof. unfold read_array; rewrite read_array_loopE by (simpl; lia); reflexivity. Qed.

Fixpoint splits (sep : ascii) (d : Z) (cur : text) (t : text) : list text :=
  match t with
  | [] => [cur]
  | c :: t =>
    if (c =? "[")%char then splits sep (wrap (d + 1)) (cur ++ [c]) t
    else if (c =? "]")%char then splits sep (wrap (d - 1)) (cur ++ [c]) t
    else if ((d =? 0)%Z && (c =? sep)%char) then cur :: splits sep d [] t
    else splits sep d (cur ++ [c]) t
  end.
Lemma split_loop str sep t : forall pre cur d subs, str = pre ++ cur ++ t ->
  (let '(prev, _, substrings) := fold_left (split_step str sep) (seq (length (pre ++ cur)) (length t)) (length pre, d, subs) in
   substrings ++ [substr str prev (length str)]) = subs ++ splits sep d cur t.
Proof.
induction t as [|c t IH]; intros pre cur d subs e.
- simpl; f_equal; f_equal; unfold substr; subst str; rewrite app_nil_r, skipn_app, skipn_all, Nat.sub_diag; simpl.
  apply firstn_all2; rewrite app_length; lia.
- simpl fold_left.
  change (match fold_left (split_step str sep) (seq (S (length (pre ++ cur))) (length t)) (split_step str sep (length pre, d, subs) (length (pre ++ cur))) with (prev, _, substrings) => substrings ++ [substr str prev (length str)] end = subs ++ splits sep d cur (c :: t)).
  unfold split_step at 2; simpl splits.
  assert (n : nth (length (pre ++ cur)) str "000" = c).
  { subst str; rewrite app_assoc, app_nth2 by lia; rewrite Nat.sub_diag; reflexivity. }
  rewrite n.
  assert (l : S (length (pre ++ cur)) = length (pre ++ (cur ++ [c]))) by (rewrite !app_length; simpl; lia).
  assert (e' : str = pre ++ (cur ++ [c]) ++ t) by (rewrite e, <- (app_assoc cur); reflexivity).
  destruct (c =? "[")%char; [rewrite l; apply IH; exact e'|].
  destruct (c =? "]")%char; [rewrite l; apply IH; exact e'|].
  destruct ((d =? 0)%Z && (c =? sep)%char); [|rewrite l; apply IH; exact e'].
  specialize (IH (pre ++ cur ++ [c]) [] d (subs ++ [cur])).
  replace (substr str (length pre) (length (pre ++ cur) - length pre)) with cur.
  + rewrite <- (app_assoc subs) in IH.
    refine (eq_trans _ (IH _)); [|rewrite e'; rewrite <- !app_assoc; reflexivity].
    rewrite l, app_nil_r; replace (length (pre ++ cur) + 1)%nat with (length (pre ++ cur ++ [c])) by (rewrite !app_length; simpl; lia).
    reflexivity.
  + unfold substr; subst str; rewrite skipn_app, skipn_all, Nat.sub_diag; simpl.
    rewrite app_length; replace (length pre + length cur - length pre)%nat with (length cur) by lia.
    rewrite firstn_app, firstn_all, Nat.sub_diag; simpl; rewrite app_nil_r; reflexivity.
Qed.
Lemma split_arrayE str sep : split_array str sep = splits sep 0 [] str.
Proof. exact (split_loop str sep str [] [] 0%Z [] eq_refl). Qed.

(** * Nesting *)
(* the depth after a text, starting at depth d and never exceeding k; None if it falls below 0, exceeds k, or if the separator occurs
   at depth 0 *)
Fixpoint walk (sep : option ascii) (k d : nat) (t : text) : option nat :=
  match t with
  | [] => Some d
  | c :: t =>
    if (c =? "[")%char then if (d <? k)%nat then walk sep k (S d) t else None
    else if (c =? "]")%char then match d with O => None | S d => walk sep k d t end
    else if ((d =? 0)%nat && match sep with Some s => (c =? s)%char | None => false end) then None
    else walk sep k d t
  end.
Lemma walk_app sep k t u : forall d, walk sep k d (t ++ u) = match walk sep k d t with Some e => walk sep k e u | None => None end.
Proof.
induction t as [|c t IH]; intro d; simpl; [reflexivity|].
destruct (c =? "[")%char; [destruct (d <? k)%nat; [apply IH|reflexivity]|].
destruct (c =? "]")%char; [destruct d; [reflexivity|apply IH]|].
destruct ((d =? 0)%nat && _); [reflexivity|apply IH].
Qed.
Lemma walk_mono sep k k' t : (k <= k')%nat -> forall d e, walk sep k d t = Some e -> walk sep k' d t = Some e.
Proof.
intro hk; induction t as [|c t IH]; intros d e; simpl; [auto|].
destruct (c =? "[")%char.
  destruct (d <? k)%nat eqn:h; [|discriminate]; apply Nat.ltb_lt in h.
  replace (d <? k')%nat with true by (symmetry; apply Nat.ltb_lt; lia); apply IH.
destruct (c =? "]")%char; [destruct d; [discriminate|apply IH]|].
destruct ((d =? 0)%nat && _); [discriminate|apply IH].
Qed.
Lemma walk_shift sep sep' k t : forall d e, walk sep k d t = Some e -> walk sep' (S k) (S d) t = Some (S e).
Proof.
induction t as [|c t IH]; intros d e; simpl; [congruence|].
destruct (c =? "[")%char.
  change (S d <? S k)%nat with (d <? k)%nat; destruct (d <? k)%nat; [apply IH|discriminate].
destruct (c =? "]")%char; [destruct d; [discriminate|apply IH]|].
destruct ((d =? 0)%nat && _); [discriminate|apply IH].
Qed.
Lemma walk_weak sep k t : forall d e, walk sep k d t = Some e -> walk None k d t = Some e.
Proof.
induction t as [|c t IH]; intros d e; simpl; [auto|].
destruct (c =? "[")%char; [destruct (d <? k)%nat; [apply IH|discriminate]|].
destruct (c =? "]")%char; [destruct d; [discriminate|apply IH]|].
rewrite andb_false_r; destruct ((d =? 0)%nat && _); [discriminate|apply IH].
Qed.
(* texts without brackets and separator *)
Definition plain (sep : ascii) (t : text) : Prop := Forall (fun c => c <> "[" /\ c <> "]" /\ c <> sep) t.
Lemma neqb c d : c <> d -> (c =? d)%char = false.
Proof. apply Ascii.eqb_neq. Qed.
Lemma walk_plain sep k t : plain sep t -> forall d, walk (Some sep) k d t = Some d.
Proof.
induction 1 as [|c t [h1 [h2 h3]] h IH]; intro d; simpl; [reflexivity|].
rewrite !neqb by assumption; rewrite andb_false_r; apply IH.
Qed.

Lemma wrap_small n : (0 <= n < 2 ^ 64)%Z -> wrap n = n.
Proof. apply Z.mod_small. Qed.
Lemma take_walk sep k base t u : forall d e, walk sep k d t = Some e -> (d <= k)%nat -> (1 <= base)%Z -> (base + Z.of_nat k < 2 ^ 64)%Z ->
  take (base + Z.of_nat d) (t ++ u) =
  match take (base + Z.of_nat e) u with Some (a, b) => Some (t ++ a, b) | None => None end.
Proof.
induction t as [|c t IH]; intros d e w hd hb hk; simpl in w.
  injection w as <-; simpl; destruct (take (base + Z.of_nat d) u) as [[a b]|]; reflexivity.
assert (H : exists d', (d' <= k)%nat /\ walk sep k d' t = Some e /\ next_depth c (base + Z.of_nat d) = (base + Z.of_nat d')%Z).
{ unfold next_depth; destruct (c =? "[")%char.
    destruct (d <? k)%nat eqn:h; [|discriminate]; apply Nat.ltb_lt in h.
    exists (S d); repeat split; [lia|exact w|]; rewrite wrap_small; lia.
  destruct (c =? "]")%char.
    destruct d as [|d]; [discriminate|]; exists d; repeat split; [lia|exact w|]; rewrite wrap_small; lia.
  destruct ((d =? 0)%nat && _); [discriminate|]; exists d; repeat split; [lia|exact w]. }
destruct H as [d' [h1 [h2 h3]]]; simpl; rewrite h3.
replace (0 <? base + Z.of_nat d')%Z with true by (symmetry; apply Z.ltb_lt; lia).
rewrite (IH d' e h2 h1 hb hk); destruct (take (base + Z.of_nat e) u) as [[a b]|]; reflexivity.
Qed.
Lemma splits_walk sep k t u : forall d e cur, walk (Some sep) k d t = Some e -> (d <= k)%nat -> (Z.of_nat k < 2 ^ 64)%Z ->
  splits sep (Z.of_nat d) cur (t ++ u) = splits sep (Z.of_nat e) (cur ++ t) u.
Proof.
induction t as [|c t IH]; intros d e cur w hd hk; simpl in w.
  injection w as <-; rewrite app_nil_r; reflexivity.
replace (cur ++ c :: t) with ((cur ++ [c]) ++ t) by (rewrite <- app_assoc; reflexivity); simpl.
destruct (c =? "[")%char.
  destruct (d <? k)%nat eqn:h; [|discriminate]; apply Nat.ltb_lt in h.
  rewrite wrap_small by lia; replace (Z.of_nat d + 1)%Z with (Z.of_nat (S d)) by lia; apply (IH (S d)); [exact w|lia|exact hk].
destruct (c =? "]")%char.
  destruct d as [|d]; [discriminate|]; rewrite wrap_small by lia.
  replace (Z.of_nat (S d) - 1)%Z with (Z.of_nat d) by lia; apply (IH d); [exact w|lia|exact hk].
replace (Z.of_nat d =? 0)%Z with (d =? 0)%nat; [|destruct d; reflexivity].
destruct ((d =? 0)%nat && _); [discriminate|]; apply IH; assumption.
Qed.

Lemma Forall2_len {A B} (R : A -> B -> Prop) l m : Forall2 R l m -> length l = length m.
Proof. induction 1; simpl; congruence. Qed.

(** * Elements and arrays *)
Definition spaces (t : text) : Prop := Forall (fun c => space c = true) t.
Lemma skip_spaces ws t : spaces ws -> skip_space (ws ++ t) = skip_space t.
Proof. induction 1 as [|c ws h _ IH]; simpl; [reflexivity|rewrite h; exact IH]. Qed.

Section Arrays.
Context {T : Type} (print : T -> text) (parse : T -> stream -> outcome T).
(* the initial contents have the same type as the result: for rows, the same length *)
Variable same : T -> T -> Prop.
(* x is printed as a text of nesting at most k without a comma outside brackets, and is read from its text preceded by
   spaces whatever the initial contents *)
Definition reads (k : nat) (x : T) : Prop :=
  walk (Some ",") k 0 (print x) = Some 0%nat /\
  forall ws old, spaces ws -> same old x -> exists s, parse old (open (ws ++ print x)) = Ok x s.

Lemma split_elements k x l : (Z.of_nat k < 2 ^ 64)%Z -> Forall (reads k) (x :: l) ->
  forall cur, splits "," 0 cur (print_elements print (x :: l)) = (cur ++ print x) :: map (fun y => " " :: print y) l.
Proof.
intro hk; revert x; induction l as [|y l IH]; intros x h cur; inversion h as [|? ? [wx _] h']; subst.
- change (print_elements print [x]) with (print x); rewrite <- (app_nil_r (print x)) at 1.
  rewrite (splits_walk _ k _ _ 0 0) by (assumption || lia); reflexivity.
- change (print_elements print (x :: y :: l)) with (print x ++ "," :: " " :: print_elements print (y :: l)).
  rewrite (splits_walk _ k _ _ 0 0) by (assumption || lia).
  exact (f_equal (cons (cur ++ print x)) (IH y h' [" "])).
Qed.
Lemma parse_all k l : Forall (reads k) l -> forall olds ts s, Forall2 same olds l ->
  Forall2 (fun t x => exists ws, spaces ws /\ t = ws ++ print x) ts l ->
  parse_elements parse olds ts s = Ok l s.
Proof.
induction 1 as [|x l [_ hx] h IH]; intros olds ts s hl hf; inversion hl as [|old ? olds' ? so hl']; inversion hf as [|t ? ts' ? [ws [hws ->]] hf']; subst; [reflexivity|].
simpl; destruct (hx ws old hws so) as [s' ->]; rewrite (IH olds' ts' s hl' hf'); reflexivity.
Qed.
Lemma walk_elements k l : Forall (reads k) l -> walk (Some ",") (S k) 1 (print_elements print l) = Some 1%nat.
Proof.
induction 1 as [|x l [wx _] h IH]; [reflexivity|]; apply (walk_shift _ (Some ",")) in wx.
destruct l as [|y l]; [exact wx|].
change (print_elements print (x :: y :: l)) with (print x ++ "," :: " " :: print_elements print (y :: l)).
rewrite walk_app, wx; simpl; exact IH.
Qed.
Lemma walk_array k l : Forall (reads k) l -> walk (Some ",") (S k) 0 (print_array print l) = Some 0%nat.
Proof.
intro h; unfold print_array; simpl; rewrite walk_app, (walk_elements _ _ h); reflexivity.
Qed.

Lemma parse_arrayP k l olds ws tail : (Z.of_nat k < 2 ^ 64 - 1)%Z -> l <> [] -> Forall2 same olds l -> Forall (reads k) l -> spaces ws ->
  parse_array parse olds (open (ws ++ print_array print l ++ tail)) = Ok l (open tail).
Proof.
intros hk hl ho h hws; unfold parse_array; rewrite rws_open by apply Nat.lt_succ_diag_r; rewrite skip_spaces by exact hws.
change (print_array print l ++ tail) with ("[" :: (print_elements print l ++ ["]"]) ++ tail); rewrite <- app_assoc.
simpl skip_space; cbv iota beta; simpl is_char; simpl negb; cbv iota.
rewrite read_arrayE.
match goal with |- context [take 0 ?t] => assert (e : take 0 t = Some (print_array print l, tail)) end.
{ change (match take (1 + Z.of_nat 0) (print_elements print l ++ ["]"] ++ tail) with Some (a, b) => Some ("[" :: a, b) | None => None end = Some (print_array print l, tail)).
  assert (w : walk None k 0 (print_elements print l) = Some 0%nat).
  { clear ho; induction h as [|x l [wx _] h IH]; [congruence|]; apply walk_weak in wx.
    destruct l as [|y l]; [exact wx|].
    change (print_elements print (x :: y :: l)) with (print x ++ "," :: " " :: print_elements print (y :: l)).
    rewrite walk_app, wx; simpl; apply IH; discriminate. }
  rewrite (take_walk _ k _ _ _ 0 0 w) by lia; reflexivity. }
rewrite e.
assert (b : substr (print_array print l) 1 (length (print_array print l) - 2) = print_elements print l).
{ unfold substr, print_array; simpl; rewrite app_length; simpl.
  replace (length (print_elements print l) + 1 - 1)%nat with (length (print_elements print l)) by lia.
  rewrite firstn_app, firstn_all, Nat.sub_diag; simpl; apply app_nil_r. }
rewrite b, split_arrayE; destruct l as [|x l]; [congruence|].
rewrite (split_elements k) by (assumption || lia).
assert (hn := Forall2_len _ _ _ ho); simpl length in *; rewrite map_length.
replace (S (length l) =? length olds)%nat with true by (symmetry; apply Nat.eqb_eq; lia); simpl negb; cbv iota.
apply (parse_all k); [exact h|exact ho|].
constructor; [exists []; split; [constructor|reflexivity]|].
clear; induction l as [|y l IH]; constructor; [|exact IH].
exists [" "]; split; [repeat constructor|reflexivity].
Qed.

End Arrays.

(** * Specification of bracketed lists *)
Definition count (c : ascii) (t : text) : nat := length (filter (Ascii.eqb c) t).
(* brackets are balanced and [sep] occurs only inside brackets *)
Definition item (sep : ascii) (t : text) : Prop :=
  (forall i, count "]" (firstn i t) <= count "[" (firstn i t))%nat /\
  count "]" t = count "[" t /\
  (forall i, nth_error t i = Some sep -> (count "]" (firstn i t) < count "[" (firstn i t))%nat).
Fixpoint join (sep : ascii) (ts : list text) : text :=
  match ts with
  | [] => []
  | [t] => t
  | t :: l => t ++ [sep] ++ join sep l
  end.

Lemma walkP sep k t : sep <> "[" -> sep <> "]" -> forall d e, (d + length t <= k)%nat ->
  walk (Some sep) k d t = Some e <->
  (forall i, count "]" (firstn i t) <= d + count "[" (firstn i t))%nat /\
  (d + count "[" t = e + count "]" t)%nat /\
  (forall i, nth_error t i = Some sep -> (count "]" (firstn i t) < d + count "[" (firstn i t))%nat).
Proof.
intros s1 s2; unfold count; induction t as [|c t IH]; intros d e hk.
  simpl; split.
    intro h; injection h as <-; split; [|split]; [intros []; simpl; lia|lia|intros [] h; discriminate].
  intros [_ [h _]]; f_equal; lia.
simpl length in hk.
(* one step of the three conditions *)
assert (step : forall o cl d', (o + cl <= 1)%nat -> (d + o = d' + cl)%nat ->
  (forall u, length (filter (Ascii.eqb "[") (c :: u)) = o + length (filter (Ascii.eqb "[") u))%nat ->
  (forall u, length (filter (Ascii.eqb "]") (c :: u)) = cl + length (filter (Ascii.eqb "]") u))%nat ->
  (c = sep -> 0 < d)%nat ->
  ((forall i, length (filter (Ascii.eqb "]") (firstn i t)) <= d' + length (filter (Ascii.eqb "[") (firstn i t)))%nat /\
   (d' + length (filter (Ascii.eqb "[") t) = e + length (filter (Ascii.eqb "]") t))%nat /\
   (forall i, nth_error t i = Some sep -> (length (filter (Ascii.eqb "]") (firstn i t)) < d' + length (filter (Ascii.eqb "[") (firstn i t)))%nat))
  <->
  ((forall i, length (filter (Ascii.eqb "]") (firstn i (c :: t))) <= d + length (filter (Ascii.eqb "[") (firstn i (c :: t))))%nat /\
   (d + length (filter (Ascii.eqb "[") (c :: t)) = e + length (filter (Ascii.eqb "]") (c :: t)))%nat /\
   (forall i, nth_error (c :: t) i = Some sep -> (length (filter (Ascii.eqb "]") (firstn i (c :: t))) < d + length (filter (Ascii.eqb "[") (firstn i (c :: t))))%nat))).
{ intros o cl d' hoc hd eo ecl hs; rewrite eo, ecl; split; intros [h1 [h2 h3]]; (split; [|split]).
  - intros [|i]; [simpl; lia|]; change (firstn (S i) (c :: t)) with (c :: firstn i t); rewrite eo, ecl; specialize (h1 i); lia.
  - lia.
  - intros [|i] h; [simpl in h; injection h as h; simpl; specialize (hs h); lia|].
    change (firstn (S i) (c :: t)) with (c :: firstn i t); rewrite eo, ecl; specialize (h3 i h); lia.
  - intro i; specialize (h1 (S i)); change (firstn (S i) (c :: t)) with (c :: firstn i t) in h1; rewrite eo, ecl in h1; lia.
  - lia.
  - intros i h; specialize (h3 (S i) h); change (firstn (S i) (c :: t)) with (c :: firstn i t) in h3; rewrite eo, ecl in h3; lia. }
simpl walk; destruct (Ascii.eqb_spec c "[") as [->|n1].
  replace (d <? k)%nat with true by (symmetry; apply Nat.ltb_lt; lia).
  rewrite IH by lia; apply (step 1 0)%nat; try lia; try reflexivity; congruence.
destruct (Ascii.eqb_spec c "]") as [->|n2].
  destruct d as [|d].
    split; [discriminate|]; intros [h _]; specialize (h 1%nat); simpl in h; lia.
  rewrite IH by lia; apply (step 0 1)%nat; try lia; try reflexivity; congruence.
assert (f1 : forall u, length (filter (Ascii.eqb "[") (c :: u)) = length (filter (Ascii.eqb "[") u)).
  intro u; cbn [filter]; replace ("[" =? c)%char with false; [reflexivity|symmetry; apply Ascii.eqb_neq; congruence].
assert (f2 : forall u, length (filter (Ascii.eqb "]") (c :: u)) = length (filter (Ascii.eqb "]") u)).
  intro u; cbn [filter]; replace ("]" =? c)%char with false; [reflexivity|symmetry; apply Ascii.eqb_neq; congruence].
destruct ((d =? 0)%nat && (c =? sep)%char) eqn:h.
  apply andb_true_iff in h; destruct h as [h1 h2]; apply Nat.eqb_eq in h1; apply Ascii.eqb_eq in h2; subst.
  split; [discriminate|]; intros [_ [_ h]]; specialize (h 0%nat eq_refl); simpl in h; lia.
rewrite IH by lia; apply (step 0 0)%nat; try lia; try assumption.
intros ->; rewrite Ascii.eqb_refl, andb_true_r in h; apply Nat.eqb_neq in h; lia.
Qed.
Lemma itemP sep t k : sep <> "[" -> sep <> "]" -> (length t <= k)%nat -> item sep t <-> walk (Some sep) k 0 t = Some 0%nat.
Proof. intros s1 s2 hk; rewrite walkP by assumption; unfold item; simpl plus; intuition. Qed.

Lemma split_join sep k p ps : (Z.of_nat k < 2 ^ 64)%Z -> Forall (fun t => walk (Some sep) k 0 t = Some 0%nat) (p :: ps) ->
  sep <> "[" -> sep <> "]" -> forall cur, splits sep 0 cur (join sep (p :: ps)) = (cur ++ p) :: ps.
Proof.
intros hk h s1 s2; revert p h; induction ps as [|q ps IH]; intros p h cur; inversion h as [|? ? wp h']; subst.
- change (join sep [p]) with p; rewrite <- (app_nil_r p) at 1.
  rewrite (splits_walk _ k _ _ 0 0) by (assumption || lia); reflexivity.
- change (join sep (p :: q :: ps)) with (p ++ sep :: join sep (q :: ps)).
  rewrite (splits_walk _ k _ _ 0 0) by (assumption || lia); simpl splits at 1.
  rewrite !neqb by assumption; rewrite Ascii.eqb_refl; exact (f_equal (cons (cur ++ p)) (IH q h' [])).
Qed.
Lemma walk_join sep k ps : (forall p, In p ps -> walk (Some sep) k 0 p = Some 0%nat) -> sep <> "[" -> sep <> "]" ->
  walk None k 0 (join sep ps) = Some 0%nat.
Proof.
intros h s1 s2; induction ps as [|p ps IH]; [reflexivity|].
assert (wp := walk_weak _ _ _ _ _ (h p (or_introl eq_refl))).
destruct ps as [|q ps]; [exact wp|].
change (join sep (p :: q :: ps)) with (p ++ sep :: join sep (q :: ps)).
rewrite walk_app, wp; cbn [walk]; rewrite !neqb by assumption; rewrite andb_false_r; apply IH; intros x hx; apply h; right; exact hx.
Qed.
(* what splitting a balanced text gives *)
Lemma splits_items sep k t : (Z.of_nat k < 2 ^ 64)%Z -> sep <> "[" -> sep <> "]" -> forall d cur, (d <= k)%nat ->
  walk (Some sep) k 0 cur = Some d -> walk None k d t = Some 0%nat ->
  exists p ps, splits sep (Z.of_nat d) cur t = p :: ps /\ Forall (fun q => walk (Some sep) k 0 q = Some 0%nat) (p :: ps) /\
    join sep (p :: ps) = cur ++ t.
Proof.
intros hk s1 s2; induction t as [|c t IH]; intros d cur hd wc wt.
  simpl in wt; injection wt as ->; exists cur, []; repeat split; [constructor; [exact wc|constructor]|rewrite app_nil_r; reflexivity].
assert (next : forall d', (d' <= k)%nat -> walk (Some sep) k 0 (cur ++ [c]) = Some d' -> walk None k d' t = Some 0%nat ->
  exists p ps, splits sep (Z.of_nat d') (cur ++ [c]) t = p :: ps /\ Forall (fun q => walk (Some sep) k 0 q = Some 0%nat) (p :: ps) /\
    join sep (p :: ps) = cur ++ c :: t).
{ intros d' h1 h2 h3; destruct (IH d' _ h1 h2 h3) as [p [ps [e1 [e2 e3]]]]; exists p, ps; repeat split; [exact e1|exact e2|].
  rewrite e3, <- app_assoc; reflexivity. }
simpl walk in wt; simpl splits.
assert (w1 := walk_app (Some sep) k cur [c] 0); rewrite wc in w1; cbn [walk] in w1.
destruct (c =? "[")%char.
  destruct (d <? k)%nat eqn:h; [|discriminate]; apply Nat.ltb_lt in h.
  rewrite wrap_small by lia; replace (Z.of_nat d + 1)%Z with (Z.of_nat (S d)) by lia; apply next; [lia|exact w1|exact wt].
destruct (c =? "]")%char.
  destruct d as [|d]; [discriminate|]; rewrite wrap_small by lia.
  replace (Z.of_nat (S d) - 1)%Z with (Z.of_nat d) by lia; apply next; [lia|exact w1|exact wt].
rewrite andb_false_r in wt.
replace (Z.of_nat d =? 0)%Z with (d =? 0)%nat; [|destruct d; reflexivity].
destruct ((d =? 0)%nat && (c =? sep)%char) eqn:h; [|apply next; assumption].
apply andb_true_iff in h; destruct h as [h1 h2]; apply Nat.eqb_eq in h1; apply Ascii.eqb_eq in h2; subst.
destruct (IH 0%nat [] ltac:(lia) eq_refl wt) as [p [ps [e1 [e2 e3]]]].
exists cur, (p :: ps); rewrite e1; repeat split; [constructor; assumption|].
change (join sep (cur :: p :: ps)) with (cur ++ sep :: join sep (p :: ps)); rewrite e3; reflexivity.
Qed.

(* what ReadArray accepts after an opening bracket *)
Lemma take_sound k t : forall d a b, (S d + length t <= k)%nat -> (Z.of_nat k < 2 ^ 64)%Z ->
  take (1 + Z.of_nat d) t = Some (a, b) ->
  exists body, t = body ++ ["]"] ++ b /\ a = body ++ ["]"] /\ walk None k d body = Some 0%nat.
Proof.
induction t as [|c t IH]; intros d a b hk hb h; [discriminate|]; simpl length in hk; cbn [take] in h.
unfold next_depth in h.
assert (next : forall d', (S d' + length t <= k)%nat -> (exists a', a = c :: a' /\ take (1 + Z.of_nat d') t = Some (a', b)) ->
  walk None k d [c] = Some d' -> exists body, c :: t = body ++ ["]"] ++ b /\ a = body ++ ["]"] /\ walk None k d body = Some 0%nat).
{ intros d' h1 [a' [-> h2]] h3; destruct (IH d' a' b h1 hb h2) as [body [e1 [e2 e3]]]; exists (c :: body).
  rewrite e1, e2; repeat split; change (c :: body) with ([c] ++ body); rewrite walk_app, h3; exact e3. }
assert (pos : forall d', (0 <? 1 + Z.of_nat d')%Z = true) by (intro; apply Z.ltb_lt; lia).
destruct (Ascii.eqb_spec c "[") as [->|n1].
  rewrite wrap_small in h by lia; replace (1 + Z.of_nat d + 1)%Z with (1 + Z.of_nat (S d))%Z in h by lia; rewrite pos in h.
  apply (next (S d)); [lia| |simpl; replace (d <? k)%nat with true by (symmetry; apply Nat.ltb_lt; lia); reflexivity].
  destruct (take _ t) as [[a' b']|]; [|discriminate]; injection h as <- <-; exists a'; split; reflexivity.
destruct (Ascii.eqb_spec c "]") as [->|n2].
  destruct d as [|d].
    simpl in h; change (wrap (1 + 0 - 1)) with 0%Z in h; simpl in h; injection h as <- <-; exists []; repeat split.
  rewrite wrap_small in h by lia; replace (1 + Z.of_nat (S d) - 1)%Z with (1 + Z.of_nat d)%Z in h by lia; rewrite pos in h.
  apply (next d); [lia| |reflexivity].
  destruct (take _ t) as [[a' b']|]; [|discriminate]; injection h as <- <-; exists a'; split; reflexivity.
rewrite pos in h; apply (next d); [lia| |simpl; rewrite !neqb, andb_false_r by assumption; reflexivity].
destruct (take _ t) as [[a' b']|]; [|discriminate]; injection h as <- <-; exists a'; split; reflexivity.
Qed.
Lemma take_complete k body b : (Z.of_nat k < 2 ^ 64 - 1)%Z -> walk None k 0 body = Some 0%nat ->
  take 0 ("[" :: body ++ ["]"] ++ b) = Some ("[" :: body ++ ["]"], b).
Proof.
intros hk w.
change (match take (1 + Z.of_nat 0) (body ++ ["]"] ++ b) with Some (a, b) => Some ("[" :: a, b) | None => None end = Some ("[" :: body ++ ["]"], b)).
rewrite (take_walk None k _ _ _ 0 0 w); try lia; reflexivity.
Qed.

(** * Texts that do not start with an opening bracket *)
Definition net (t : text) : Z := (Z.of_nat (count "[" t) - Z.of_nat (count "]" t))%Z.
Lemma net_cons c t : net (c :: t) = (net t + (if (c =? "[")%char then 1 else if (c =? "]")%char then -1 else 0))%Z.
Proof.
unfold net, count; cbn [filter]; rewrite (Ascii.eqb_sym "[" c), (Ascii.eqb_sym "]" c).
destruct (Ascii.eqb_spec c "[") as [->|n1]; [change ("[" =? "]")%char with false; cbn [length]; lia|].
destruct (Ascii.eqb_spec c "]") as [->|n2]; cbn [length]; lia.
Qed.
Lemma net_app t u : net (t ++ u) = (net t + net u)%Z.
Proof. induction t as [|c t IH]; [unfold net; simpl; lia|]; change ((c :: t) ++ u) with (c :: (t ++ u)); rewrite !net_cons, IH; lia. Qed.
Lemma net_bound t : (Z.abs (net t) <= Z.of_nat (length t))%Z.
Proof.
induction t as [|c t IH]; [simpl; unfold net; simpl; lia|]; rewrite net_cons; simpl length.
destruct (c =? "[")%char; [lia|destruct (c =? "]")%char; lia].
Qed.
Lemma splits_one sep t : forall d cur x, splits sep d cur t = [x] -> x = cur ++ t.
Proof.
assert (ne : forall u d cur, splits sep d cur u <> []).
{ induction u as [|c u IH]; intros d cur; simpl; [discriminate|].
  destruct (c =? "[")%char; [apply IH|]; destruct (c =? "]")%char; [apply IH|].
  destruct (_ && _); [discriminate|apply IH]. }
induction t as [|c t IH]; intros d cur x h; simpl in h; [rewrite app_nil_r; congruence|].
assert (e : cur ++ c :: t = (cur ++ [c]) ++ t) by (rewrite <- app_assoc; reflexivity); rewrite e.
destruct (c =? "[")%char; [eapply IH; exact h|]; destruct (c =? "]")%char; [eapply IH; exact h|].
destruct (_ && _); [injection h as _ h; destruct (ne t d [] h)|eapply IH; exact h].
Qed.
Lemma splits_two sep t : forall d cur x y l, (0 <= d < 2 ^ 64)%Z -> splits sep d cur t = x :: y :: l ->
  exists u w, t = u ++ sep :: w /\ x = cur ++ u /\ wrap (d + net u) = 0%Z /\ splits sep 0 [] w = y :: l.
Proof.
induction t as [|c t IH]; intros d cur x y l hd h; simpl in h; [discriminate|].
assert (hw : forall z, (0 <= wrap z < 2 ^ 64)%Z) by (intro z; apply Z.mod_pos_bound; reflexivity).
assert (next : forall d' z, (c =? "[")%char = true /\ z = 1%Z \/ (c =? "[")%char = false /\ (c =? "]")%char = true /\ z = (-1)%Z \/
    (c =? "[")%char = false /\ (c =? "]")%char = false /\ z = 0%Z ->
  d' = wrap (d + z) -> splits sep d' (cur ++ [c]) t = x :: y :: l ->
  exists u w, c :: t = u ++ sep :: w /\ x = cur ++ u /\ wrap (d + net u) = 0%Z /\ splits sep 0 [] w = y :: l).
{ intros d' z hz -> hs; destruct (IH _ _ _ _ _ (hw _) hs) as [u [w [-> [-> [h1 h2]]]]].
  exists (c :: u), w; repeat split; [rewrite <- app_assoc; reflexivity| |exact h2].
  rewrite net_cons; replace (if (c =? "[")%char then 1%Z else if (c =? "]")%char then (-1)%Z else 0%Z) with z.
  - unfold wrap in *; rewrite Z.add_mod_idemp_l in h1 by lia; replace (d + (net u + z))%Z with (d + z + net u)%Z by lia; exact h1.
  - destruct hz as [[-> ->]|[[-> [-> ->]]|[-> [-> ->]]]]; reflexivity. }
destruct (c =? "[")%char eqn:c1; [apply (next (wrap (d + 1)) 1%Z); [tauto|reflexivity|exact h]|].
destruct (c =? "]")%char eqn:c2; [apply (next (wrap (d - 1)) (-1)%Z); [tauto|reflexivity|exact h]|].
destruct ((d =? 0)%Z && (c =? sep)%char) eqn:hs.
- apply andb_true_iff in hs; destruct hs as [h1 h2]; apply Z.eqb_eq in h1; apply Ascii.eqb_eq in h2; subst.
  injection h as <- h; exists [], t; rewrite app_nil_r; repeat split; assumption.
- apply (next d 0%Z); [tauto|rewrite wrap_small; lia|exact h].
Qed.
(* ReadArray after an unmatched closing bracket: it stops at the opening bracket that brings the counter back to 0 *)
Lemma take_neg t : forall m a b, (1 <= m)%Z -> (m + Z.of_nat (length t) < 2 ^ 63)%Z -> take (2 ^ 64 - m) t = Some (a, b) ->
  exists body, a = body ++ ["["] /\ t = body ++ ["["] ++ b /\ forall i, (net (firstn i body) < m)%Z.
Proof.
induction t as [|c t IH]; intros m a b hm hl h; [discriminate|]; cbn [take] in h; simpl length in hl.
assert (next : forall m' z, (1 <= m')%Z -> (m' <= m + 1)%Z -> (m' = m - z)%Z ->
  z = (if (c =? "[")%char then 1 else if (c =? "]")%char then -1 else 0)%Z ->
  (exists a', a = c :: a' /\ take (2 ^ 64 - m') t = Some (a', b)) ->
  exists body, a = body ++ ["["] /\ c :: t = body ++ ["["] ++ b /\ forall i, (net (firstn i body) < m)%Z).
{ intros m' z h1 h2 h3 hz [a' [-> h4]]; destruct (IH m' a' b h1 ltac:(lia) h4) as [body [-> [e2 hi]]].
  exists (c :: body); rewrite e2; repeat split; intros [|i]; [unfold net; simpl; lia|].
  change (firstn (S i) (c :: body)) with (c :: firstn i body); rewrite net_cons, <- hz; specialize (hi i); lia. }
assert (pos : forall m', (1 <= m')%Z -> (m' < 2 ^ 63 + 1)%Z -> (0 <? 2 ^ 64 - m')%Z = true) by (intros; apply Z.ltb_lt; lia).
unfold next_depth in h; destruct (Ascii.eqb_spec c "[") as [->|n1].
  destruct (Z.eq_dec m 1) as [->|hm1].
    change (wrap (2 ^ 64 - 1 + 1)) with 0%Z in h; cbn in h; injection h as <- <-.
    exists []; repeat split; intros []; unfold net; simpl; lia.
  rewrite wrap_small in h by lia; replace (2 ^ 64 - m + 1)%Z with (2 ^ 64 - (m - 1))%Z in h by lia; rewrite pos in h by lia.
  apply (next (m - 1)%Z 1%Z); try lia; try reflexivity.
  destruct (take _ t) as [[a' b']|]; [|discriminate]; injection h as <- <-; exists a'; split; reflexivity.
destruct (Ascii.eqb_spec c "]") as [->|n2].
  rewrite wrap_small in h by lia; replace (2 ^ 64 - m - 1)%Z with (2 ^ 64 - (m + 1))%Z in h by lia; rewrite pos in h by lia.
  apply (next (m + 1)%Z (-1)%Z); try lia; try reflexivity.
  destruct (take _ t) as [[a' b']|]; [|discriminate]; injection h as <- <-; exists a'; split; reflexivity.
rewrite pos in h by lia; apply (next m 0%Z); try lia; try reflexivity.
destruct (take _ t) as [[a' b']|]; [|discriminate]; injection h as <- <-; exists a'; split; reflexivity.
Qed.
