(* Properties C69, C70, C71: stream output and input *)
From Coq Require Import ZArith List Ascii Bool Lia.
From Verif Require Import M_Stream P_Stream.
Import ListNotations.
Local Open Scope char_scope.

(* The formatting of the numbers x with P x round-trips: the text is not empty, has no white space, bracket, comma or @, and is
   read back from any text where it is followed by the end, a space or the letter j *)
Record number_io {T} (P : T -> Prop) (show : T -> text) (num : text -> T * text * bool) : Prop := {
  io_some : forall x, P x -> show x <> [];
  io_chars : forall x, P x -> Forall (fun c => space c = false /\ ~ In c ["["; "]"; ","; "@"]) (show x);
  io_num : forall x t, P x -> (t = [] \/ exists u, t = " " :: u \/ t = "j" :: u) -> num (show x ++ t) = (x, t, true)
}.

Section Numbers.
Context {T : Type} {P : T -> Prop} {show : T -> text} {num : text -> T * text * bool}.
Hypothesis io : number_io P show num.
Lemma show_plain sep x : In sep [","; "@"] -> P x -> plain sep (show x).
Proof.
intros hs hx; apply (Forall_impl _) with (2 := io_chars _ _ _ io x hx); intros c [_ h]; simpl in *.
repeat split; intros ->; apply h; tauto.
Qed.
Lemma show_skip x t : P x -> skip_space (show x ++ t) = show x ++ t.
Proof.
intro hx; assert (h0 := io_some _ _ _ io x hx); assert (h1 := io_chars _ _ _ io x hx).
destruct (show x) as [|c r]; [congruence|]; inversion h1 as [|? ? [hc _] _]; subst; simpl; rewrite hc; reflexivity.
Qed.
Lemma extract_show x old ws t : P x -> spaces ws -> (t = [] \/ exists u, t = " " :: u \/ t = "j" :: u) ->
  extract num old (open (ws ++ show x ++ t)) = (x, Stream t (nil t) false).
Proof.
intros hx hws ht; unfold extract; cbn [good open eofbit failbit orb negb rest].
rewrite skip_spaces, show_skip by assumption.
assert (e := io_num _ _ _ io x t hx ht); assert (h0 := io_some _ _ _ io x hx).
destruct (show x) as [|c r]; [congruence|]; cbn [app] in *; rewrite e; reflexivity.
Qed.
Lemma real_reads x : P x -> reads show (parse_real num) (fun _ _ => True) 0 x.
Proof.
intro hx; split; [apply walk_plain, show_plain; [simpl; tauto|exact hx]|].
intros ws old hws _; exists (Stream [] true false); unfold parse_real.
rewrite <- (app_nil_r (show x)), extract_show by tauto; reflexivity.
Qed.
Lemma vector_reads v : Forall P v -> v <> [] -> reads (print_vector show) (parse_vector num) (fun old w => length old = length w) 1 v.
Proof.
intros hv v0; assert (h : Forall (reads show (parse_real num) (fun _ _ => True) 0) v) by (apply (Forall_impl _) with (2 := hv); exact real_reads).
split; [eapply walk_array; exact h|]; intros ws old hws hl; exists (open []).
unfold parse_vector, print_vector; rewrite <- (app_nil_r (print_array show v)).
apply (parse_arrayP _ _ (fun _ _ => True) 0); try assumption; [lia|].
clear -hl; revert v hl; induction old as [|o old IH]; intros [|x v] hl; try discriminate; constructor; [exact I|apply IH; simpl in hl; lia].
Qed.

(** * C69 *)
(* a vector is read back from its text, from any position of a stream, after any white space; nothing after the closing
   bracket is consumed *)
Theorem C69_vector (v olds : list T) ws tail : Forall P v -> v <> [] -> length olds = length v -> spaces ws ->
  parse_vector num olds (open (ws ++ print_vector show v ++ tail)) = Ok v (open tail).
Proof.
intros hv v0 hl hws; apply (parse_arrayP _ _ (fun _ _ => True) 0); try assumption; [lia| |].
- clear -hl; revert v hl; induction olds as [|o old IH]; intros [|x v] hl; try discriminate; constructor; [exact I|apply IH; simpl in hl; lia].
- apply (Forall_impl _) with (2 := hv); exact real_reads.
Qed.
(* matrices, as lists of rows *)
Theorem C69_matrix (columns : nat) (m olds : list (list T)) ws tail : (0 < columns)%nat ->
  Forall (fun row => length row = columns /\ Forall P row) m -> m <> [] ->
  length olds = length m -> Forall (fun row => length row = columns) olds -> spaces ws ->
  parse_matrix num olds (open (ws ++ print_matrix show m ++ tail)) = Ok m (open tail).
Proof.
intros hc hm m0 hl ho hws; apply (parse_arrayP _ _ (fun old w => length old = length w) 1); try assumption; [lia| |].
- clear -hl hm ho; revert m hl hm; induction ho as [|o old ho _ IH]; intros [|x m] hl hm; try discriminate; constructor.
  + inversion hm as [|? ? [h _] _]; subst; congruence.
  + apply IH; [simpl in hl; lia|inversion hm; assumption].
- apply (Forall_impl _) with (2 := hm); intros row [h1 h2]; apply vector_reads; [exact h2|].
  intros ->; simpl in h1; lia.
Qed.
(* the angle and the axis of a quaternion *)
Theorem C69_angle_axis (deg old : T) (axis olds : list T) tail : P deg -> Forall P axis -> axis <> [] -> length olds = length axis ->
  parse_angle_axis num old olds (open (print_angle_axis show deg axis ++ tail)) = Ok (deg, axis) (open tail).
Proof.
intros hd ha a0 hl; unfold parse_angle_axis; rewrite read_arrayE.
assert (pd := show_plain "@" deg ltac:(simpl; tauto) hd).
assert (wd : walk (Some "@") 2 0 (show deg ++ [" "; "d"; "e"; "g"; " "]) = Some 0%nat).
{ rewrite walk_app, walk_plain by exact pd; reflexivity. }
assert (wa : walk (Some "@") 2 0 (" " :: print_vector show axis) = Some 0%nat).
{ unfold print_vector, print_array; simpl; rewrite walk_app.
  assert (w : walk (Some "@") 2 1 (print_elements show axis) = Some 1%nat).
  { clear -ha io; induction ha as [|x l hx h IH]; [reflexivity|].
    assert (wx := walk_plain "@" 2 _ (show_plain "@" x ltac:(simpl; tauto) hx) 1).
    destruct l as [|y l]; [exact wx|].
    change (print_elements show (x :: y :: l)) with (show x ++ "," :: " " :: print_elements show (y :: l)).
    rewrite walk_app, wx; simpl; exact IH. }
  rewrite w; reflexivity. }
set (e0 := show deg ++ [" "; "d"; "e"; "g"; " "]) in *; set (e1 := " " :: print_vector show axis) in *.
assert (et : print_angle_axis show deg axis = "[" :: join "@" [e0; e1] ++ ["]"]).
{ unfold print_angle_axis, e0, e1; generalize (print_vector show axis); intro w; simpl; rewrite <- !app_assoc; reflexivity. }
assert (wj : walk None 2 0 (join "@" [e0; e1]) = Some 0%nat).
{ apply walk_join; [|discriminate|discriminate]; intros p [<-|[<-|[]]]; assumption. }
rewrite et; change (("[" :: join "@" [e0; e1] ++ ["]"]) ++ tail) with ("[" :: (join "@" [e0; e1] ++ ["]"]) ++ tail).
rewrite <- app_assoc, (take_complete 2) by (assumption || lia).
assert (b : substr ("[" :: join "@" [e0; e1] ++ ["]"]) 1 (length ("[" :: join "@" [e0; e1] ++ ["]"]) - 2) = join "@" [e0; e1]).
{ generalize (join "@" [e0; e1]); intro u; unfold substr; simpl; rewrite app_length; simpl; replace (length u + 1 - 1)%nat with (length u) by lia.
  rewrite firstn_app, firstn_all, Nat.sub_diag; simpl; apply app_nil_r. }
rewrite b, split_arrayE, (split_join _ 2); [|lia|repeat constructor; assumption|discriminate|discriminate].
simpl app; cbv iota beta; unfold e0 at 1.
rewrite <- (app_nil_l (show deg ++ _)), extract_show; [|exact hd|constructor|right; eexists; left; reflexivity].
cbn [eofbit failbit]; simpl nil; change (Stream e1 false false) with (open ([" "] ++ print_vector show axis)).
rewrite <- (app_nil_r (print_vector show axis)), C69_vector; try assumption; [reflexivity|repeat constructor].
Qed.

(** * C71 *)
Context {zero : T} {is_zero : T -> bool}.
(* complex elements with a nonzero imaginary part are read back *)
Lemma complex_reads z : P (fst z) -> P (snd z) -> is_zero (snd z) = false ->
  reads (print_complex show is_zero) (parse_complex num zero) (fun _ _ => True) 0 z.
Proof.
destruct z as [re im]; simpl; intros h1 h2 h0; unfold reads, print_complex; cbn [fst snd]; rewrite h0; split.
- rewrite walk_app, walk_plain by (apply show_plain; [simpl; tauto|exact h1]); simpl.
  rewrite walk_app, walk_plain by (apply show_plain; [simpl; tauto|exact h2]); reflexivity.
- intros ws old hws _; eexists; unfold parse_complex.
  rewrite extract_show; [|exact h1|exact hws|right; eexists; left; reflexivity].
  cbn [nil app]; change (Stream (" " :: "+" :: " " :: show im ++ ["j"]) false false) with (open (" " :: "+" :: " " :: show im ++ ["j"])).
  rewrite rws_open by (simpl; lia).
  cbn [skip_space app]; change (space " ") with true; cbv iota; cbn [skip_space]; change (space "+") with false; cbv iota.
  cbn [is_char]; change ("+" =? "+")%char with true; cbv iota; cbn [get good open eofbit failbit orb negb rest].
  change (Stream (" " :: show im ++ ["j"]) false false) with (open ([" "] ++ show im ++ ["j"])).
  rewrite extract_show; [reflexivity|exact h2|repeat constructor|right; exists []; right; reflexivity].
Qed.
Theorem C71_vector_partial (v olds : list (T * T)) ws tail :
  Forall (fun z => P (fst z) /\ P (snd z) /\ is_zero (snd z) = false) v -> v <> [] -> length olds = length v -> spaces ws ->
  parse_cvector num zero olds (open (ws ++ print_cvector show is_zero v ++ tail)) = Ok v (open tail).
Proof.
intros hv v0 hl hws; apply (parse_arrayP _ _ (fun _ _ => True) 0); try assumption; [lia| |].
- clear -hl; revert v hl; induction olds as [|o old IH]; intros [|x v] hl; try discriminate; constructor; [exact I|apply IH; simpl in hl; lia].
- apply (Forall_impl _) with (2 := hv); intros z [h1 [h2 h3]]; apply complex_reads; assumption.
Qed.
(* elements followed by white space are read, with or without an imaginary part *)
Theorem C71_real_text (re : T) old u ws : P re -> spaces ws -> spaces u ->
  exists s, parse_complex num zero old (open (ws ++ show re ++ " " :: u)) = Ok (re, zero) s.
Proof.
intros h hws hu; unfold parse_complex; rewrite extract_show; [|exact h|exact hws|right; eexists; left; reflexivity].
simpl nil; change (Stream (" " :: u) false false) with (open (" " :: u)); rewrite rws_open by (simpl; lia).
assert (e : skip_space (" " :: u) = []).
{ simpl; clear -hu; induction hu as [|c u hc _ IH]; simpl; [reflexivity|rewrite hc; exact IH]. }
rewrite e; eexists; reflexivity.
Qed.
(* a purely real element is printed without imaginary part, and then its own text cannot be read: the operation throws *)
Theorem C71_real_throws (x : T) old ws : P x -> spaces ws -> exists s, parse_complex num zero old (open (ws ++ show x)) = Throw Runtime_error s.
Proof.
intros h hws; unfold parse_complex; rewrite <- (app_nil_r (show x)), extract_show by tauto.
eexists; simpl; reflexivity.
Qed.
Lemma split_printed k (print : T * T -> text) (parse : T * T -> stream -> outcome (T * T)) v : (Z.of_nat k < 2 ^ 64 - 1)%Z -> v <> [] ->
  Forall (fun z : T * T => walk (Some ",") k 0 (print z) = Some 0%nat) v -> forall olds ws tail, spaces ws -> length olds = length v ->
  exists ts, Forall2 (fun t z => exists sp, spaces sp /\ t = sp ++ print z) ts v /\
  parse_array parse olds (open (ws ++ print_array print v ++ tail)) = parse_elements parse olds ts (open tail).
Proof.
intros hk v0 h olds ws tail hws hl.
assert (r : Forall (reads print (fun old _ => Ok old (open [])) (fun _ _ => False) k) v).
{ apply (Forall_impl _) with (2 := h); intros z hz; split; [exact hz|tauto]. }
unfold parse_array; rewrite rws_open by apply Nat.lt_succ_diag_r; rewrite skip_spaces by exact hws.
change (print_array print v ++ tail) with ("[" :: (print_elements print v ++ ["]"]) ++ tail); rewrite <- app_assoc.
simpl skip_space; cbv iota beta; simpl is_char; simpl negb; cbv iota; rewrite read_arrayE.
assert (w : walk None k 0 (print_elements print v) = Some 0%nat).
{ clear -h v0; induction h as [|x l wx h IH]; [congruence|]; apply walk_weak in wx.
  destruct l as [|y l]; [exact wx|].
  change (print_elements print (x :: y :: l)) with (print x ++ "," :: " " :: print_elements print (y :: l)).
  rewrite walk_app, wx; simpl; apply IH; discriminate. }
match goal with |- context [take 0 ?t] => replace (take 0 t) with (Some ("[" :: print_elements print v ++ ["]"], tail)) by (symmetry; exact (take_complete k _ tail hk w)) end.
assert (b : substr ("[" :: print_elements print v ++ ["]"]) 1 (length ("[" :: print_elements print v ++ ["]"]) - 2) = print_elements print v).
{ generalize (print_elements print v); intro u; unfold substr; simpl; rewrite app_length; simpl; replace (length u + 1 - 1)%nat with (length u) by lia.
  rewrite firstn_app, firstn_all, Nat.sub_diag; simpl; apply app_nil_r. }
rewrite b, split_arrayE; destruct v as [|x l]; [congruence|].
rewrite (split_elements _ _ _ k) by (exact r || lia).
simpl length in *; rewrite map_length.
replace (S (length l) =? length olds)%nat with true by (symmetry; apply Nat.eqb_eq; lia); simpl negb; cbv iota.
eexists; split; [|reflexivity].
constructor; [exists []; split; [constructor|reflexivity]|].
clear; induction l as [|y l IH]; constructor; [|exact IH]; exists [" "]; split; [repeat constructor|reflexivity].
Qed.
(* hence no vector with a purely real element is read back *)
Theorem C71_real_element (v olds : list (T * T)) ws tail :
  Forall (fun z => P (fst z) /\ P (snd z)) v -> length olds = length v -> spaces ws ->
  (exists z, In z v /\ is_zero (snd z) = true) ->
  exists s, parse_cvector num zero olds (open (ws ++ print_cvector show is_zero v ++ tail)) = Throw Runtime_error s.
Proof.
intros hv hl hws [z [hz z0]].
destruct (split_printed 0 (print_complex show is_zero) (parse_complex num zero) v) with (olds := olds) (ws := ws) (tail := tail)
  as [ts [hts e]]; [lia|intros ->; exact hz| |exact hws|exact hl|].
{ apply (Forall_impl _) with (2 := hv); intros [re im] [h1 h2]; unfold print_complex; simpl.
  rewrite walk_app, walk_plain by (apply show_plain; [simpl; tauto|exact h1]); destruct (is_zero im); simpl; [reflexivity|].
  rewrite walk_app, walk_plain by (apply show_plain; [simpl; tauto|exact h2]); reflexivity. }
unfold parse_cvector, print_cvector; rewrite e; clear e.
revert olds hl; induction hts as [|t x ts l [sp [hsp ->]] hts IH]; intros olds hl; [destruct hz|].
destruct olds as [|old olds]; [discriminate|]; inversion hv as [|? ? [h1 h2] hv']; subst; cbn [parse_elements].
destruct (is_zero (snd x)) eqn:x0.
- unfold print_complex at 1; rewrite x0, app_nil_r.
  destruct (C71_real_throws (fst x) old sp h1 hsp) as [s ->]; eexists; reflexivity.
- destruct (complex_reads x h1 h2 x0) as [_ hr]; destruct (hr sp old hsp I) as [s ->].
  destruct hz as [->|hz]; [congruence|].
  destruct (IH hv' hz olds ltac:(simpl in hl; lia)) as [s' ->]; eexists; reflexivity.
Qed.
End Numbers.
Print Assumptions C69_vector.
Print Assumptions C69_matrix.
Print Assumptions C69_angle_axis.
Print Assumptions C71_vector_partial.
Print Assumptions C71_real_text.
Print Assumptions C71_real_throws.
Print Assumptions C71_real_element.

(** * C70 *)
Lemma skip_spaceP t : exists ws, spaces ws /\ t = ws ++ skip_space t.
Proof.
induction t as [|c t [ws [h e]]]; simpl; [exists []; split; [constructor|reflexivity]|].
destruct (space c) eqn:hc; [|exists []; split; [constructor|reflexivity]].
exists (c :: ws); split; [constructor; assumption|simpl; congruence].
Qed.
Lemma substr_body body : substr ("[" :: body ++ ["]"]) 1 (length ("[" :: body ++ ["]"]) - 2) = body.
Proof.
unfold substr; simpl; rewrite app_length; simpl; replace (length body + 1 - 1)%nat with (length body) by lia.
rewrite firstn_app, firstn_all, Nat.sub_diag; simpl; apply app_nil_r.
Qed.
Lemma parse_elementsP {T} (parse : T -> stream -> outcome T) s : forall olds ts v s0, length olds = length ts ->
  parse_elements parse olds ts s = Ok v s0 <->
  s0 = s /\ Forall2 (fun op x => exists s', parse (fst op) (open (snd op)) = Ok x s') (combine olds ts) v.
Proof.
induction olds as [|old olds IH]; intros [|t ts] v s0 hl; try discriminate; simpl in *.
- split; [intro h; injection h as <- <-; split; [reflexivity|constructor]|].
  intros [-> h]; inversion h; reflexivity.
- injection hl as hl; split.
  + destruct (parse old (open t)) as [x s1|ex s1|] eqn:e; try discriminate.
    destruct (parse_elements parse olds ts s) as [l s2|ex s2|] eqn:e2; try discriminate.
    intro h; injection h as <- <-; destruct (proj1 (IH ts l s2 hl) e2) as [-> h].
    split; [reflexivity|constructor; [exists s1; exact e|exact h]].
  + intros [-> h]; inversion h as [|? x ? l [s' e] h']; subst; simpl in e; rewrite e.
    rewrite (proj2 (IH ts l s hl) (conj eq_refl h')); reflexivity.
Qed.
Lemma take_open t a b : (Z.of_nat (length t) < 2 ^ 63)%Z -> take 0 ("[" :: t) = Some (a, b) ->
  exists body, t = body ++ ["]"] ++ b /\ a = "[" :: body ++ ["]"] /\ walk None (S (length t)) 0 body = Some 0%nat.
Proof.
intros hl h.
change (match take (1 + Z.of_nat 0) t with Some (a, b) => Some ("[" :: a, b) | None => None end = Some (a, b)) in h.
destruct (take (1 + Z.of_nat 0) t) as [[a' b']|] eqn:e; [|discriminate]; injection h as <- <-.
destruct (take_sound (S (length t)) t 0 a' b' ltac:(simpl; lia) ltac:(lia) e) as [body [h1 [-> h2]]].
exists body; repeat split; assumption.
Qed.

(* Exactly the bracketed lists of the right number of elements are read: white space, an opening bracket, balanced
   texts without a comma outside brackets, one for each element and accepted by its parser, separated by commas, and a
   closing bracket. Reading stops at this bracket. *)
Theorem C70_array {T} (parse : T -> stream -> outcome T) (olds : list T) (t : text) (v : list T) (s : stream) :
  (Z.of_nat (length t) < 2 ^ 63)%Z ->
  parse_array parse olds (open t) = Ok v s <->
  exists ws pieces r, t = ws ++ ["["] ++ join "," pieces ++ ["]"] ++ r /\ spaces ws /\ s = open r /\
    pieces <> [] /\ length pieces = length olds /\ Forall (item ",") pieces /\
    Forall2 (fun op x => exists s', parse (fst op) (open (snd op)) = Ok x s') (combine olds pieces) v.
Proof.
intro hl; split.
- unfold parse_array; rewrite rws_open by apply Nat.lt_succ_diag_r.
  destruct (skip_spaceP t) as [ws [hws et]]; destruct (skip_space t) as [|c r]; [discriminate|].
  cbn [is_char]; destruct (Ascii.eqb_spec c "[") as [->|n]; [|discriminate]; cbn [negb].
  rewrite read_arrayE; destruct (take 0 ("[" :: r)) as [[a b]|] eqn:e; [|discriminate].
  assert (lr : (length r <= length t)%nat) by (rewrite et, app_length; simpl; lia).
  destruct (take_open r a b ltac:(lia) e) as [body [er [-> w]]]; rewrite substr_body, split_arrayE.
  destruct (splits_items "," (S (length r)) body ltac:(lia) ltac:(discriminate) ltac:(discriminate) 0 [] ltac:(lia) eq_refl w)
    as [p [ps [e1 [h1 e2]]]]; simpl Z.of_nat in e1; rewrite e1.
  destruct (length (p :: ps) =? length olds)%nat eqn:hn; [|discriminate]; apply Nat.eqb_eq in hn; cbn [negb].
  intro h; apply parse_elementsP in h; [|symmetry; exact hn]; destruct h as [-> h].
  exists ws, (p :: ps), b; repeat split; try assumption; [|discriminate|].
  + rewrite e2; simpl; rewrite et, er; reflexivity.
  + apply (Forall_impl (item ",")) in h1; [exact h1|]; clear h h1.
    intros q hq; apply (itemP "," q (S (length r) + length q)); [discriminate|discriminate|lia|].
    apply (walk_mono _ (S (length r))); [lia|exact hq].
- intros [ws [pieces [r [et [hws [-> [p0 [hn [hi h]]]]]]]]].
  unfold parse_array; rewrite rws_open by apply Nat.lt_succ_diag_r.
  rewrite et, skip_spaces by exact hws; simpl app; cbn [skip_space]; change (space "[") with false; cbv iota.
  cbn [is_char]; change ("[" =? "[")%char with true; cbn [negb]; rewrite read_arrayE.
  assert (wi : forall q, In q pieces -> walk (Some ",") (length t) 0 q = Some 0%nat).
  { intros q hq; apply itemP; [discriminate|discriminate| |apply (proj1 (Forall_forall _ _) hi q hq)].
    rewrite et; rewrite !app_length.
    assert (length q <= length (join "," pieces))%nat; [|lia].
    clear -hq; induction pieces as [|x l IH]; [destruct hq|]; destruct l as [|y l].
    - destruct hq as [->|[]]; reflexivity.
    - change (join "," (x :: y :: l)) with (x ++ "," :: join "," (y :: l)); rewrite app_length; change (length ("," :: join "," (y :: l))) with (S (length (join "," (y :: l)))).
      destruct hq as [->|hq]; [lia|specialize (IH hq); lia]. }
  assert (wj := walk_join "," (length t) pieces wi ltac:(discriminate) ltac:(discriminate)).
  match goal with |- context [take 0 ?u] =>
    replace (take 0 u) with (Some ("[" :: join "," pieces ++ ["]"], r)) by (symmetry; apply (take_complete (length t)); [lia|exact wj]) end.
  rewrite substr_body, split_arrayE; destruct pieces as [|p ps]; [congruence|].
  rewrite (split_join _ (length t)); [|lia|apply Forall_forall; exact wi|discriminate|discriminate].
  change ([] ++ p) with p; assert (hb : (length (p :: ps) =? length olds)%nat = true) by (apply Nat.eqb_eq; exact hn).
  match goal with |- (if negb ?b then _ else _) = _ => replace b with true by (symmetry; exact hb) end; cbn [negb].
  apply parse_elementsP; [symmetry; exact hn|split; [reflexivity|exact h]].
Qed.
Print Assumptions C70_array.

(* a vector of real or integral elements: the shape of the text alone decides; the elements never cause an error *)
Theorem C70_vector {T} (num : text -> T * text * bool) (olds : list T) (t : text) : (Z.of_nat (length t) < 2 ^ 63)%Z ->
  (exists v s, parse_vector num olds (open t) = Ok v s) <->
  exists ws pieces r, t = ws ++ ["["] ++ join "," pieces ++ ["]"] ++ r /\ spaces ws /\
    pieces <> [] /\ length pieces = length olds /\ Forall (item ",") pieces.
Proof.
intro hl; split.
- intros [v [s h]]; apply C70_array in h; [|exact hl].
  destruct h as [ws [ps [r [h1 [h2 [_ [h3 [h4 [h5 _]]]]]]]]]; exists ws, ps, r; tauto.
- intros [ws [ps [r [h1 [h2 [h3 [h4 h5]]]]]]].
  assert (e : exists v, Forall2 (fun op x => exists s', parse_real num (fst op) (open (snd op)) = Ok x s') (combine olds ps) v).
  { generalize (combine olds ps); clear; induction l as [|[o p] l [v IH]]; [exists []; constructor|].
    destruct (extract num o (open p)) as [x s] eqn:e; exists (x :: v); constructor; [|exact IH].
    exists s; unfold parse_real; simpl; rewrite e; reflexivity. }
  destruct e as [v e]; exists v, (open r); apply C70_array; [exact hl|]; exists ws, ps, r; tauto.
Qed.
Print Assumptions C70_vector.

(* every operation ends, with a result or an exception, on every stream in any state *)
Lemma rws_ends s : read_while_space (S (length (rest s))) s <> Exhausted.
Proof.
destruct s as [t [] []]; try (simpl; discriminate).
change (Stream t false false) with (open t); rewrite rws_open by apply Nat.lt_succ_diag_r; destruct (skip_space t); discriminate.
Qed.
Lemma read_array_ends s : read_array s <> Exhausted.
Proof.
destruct s as [t [] []]; try (unfold read_array; simpl; discriminate).
change (Stream t false false) with (open t); rewrite read_arrayE; destruct (take 0 t) as [[a b]|]; discriminate.
Qed.
Lemma array_ends {T} (parse : T -> stream -> outcome T) : (forall old s, parse old s <> Exhausted) ->
  forall olds s, parse_array parse olds s <> Exhausted.
Proof.
intros hp olds s; unfold parse_array.
destruct (read_while_space _ s) as [c s1|e s1|] eqn:e1; [|discriminate|destruct (rws_ends s e1)].
destruct (negb (is_char c "[")); [discriminate|].
destruct (read_array s1) as [str s2|e s2|] eqn:e2; [|discriminate|destruct (read_array_ends s1 e2)].
destruct (negb _); [discriminate|].
generalize (split_array (substr str 1 (length str - 2)) ","); revert olds.
induction olds as [|o olds IH]; intros [|t ts]; simpl; try discriminate.
destruct (parse o (open t)) as [x s3|e s3|] eqn:e3; [|discriminate|destruct (hp o (open t) e3)].
specialize (IH ts); destruct (parse_elements parse olds ts s2); congruence.
Qed.
Theorem C70_terminates {T} (num : text -> T * text * bool) (zero : T) :
  (forall olds s, parse_vector num olds s <> Exhausted) /\ (forall olds s, parse_matrix num olds s <> Exhausted) /\
  (forall olds s, parse_cvector num zero olds s <> Exhausted) /\ (forall olds s, parse_cmatrix num zero olds s <> Exhausted) /\
  (forall old olds s, parse_angle_axis num old olds s <> Exhausted).
Proof.
assert (V : forall olds s, parse_vector num olds s <> Exhausted).
{ apply array_ends; intros old s; unfold parse_real; destruct (extract num old s); discriminate. }
assert (C : forall olds s, parse_cvector num zero olds s <> Exhausted).
{ apply array_ends; intros old s; unfold parse_complex; destruct (extract num zero s) as [re s1].
  destruct (read_while_space _ s1) as [c s2|e s2|] eqn:e1; [|discriminate|destruct (rws_ends s1 e1)].
  destruct (is_char c "+"); [|discriminate]; destruct (get s2) as [c' s3]; destruct (extract num zero s3); discriminate. }
repeat split; [exact V|apply array_ends; exact V|exact C|apply array_ends; exact C|].
intros old olds s; unfold parse_angle_axis.
destruct (read_array s) as [str s2|e s2|] eqn:e2; [|discriminate|destruct (read_array_ends s e2)].
destruct (split_array _ _) as [|e0 [|e1 [|]]]; try discriminate.
destruct (extract num old (open e0)) as [a ss]; specialize (V olds (Stream e1 (eofbit ss) (failbit ss))).
destruct (parse_vector _ _ _); congruence.
Qed.
Print Assumptions C70_terminates.
(* a stream in an error state is refused *)
Theorem C70_bad_stream {T} (parse : T -> stream -> outcome T) olds s : good s = false ->
  parse_array parse olds s = Throw Runtime_error s.
Proof. intro h; unfold parse_array; rewrite rws_bad by exact h; reflexivity. Qed.
Print Assumptions C70_bad_stream.

(* The text of a quaternion: exactly a bracket, the text of the angle, @, the text of the axis and the closing bracket. Nothing may
   precede the bracket, and something must follow the number of the angle: after a number that ends its text,
   or no number, the string stream is not good and the axis is refused. *)
Lemma substr_wrapped (x y : ascii) body : substr (x :: body ++ [y]) 1 (length (x :: body ++ [y]) - 2) = body.
Proof.
unfold substr; simpl; rewrite app_length; simpl; replace (length body + 1 - 1)%nat with (length body) by lia.
rewrite firstn_app, firstn_all, Nat.sub_diag; simpl; apply app_nil_r.
Qed.
Theorem C70_angle_axis {T} (num : text -> T * text * bool) (old : T) (olds : list T) (t : text) (deg : T) (axis : list T) (s : stream) :
  (Z.of_nat (length t) < 2 ^ 62)%Z ->
  parse_angle_axis num old olds (open t) = Ok (deg, axis) s <->
  exists e0 e1 r, t = ["["] ++ e0 ++ ["@"] ++ e1 ++ ["]"] ++ r /\ item "@" e0 /\ item "@" e1 /\ s = open r /\
    (exists ss, extract num old (open e0) = (deg, ss) /\ good ss = true) /\
    (exists s', parse_vector num olds (open e1) = Ok axis s').
Proof.
intro hl; split.
- unfold parse_angle_axis; rewrite read_arrayE; destruct t as [|c t]; [discriminate|]; simpl length in hl.
  (* the stream of the axis is good and the axis starts with a bracket *)
  assert (fin : forall e0 e1 b, match extract num old (open e0) with (angle, ss) =>
      match parse_vector num olds (Stream e1 (eofbit ss) (failbit ss)) with
      | Ok axis _ => Ok (angle, axis) (open b) | Throw e _ => Throw e (open b) | Exhausted => Exhausted end end = Ok (deg, axis) s ->
    s = open b /\ (exists ss, extract num old (open e0) = (deg, ss) /\ good ss = true) /\
    (exists s', parse_vector num olds (open e1) = Ok axis s') /\ exists ws r, spaces ws /\ e1 = ws ++ "[" :: r).
  { intros e0 e1 b h; destruct (extract num old (open e0)) as [a ss].
    destruct ss as [rs eo fa]; cbn [eofbit failbit] in h.
    destruct (eo || fa) eqn:g.
      unfold parse_vector in h; rewrite C70_bad_stream in h; [discriminate|unfold good; simpl; rewrite g; reflexivity].
    apply orb_false_iff in g; destruct g as [-> ->]; change (Stream e1 false false) with (open e1) in h.
    destruct (parse_vector num olds (open e1)) as [ax s'|e s'|] eqn:hv; try discriminate; injection h as <- <- <-.
    repeat split; [eexists; split; reflexivity|eexists; reflexivity|].
    unfold parse_vector, parse_array in hv; rewrite rws_open in hv by apply Nat.lt_succ_diag_r.
    destruct (skip_spaceP e1) as [ws [hws ee]]; destruct (skip_space e1) as [|d r]; [discriminate|].
    cbn [is_char] in hv; destruct (Ascii.eqb_spec d "[") as [->|n]; [|discriminate]; exists ws, r; split; assumption. }
  destruct (take 0 (c :: t)) as [[a b]|] eqn:e; [|discriminate].
  destruct (Ascii.eqb_spec c "[") as [->|n1].
  + destruct (take_open t a b ltac:(lia) e) as [body [et [-> w]]]; rewrite substr_body, split_arrayE.
    destruct (splits_items "@" (S (length t)) body ltac:(lia) ltac:(discriminate) ltac:(discriminate) 0 [] ltac:(lia) eq_refl w)
      as [p [ps [e1 [h1 e2]]]]; simpl Z.of_nat in e1; rewrite e1.
    destruct ps as [|q [|]]; try discriminate; intro h; apply fin in h; destruct h as [-> [h2 [h3 _]]].
    assert (it : forall x, In x [p; q] -> item "@" x).
    { intros x hx; apply (itemP "@" x (S (length t) + length x)); [discriminate|discriminate|lia|].
      apply (walk_mono _ (S (length t))); [lia|apply (proj1 (Forall_forall _ _) h1 x hx)]. }
    exists p, q, b; repeat split; try (apply it; simpl; tauto); try assumption.
    change (["["] ++ p ++ ["@"] ++ q ++ ["]"] ++ b) with ("[" :: p ++ ("@" :: q) ++ ["]"] ++ b).
    rewrite et; simpl app in e2; rewrite <- e2; change (join "@" [p; q]) with (p ++ "@" :: q); rewrite <- app_assoc; reflexivity.
  + cbn [take] in e; unfold next_depth in e; rewrite (neqb c "[") in e by exact n1.
    destruct (Ascii.eqb_spec c "]") as [->|n2]; [|injection e as <- <-; discriminate].
    change (wrap (0 - 1)) with (2 ^ 64 - 1)%Z in e; change (0 <? 2 ^ 64 - 1)%Z with true in e; cbv iota in e.
    destruct (take (2 ^ 64 - 1) t) as [[a' b']|] eqn:e'; [|discriminate]; injection e as <- <-.
    destruct (take_neg t 1 a' b' ltac:(lia) ltac:(lia) e') as [body [-> [et hi]]].
    rewrite substr_wrapped, split_arrayE.
    destruct (splits "@" 0 [] body) as [|e0 [|e1 [|]]] eqn:es; try discriminate.
    intro h; apply fin in h; destruct h as [_ [_ [_ [ws [r [hws he]]]]]]; exfalso.
    destruct (splits_two "@" body 0 [] e0 e1 [] ltac:(lia) es) as [u [w [eb [_ [hz h1]]]]].
    apply splits_one in h1; simpl in h1; subst w e1.
    assert (lu := net_bound u).
    assert (lt : (Z.of_nat (length u) <= Z.of_nat (length t))%Z) by (rewrite et, eb, !app_length; lia).
    assert (nu : net u = 0%Z).
    { simpl in hz; unfold wrap in hz; apply Z.mod_divide in hz; [|lia]; destruct hz as [q hq]; nia. }
    specialize (hi (length (u ++ "@" :: ws ++ ["["]))); rewrite eb in hi.
    replace (u ++ "@" :: ws ++ "[" :: r) with ((u ++ "@" :: ws ++ ["["]) ++ r) in hi by (rewrite <- app_assoc; simpl; rewrite <- app_assoc; reflexivity).
    rewrite firstn_app, firstn_all, Nat.sub_diag in hi; simpl firstn in hi; rewrite app_nil_r in hi.
    assert (nws : net ws = 0%Z).
    { clear -hws; induction hws as [|c ws hc _ IH]; [reflexivity|]; rewrite net_cons, IH.
      destruct (Ascii.eqb_spec c "[") as [->|_]; [discriminate|]; destruct (Ascii.eqb_spec c "]") as [->|_]; [discriminate|reflexivity]. }
    rewrite net_app, nu, net_cons, net_app, nws in hi; vm_compute in hi; discriminate.
- intros [e0 [e1 [r [-> [i0 [i1 [-> [[ss [hx hg]] [s' hv]]]]]]]]].
  unfold parse_angle_axis; rewrite read_arrayE.
  set (k := (length e0 + length e1)%nat).
  assert (lk : (Z.of_nat k < 2 ^ 62)%Z) by (revert hl; rewrite !app_length; unfold k; lia).
  assert (w0 : walk (Some "@") k 0 e0 = Some 0%nat) by (apply itemP; [discriminate|discriminate|unfold k; lia|exact i0]).
  assert (w1 : walk (Some "@") k 0 e1 = Some 0%nat) by (apply itemP; [discriminate|discriminate|unfold k; lia|exact i1]).
  assert (wj : walk None k 0 (join "@" [e0; e1]) = Some 0%nat).
  { apply walk_join; [|discriminate|discriminate]; intros p [<-|[<-|[]]]; assumption. }
  assert (et : ["["] ++ e0 ++ ["@"] ++ e1 ++ ["]"] ++ r = "[" :: join "@" [e0; e1] ++ ["]"] ++ r).
  { simpl; rewrite <- app_assoc; reflexivity. }
  rewrite et, (take_complete k _ _ ltac:(lia) wj), substr_body, split_arrayE.
  rewrite (split_join _ k); [|lia|repeat constructor; assumption|discriminate|discriminate].
  change ([] ++ e0) with e0; cbv iota beta; rewrite hx.
  destruct ss as [rs eo fa]; unfold good in hg; simpl in hg; apply negb_true_iff, orb_false_iff in hg; destruct hg as [-> ->].
  cbn [eofbit failbit]; change (Stream e1 false false) with (open e1); rewrite hv; reflexivity.
Qed.
Print Assumptions C70_angle_axis.
(* in particular, unlike vectors and matrices, a quaternion is not read after white space *)
Theorem C70_quaternion_space {T} (num : text -> T * text * bool) (old : T) (olds : list T) (c : ascii) (t : text) :
  space c = true -> exists s, parse_angle_axis num old olds (open (c :: t)) = Throw Invalid_argument s.
Proof.
intros hc; unfold parse_angle_axis; rewrite read_arrayE; cbn [take]; unfold next_depth.
destruct (Ascii.eqb_spec c "[") as [->|_]; [discriminate|]; destruct (Ascii.eqb_spec c "]") as [->|_]; [discriminate|].
eexists; reflexivity.
Qed.
Print Assumptions C70_quaternion_space.

(** * A formatting that round-trips: the integers in decimal notation *)
Definition digit (n : Z) : ascii := ascii_of_nat (48 + Z.to_nat n).
Definition value (c : ascii) : Z := (Z.of_nat (nat_of_ascii c) - 48)%Z.
Definition is_digit (c : ascii) : bool := ((0 <=? value c) && (value c <=? 9))%Z.
Fixpoint show_digits (fuel : nat) (n : Z) : text :=
  match fuel with
  | O => []
  | S fuel => if (n <? 10)%Z then [digit n] else show_digits fuel (n / 10) ++ [digit (n mod 10)]
  end.
Definition show_int (n : Z) : text :=
  if (n <? 0)%Z then "-" :: show_digits (S (Z.to_nat (- n))) (- n) else show_digits (S (Z.to_nat n)) n.
Fixpoint read_digits (acc : Z) (t : text) : Z * text :=
  match t with
  | c :: r => if is_digit c then read_digits (acc * 10 + value c) r else (acc, t)
  | [] => (acc, [])
  end.
(* at least one digit is required; on error the value is 0 *)
Definition num_digits (t : text) : Z * text * bool :=
  match t with
  | c :: _ => if is_digit c then let '(v, r) := read_digits 0 t in (v, r, true) else (0%Z, t, false)
  | [] => (0%Z, [], false)
  end.
Definition num_int (t : text) : Z * text * bool :=
  match t with
  | c :: r => if (c =? "-")%char then let '(v, r, ok) := num_digits r in ((- v)%Z, r, ok) else num_digits t
  | [] => (0%Z, [], false)
  end.

Lemma digitP n : (0 <= n < 10)%Z -> value (digit n) = n /\ is_digit (digit n) = true.
Proof.
intro h; assert (e : value (digit n) = n).
{ unfold value, digit; rewrite nat_ascii_embedding by lia; lia. }
unfold is_digit; rewrite e; split; [reflexivity|]; apply andb_true_iff; split; apply Z.leb_le; lia.
Qed.
Lemma digit_char n : (0 <= n < 10)%Z -> In (digit n) ["0"; "1"; "2"; "3"; "4"; "5"; "6"; "7"; "8"; "9"].
Proof.
intro h; assert (c : (n = 0 \/ n = 1 \/ n = 2 \/ n = 3 \/ n = 4 \/ n = 5 \/ n = 6 \/ n = 7 \/ n = 8 \/ n = 9)%Z) by lia.
repeat (destruct c as [->|c]; [vm_compute; tauto|]); subst; vm_compute; tauto.
Qed.
Lemma show_digitsP fuel : forall n t acc, (0 <= n)%Z -> (n < Z.of_nat fuel)%Z -> (match t with c :: _ => is_digit c = false | [] => True end) ->
  exists c r, show_digits fuel n = c :: r /\ is_digit c = true /\
    Forall (fun c => In c ["0"; "1"; "2"; "3"; "4"; "5"; "6"; "7"; "8"; "9"]) (show_digits fuel n) /\
    exists m, read_digits acc (show_digits fuel n ++ t) = read_digits (acc * 10 ^ m + n) t /\ (0 <= m)%Z.
Proof.
intros n t acc; revert n t acc.
assert (P : forall n acc u, (0 <= n)%Z -> (n < Z.of_nat fuel)%Z ->
  exists c r, show_digits fuel n = c :: r /\ is_digit c = true /\
    Forall (fun c => In c ["0"; "1"; "2"; "3"; "4"; "5"; "6"; "7"; "8"; "9"]) (show_digits fuel n) /\
    exists m, read_digits acc (show_digits fuel n ++ u) = read_digits (acc * 10 ^ m + n) u /\ (0 <= m)%Z).
{ induction fuel as [|fuel IH]; intros n acc u h0 h1; [simpl in h1; lia|]; cbn [show_digits].
  destruct (n <? 10)%Z eqn:e.
  - apply Z.ltb_lt in e; destruct (digitP n ltac:(lia)) as [d1 d2]; exists (digit n), []; repeat split; try assumption.
    + constructor; [apply digit_char; lia|constructor].
    + exists 1%Z; split; [|lia]; cbn [app read_digits]; rewrite d2, d1; reflexivity.
  - apply Z.ltb_ge in e; assert (q0 : (0 <= n / 10)%Z) by (apply Z.div_pos; lia).
    assert (q1 : (n / 10 < n)%Z) by (apply Z.div_lt; lia).
    assert (hm := Z.mod_pos_bound n 10 ltac:(lia)); destruct (digitP (n mod 10) hm) as [d1 d2].
    destruct (IH (n / 10)%Z acc ([digit (n mod 10)] ++ u) q0 ltac:(lia)) as [c [r [h2 [h3 [h4 [m [h5 h6]]]]]]].
    exists c, (r ++ [digit (n mod 10)]); repeat split; [rewrite h2; reflexivity|exact h3| |].
    + apply Forall_app; split; [exact h4|constructor; [apply digit_char; exact hm|constructor]].
    + exists (m + 1)%Z; split; [|lia]; rewrite <- app_assoc, h5; cbn [app read_digits]; rewrite d2, d1; f_equal.
      rewrite Z.pow_add_r by lia; assert (hd := Z.div_mod n 10 ltac:(lia)); lia. }
intros n t acc h0 h1 _; apply P; assumption.
Qed.
Lemma int_io : number_io (fun _ : Z => True) show_int num_int.
Proof.
assert (D : forall n, (0 <= n)%Z -> exists c r, show_digits (S (Z.to_nat n)) n = c :: r /\ is_digit c = true /\
    Forall (fun c => In c ["0"; "1"; "2"; "3"; "4"; "5"; "6"; "7"; "8"; "9"]) (c :: r) /\
    forall t, (t = [] \/ exists u, t = " " :: u \/ t = "j" :: u) -> num_digits (c :: r ++ t) = (n, t, true)).
{ intros n hn.
  destruct (show_digitsP (S (Z.to_nat n)) n [] 0 hn ltac:(lia) I) as [c [r [h1 [h2 [h3 _]]]]].
  exists c, r; repeat split; [exact h1|exact h2|rewrite <- h1; exact h3|].
  intros t ht; assert (st : match t with c :: _ => is_digit c = false | [] => True end).
  { destruct ht as [->|[u [->| ->]]]; reflexivity || exact I. }
  destruct (show_digitsP (S (Z.to_nat n)) n t 0 hn ltac:(lia) st) as [c' [r' [h1' [_ [_ [m [h5 _]]]]]]].
  unfold num_digits; cbn [app]; rewrite h2; change (c :: r ++ t) with ((c :: r) ++ t); rewrite <- h1, h5.
  replace (0 * 10 ^ m + n)%Z with n by lia; destruct t as [|d t]; [reflexivity|]; cbn [read_digits]; rewrite st; reflexivity. }
assert (dash : forall c, is_digit c = true -> (c =? "-")%char = false).
{ intros c hc; destruct (Ascii.eqb_spec c "-") as [->|_]; [discriminate|reflexivity]. }
assert (ok : forall c, In c ["0"; "1"; "2"; "3"; "4"; "5"; "6"; "7"; "8"; "9"] -> space c = false /\ ~ In c ["["; "]"; ","; "@"]).
{ intros c hc; simpl in hc; repeat (destruct hc as [<-|hc]; [split; [reflexivity|simpl; intuition discriminate]|]); destruct hc. }
constructor.
- intros n _; unfold show_int; destruct (n <? 0)%Z eqn:e; [discriminate|]; apply Z.ltb_ge in e.
  destruct (D n e) as [c [r [-> _]]]; discriminate.
- intros n _; unfold show_int; destruct (n <? 0)%Z eqn:e.
  + apply Z.ltb_lt in e; destruct (D (- n)%Z ltac:(lia)) as [c [r [-> [_ [h _]]]]].
    constructor; [split; [reflexivity|simpl; intuition discriminate]|apply (Forall_impl _ ok h)].
  + apply Z.ltb_ge in e; destruct (D n e) as [c [r [-> [_ [h _]]]]]; apply (Forall_impl _ ok h).
- intros n t _ ht; unfold show_int; destruct (n <? 0)%Z eqn:e.
  + apply Z.ltb_lt in e; destruct (D (- n)%Z ltac:(lia)) as [c [r [-> [_ [_ h]]]]].
    cbn [app num_int]; change ("-" =? "-")%char with true; cbv iota; rewrite (h t ht); repeat f_equal; lia.
  + apply Z.ltb_ge in e; destruct (D n e) as [c [r [-> [hc [_ h]]]]].
    cbn [app num_int]; rewrite (dash c hc); exact (h t ht).
Qed.

(* The shape is checked but not the elements: garbage is read as 0, an empty element leaves the initial (indeterminate) value, and
   anything may follow a number. None of these texts is a list of three numbers, and no failure is reported. *)
Theorem C70_elements_refuted (a b c : Z) : exists s,
  parse_vector num_int [a; b; c] (open ["["; "1"; ","; "x"; ","; "3"; "]"]) = Ok [1; 0; 3]%Z s /\
  parse_vector num_int [a; b; c] (open ["["; "1"; ","; ","; "3"; "]"]) = Ok [1; b; 3]%Z s /\
  parse_vector num_int [a; b; c] (open ["["; "1"; ","; "2"; " "; "5"; "x"; ","; "3"; "]"]) = Ok [1; 2; 3]%Z s.
Proof. exists (open []); repeat split. Qed.
Print Assumptions C70_elements_refuted.

Example C69_example : parse_matrix num_int [[0; 0]; [0; 0]; [0; 0]]%Z (open (" " :: print_matrix show_int [[1; -20]; [300; 4]; [0; -5]]%Z ++ ["!"])) =
  Ok [[1; -20]; [300; 4]; [0; -5]]%Z (open ["!"]) /\ print_matrix show_int [[1; -20]; [3; 4]]%Z =
  ["["; "["; "1"; ","; " "; "-"; "2"; "0"; "]"; ","; " "; "["; "3"; ","; " "; "4"; "]"; "]"].
Proof.
split; [|reflexivity].
apply (@C69_matrix Z (fun _ => True) show_int num_int int_io 2 _ _ [" "]); repeat constructor; discriminate.
Qed.
Example C69_quaternion_example : parse_angle_axis num_int 0%Z [0; 0; 0]%Z (open (print_angle_axis show_int 90%Z [0; 0; 1]%Z)) = Ok (90, [0; 0; 1])%Z (open []).
Proof. reflexivity. Qed.
Example C71_example : parse_cvector num_int 0%Z [(0, 0); (0, 0)]%Z (open (print_cvector show_int (Z.eqb 0) [(1, -2); (0, 7)]%Z)) =
  Ok [(1, -2); (0, 7)]%Z (open []).
Proof. reflexivity. Qed.
(* the text [1, 0 + 7j] written for the vector (1, 7i) is not accepted *)
Theorem C71_refuted : exists (v : list (Z * Z)) s, length v = 2%nat /\
  parse_cvector num_int 0%Z [(0, 0); (0, 0)]%Z (open (print_cvector show_int (Z.eqb 0) v)) = Throw Runtime_error s.
Proof. exists [(1, 0); (0, 7)]%Z; eexists; split; reflexivity. Qed.
Print Assumptions C71_refuted.
(* too few elements, no bracket, missing closing bracket *)
Example C70_example : (exists s, parse_vector num_int [0; 0; 0]%Z (open ["["; "1"; ","; "2"; "]"]) = Throw Invalid_argument s) /\
  (exists s, parse_vector num_int [0]%Z (open ["1"]) = Throw Invalid_argument s) /\
  (exists s, parse_vector num_int [0]%Z (open ["["; "1"]) = Throw Invalid_argument s).
Proof. repeat split; eexists; reflexivity. Qed.
