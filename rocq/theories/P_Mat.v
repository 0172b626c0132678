From mathcomp Require Import all_ssreflect all_algebra.
From mathcomp Require Import ring.
From Verif Require Import M_Vec P_Vec M_Mat Spec P_Det.
Set Implicit Arguments. Unset Strict Implicit. Unset Printing Implicit Defensive.
Import GRing.Theory.

Section Loops.
Variable S : Type.
Implicit Types (body : nat -> S -> S).

Lemma for_loop_ind (P : nat -> S -> Prop) lo hi body s :
  lo <= hi -> P lo s -> (forall i s, lo <= i < hi -> P i s -> P i.+1 (body i s)) ->
  P hi (for_loop lo hi body s).
Proof.
move=> h; rewrite /for_loop; have [d ->] : exists d, hi = lo + d by exists (hi - lo); rewrite subnKC.
rewrite addKn; elim: d lo s {h} => [|d IH] lo s h0 h; first by rewrite addn0.
rewrite /= -addSnnS; apply: IH; first by apply: h => //; rewrite leqnn -addSnnS leq_addr.
by move=> i s' /andP [h1 h2] hp; apply: h => //; rewrite (ltnW h1) -addSnnS.
Qed.

Lemma for_loop_nil lo hi body s : hi <= lo -> for_loop lo hi body s = s.
Proof. by rewrite -subn_eq0 /for_loop => /eqP ->. Qed.

Lemma for_loopS lo hi body s : lo <= hi ->
  for_loop lo hi.+1 body s = body hi (for_loop lo hi body s).
Proof. by move=> h; rewrite /for_loop subSn // -addn1 iotaD foldl_cat /= subnKC. Qed.

Lemma for_loop_inv (P : S -> Prop) lo hi body s :
  P s -> (forall i s, lo <= i < hi -> P s -> P (body i s)) -> P (for_loop lo hi body s).
Proof.
move=> h0 h; case: (leqP lo hi) => hl; last by rewrite for_loop_nil // ltnW.
by apply: (@for_loop_ind (fun _ => P)).
Qed.

Lemma eq_for_loop lo hi body body' s :
  (forall i s, lo <= i < hi -> body i s = body' i s) -> for_loop lo hi body s = for_loop lo hi body' s.
Proof.
move=> h; case: (leqP lo hi) => hl; last by rewrite !for_loop_nil // ltnW.
rewrite /for_loop; have : {in iota lo (hi - lo), forall i s, body i s = body' i s}.
  by move=> i; rewrite mem_iota subnKC // => hi' s'; apply: h.
elim: (iota _ _) s => //= i l IH s hb; rewrite hb ?mem_head // IH // => k hk s'.
by apply: hb; rewrite inE hk orbT.
Qed.
End Loops.

Section Storage.
Variable T : Type.
Implicit Types (A B : mat T) (v : seq T).

Lemma rowmaj_set A i j x : rowmaj (set A i j x) = rowmaj A.
Proof. by case: A => -[]. Qed.
Lemma junk_set A i j x : junk (set A i j x) = junk A.
Proof. by case: A => -[]. Qed.

Lemma get_set A i j x i' j' :
  get (set A i j x) i' j' = if (i' == i) && (j' == j) then x else get A i' j'.
Proof.
rewrite /get rowmaj_set junk_set /set; case: A => -[] jk st /=.
  rewrite nth_set_nth /=; case: (i' =P i) => [->|_] //=.
  by rewrite nth_set_nth /=; case: eqP.
rewrite nth_set_nth /=; case: (j' =P j) => [->|_] //=; last by rewrite andbF.
by rewrite nth_set_nth /= andbT; case: eqP.
Qed.

Lemma get_set_same A i j x : get (set A i j x) i j = x.
Proof. by rewrite get_set !eqxx. Qed.

Lemma wf_count r c A : wf r c A -> size (stripes A) = stripe_count (rowmaj A) r c.
Proof. by case/andP => /eqP. Qed.
Lemma wf_dim r c A k : wf r c A -> k < stripe_count (rowmaj A) r c ->
  size (nth [::] (stripes A) k) = stripe_dim (rowmaj A) r c.
Proof.
by move=> h hk; have := wf_count h; case/andP: h => _ /(all_nthP [::]) h e; apply/eqP/h; rewrite e.
Qed.

Lemma wf_set_stripe r c A k v : wf r c A -> k < stripe_count (rowmaj A) r c ->
  size v = stripe_dim (rowmaj A) r c -> wf r c (set_stripe A k v).
Proof.
move=> h hk sv; apply/andP; split=> /=.
  by rewrite size_set_nth (wf_count h) (maxn_idPr hk).
apply/(all_nthP [::]) => i; rewrite size_set_nth (wf_count h) (maxn_idPr hk) => hi.
rewrite nth_set_nth /=; case: (i =P k) => _; first by rewrite sv.
by rewrite (wf_dim h).
Qed.

Lemma wf_set r c A i j x : wf r c A -> i < r -> j < c -> wf r c (set A i j x).
Proof.
move=> h hi hj; rewrite /set; have hd := wf_dim h; have hs := fun k v => @wf_set_stripe r c A k v h.
rewrite /stripe_count /stripe_dim in hd hs *; case: (rowmaj A) hd hs => hd hs; apply: hs => //.
  by rewrite size_set_nth hd // (maxn_idPr _).
by rewrite size_set_nth hd // (maxn_idPr _).
Qed.

Lemma wf_uninit rm jk r c : wf r c (@uninit T rm jk r c).
Proof. by rewrite /wf /uninit /= size_nseq eqxx all_nseq size_nseq eqxx orbT. Qed.

Lemma get_out r c A i j : wf r c A -> (r <= i) || (c <= j) -> get A i j = junk A.
Proof.
move=> h ho; rewrite /get; have hc := wf_count h; have hd := wf_dim h.
rewrite /stripe_count /stripe_dim in hc hd; case: (rowmaj A) hc hd => hc hd.
  case: (ltnP i r) => hi; last by rewrite [nth [::] _ i]nth_default ?hc // nth_nil.
  by rewrite nth_default // hd //; move: ho; rewrite leqNgt hi.
case: (ltnP j c) => hj; last by rewrite [nth [::] _ j]nth_default ?hc // nth_nil.
by rewrite nth_default // hd //; move: ho; rewrite [c <= _]leqNgt hj orbF.
Qed.

Lemma size_get_row r c A i : wf r c A -> i < r -> size (get_row c A i) = c.
Proof.
move=> h hi; rewrite /get_row; have hd := wf_dim h; rewrite /stripe_count /stripe_dim in hd.
by case: (rowmaj A) hd => hd; rewrite ?hd // size_mkseq.
Qed.
Lemma size_get_col r c A j : wf r c A -> j < c -> size (get_col r A j) = r.
Proof.
move=> h hi; rewrite /get_col; have hd := wf_dim h; rewrite /stripe_count /stripe_dim in hd.
by case: (rowmaj A) hd => hd; rewrite ?hd // size_mkseq.
Qed.

Lemma nth_get_row x0 r c A i j : wf r c A -> i < r -> j < c -> nth x0 (get_row c A i) j = get A i j.
Proof.
move=> h hi hj; rewrite (set_nth_default (junk A)) ?(size_get_row h) // /get_row /get.
by case: (rowmaj A) => //; rewrite nth_mkseq.
Qed.
Lemma nth_get_col x0 r c A i j : wf r c A -> i < r -> j < c -> nth x0 (get_col r A j) i = get A i j.
Proof.
move=> h hi hj; rewrite (set_nth_default (junk A)) ?(size_get_col h) // /get_col /get.
by case: (rowmaj A) => //; rewrite nth_mkseq.
Qed.

Lemma get_rowE r c A i : wf r c A -> i < r -> get_row c A i = mkseq (get A i) c.
Proof.
move=> h hi; apply: (@eq_from_nth _ (junk A)); rewrite ?(size_get_row h) ?size_mkseq // => j hj.
by rewrite (nth_get_row _ h) // nth_mkseq.
Qed.
Lemma get_colE r c A j : wf r c A -> j < c -> get_col r A j = mkseq (fun i => get A i j) r.
Proof.
move=> h hi; apply: (@eq_from_nth _ (junk A)); rewrite ?(size_get_col h) ?size_mkseq // => i hi'.
by rewrite (nth_get_col _ h) // nth_mkseq.
Qed.

(* an object "same shape": what every loop of element writes preserves *)
Definition same r c A B := [/\ wf r c B, rowmaj B = rowmaj A & junk B = junk A].

Lemma same_refl r c A : wf r c A -> same r c A A. Proof. by []. Qed.
Lemma same_trans r c A B C : same r c A B -> same r c B C -> same r c A C.
Proof. by move=> [_ e1 e2] [w e3 e4]; split=> //; rewrite ?e3 ?e4. Qed.
Lemma same_set r c A i j x : wf r c A -> i < r -> j < c -> same r c A (set A i j x).
Proof. by move=> h hi hj; split; rewrite ?rowmaj_set ?junk_set //; apply: wf_set. Qed.

Lemma set_rowP r c A i v : wf r c A -> i < r -> size v = c ->
  same r c A (set_row c A i v) /\
  forall x y, get (set_row c A i v) x y = if x == i then nth (junk A) v y else get A x y.
Proof.
move=> h hi sv; rewrite /set_row; case hr: (rowmaj A).
  split; first by split=> //; apply: wf_set_stripe; rewrite // /stripe_count /stripe_dim hr.
  by move=> x y; rewrite /get /= hr nth_set_nth /=; case: eqP.
pose P k B := same r c A B /\ forall x y, get B x y = if (x == i) && (y < k) then nth (junk A) v y else get A x y.
have [hs hg] : P c (for_loop 0 c (fun j A => set A i j (nth (junk A) v j)) A).
  apply: (@for_loop_ind _ P) => //; first by split=> // x y; rewrite ltn0 andbF.
  move=> j B /andP [_ hj] [[w e1 e2] hg]; split.
    by apply: same_trans (same_set _ w hi hj); split.
  move=> x y; rewrite get_set hg e2 ltnS [y <= j]leq_eqVlt.
  by case: (x == i) => //=; case: (y =P j) => [->|].
split=> // x y; rewrite hg; case: (x =P i) => [->|] //=; case: ltnP => // hy.
by rewrite nth_default ?sv // (get_out h) // hy orbT.
Qed.

Lemma set_colP r c A j v : wf r c A -> j < c -> size v = r ->
  same r c A (set_col r A j v) /\
  forall x y, get (set_col r A j v) x y = if y == j then nth (junk A) v x else get A x y.
Proof.
move=> h hi sv; rewrite /set_col; case hr: (rowmaj A); last first.
  split; first by split=> //; apply: wf_set_stripe; rewrite // /stripe_count /stripe_dim hr.
  by move=> x y; rewrite /get /= hr nth_set_nth /=; case: eqP.
pose P k B := same r c A B /\ forall x y, get B x y = if (y == j) && (x < k) then nth (junk A) v x else get A x y.
have [hs hg] : P r (for_loop 0 r (fun i A => set A i j (nth (junk A) v i)) A).
  apply: (@for_loop_ind _ P) => //; first by split=> // x y; rewrite ltn0 andbF.
  move=> i B /andP [_ hj] [[w e1 e2] hg]; split.
    by apply: same_trans (same_set _ w hj hi); split.
  move=> x y; rewrite get_set hg e2 ltnS [x <= i]leq_eqVlt andbC.
  by case: (y == j) => //=; case: (x =P i) => [->|].
split=> // x y; rewrite hg; case: (y =P j) => [->|] //=; case: ltnP => // hy.
by rewrite nth_default ?sv // (get_out h) // hy.
Qed.

(* the double loop that writes v i j at (p i j) *)
Lemma fill2P r c rr cc A (p : nat -> nat -> nat * nat) (v : nat -> nat -> T) :
  wf rr cc A ->
  (forall i j, i < r -> j < c -> (p i j).1 < rr /\ (p i j).2 < cc) ->
  (forall i j i' j', i < r -> j < c -> i' < r -> j' < c -> p i j = p i' j' -> i = i' /\ j = j') ->
  let B := for_loop 0 r (fun i B => for_loop 0 c (fun j B => set B (p i j).1 (p i j).2 (v i j)) B) A in
  [/\ same rr cc A B,
      forall i j, i < r -> j < c -> get B (p i j).1 (p i j).2 = v i j &
      forall x y, (forall i j, i < r -> j < c -> p i j <> (x, y)) -> get B x y = get A x y].
Proof.
move=> w hp inj B.
pose P k D := [/\ same rr cc A D, forall i j, i < k -> j < c -> get D (p i j).1 (p i j).2 = v i j &
      forall x y, (forall i j, i < k -> j < c -> p i j <> (x, y)) -> get D x y = get A x y].
apply: (@for_loop_ind _ P) => // k D /andP [_ hk] [sD hD1 hD2].
pose Q m E := [/\ same rr cc A E, forall i j, i < k -> j < c -> get E (p i j).1 (p i j).2 = v i j,
   forall j, j < m -> get E (p k j).1 (p k j).2 = v k j &
   forall x y, (forall i j, i < k -> j < c -> p i j <> (x, y)) -> (forall j, j < m -> p k j <> (x, y)) ->
     get E x y = get A x y].
have : Q c (for_loop 0 c (fun j B => set B (p k j).1 (p k j).2 (v k j)) D).
  apply: (@for_loop_ind _ Q) => //; first by split=> // x y h _; apply: hD2.
  move=> m E /andP [_ hm] [sE h1 h2 h3]; have [b1 b2] := hp k m hk hm; split.
  - have [wE _ _] := sE; apply: (same_trans sE); exact: same_set.
  - move=> i j hi hj; rewrite get_set -xpair_eqE -!surjective_pairing; case: eqP => [e|_]; last exact: h1.
    by have [e1 _] := inj _ _ _ _ (ltn_trans hi hk) hj hk hm e; rewrite e1 ltnn in hi.
  - move=> j; rewrite ltnS => hj; rewrite get_set -xpair_eqE -!surjective_pairing.
    case: eqP => [e|ne].
      by have [_ ->] := inj _ _ _ _ hk (leq_ltn_trans hj hm) hk hm e.
    by apply: h2; move: hj; rewrite leq_eqVlt => /orP [/eqP hj|//]; rewrite hj in ne.
  - move=> x y g1 g2; rewrite get_set -xpair_eqE -surjective_pairing.
    case: eqP => [e|_]; first by case: (g2 m (ltnSn m)).
    by apply: h3 => // j hj; apply: g2; rewrite ltnS ltnW.
move=> [sE h1 h2 h3]; split=> //.
  by move=> i j; rewrite ltnS leq_eqVlt => /orP [/eqP ->|hi] hj; [apply: h2|apply: h1].
move=> x y g; apply: h3 => [i j hi hj|j hj]; apply: g => //; by rewrite ltnS ltnW.
Qed.

Lemma fillP r c A (v : nat -> nat -> T) : wf r c A ->
  let B := for_loop 0 r (fun i B => for_loop 0 c (fun j B => set B i j (v i j)) B) A in
  same r c A B /\ forall i j, i < r -> j < c -> get B i j = v i j.
Proof.
move=> w; have [||s h _] := @fill2P r c r c A (fun i j => (i, j)) v w; first by [].
  by move=> i j i' j' _ _ _ _ [].
by split=> // i j hi hj; apply: h.
Qed.

Lemma convertP rm r c A : wf r c A ->
  [/\ wf r c (convert rm r c A), rowmaj (convert rm r c A) = rm, junk (convert rm r c A) = junk A &
      forall i j, i < r -> j < c -> get (convert rm r c A) i j = get A i j].
Proof.
move=> w; rewrite /convert; case: (rm =P rowmaj A) => [->|ne]; last first.
  by have [[w' e1 e2] h] := @fillP r c (uninit rm (junk A) r c) (get A) (wf_uninit _ _ _ _); split.
have -> : [seq nth [::] (stripes A) i | i <- iota 0 (stripe_count (rowmaj A) r c)] = stripes A.
  by rewrite -(wf_count w) -/(mkseq _ _) mkseq_nth.
by case: A w.
Qed.

Lemma convert_orderP rm r c A : wf c r A ->
  [/\ wf r c (convert_order rm r c A), rowmaj (convert_order rm r c A) = rm,
      junk (convert_order rm r c A) = junk A &
      forall i j, i < r -> j < c -> get (convert_order rm r c A) i j = get A j i].
Proof.
move=> w; rewrite /convert_order; case: (rm =P rowmaj A) => [->|ne] /=.
  have [[w' e1 e2] h] := @fillP r c (uninit (rowmaj A) (junk A) r c) (fun i j => get A j i) (wf_uninit _ _ _ _).
  by split.
have -> : rm = ~~ rowmaj A by case: rm (rowmaj A) ne => [] [].
have -> : [seq nth [::] (stripes A) i | i <- iota 0 (stripe_count (~~ rowmaj A) r c)] = stripes A.
  rewrite -/(mkseq _ _) -[RHS](mkseq_nth [::]) (wf_count w); congr mkseq.
  by rewrite /stripe_count; case: (rowmaj A).
by case: A w {ne} => -[] jk st; rewrite /wf.
Qed.

Lemma flip_layout_and_orderP r c A : wf r c A ->
  [/\ wf c r (flip_layout_and_order r c A), rowmaj (flip_layout_and_order r c A) = ~~ rowmaj A,
      junk (flip_layout_and_order r c A) = junk A &
      forall i j, i < c -> j < r -> get (flip_layout_and_order r c A) i j = get A j i].
Proof. exact: convert_orderP. Qed.

Lemma transposeP r c A : 
  [/\ wf c r (transpose r c A), rowmaj (transpose r c A) = rowmaj A, junk (transpose r c A) = junk A &
      forall i j, i < c -> j < r -> get (transpose r c A) i j = get A j i].
Proof.
have [||[w e1 e2] h _] := @fill2P r c c r (uninit (rowmaj A) (junk A) c r) (fun i j => (j, i)) (get A) (wf_uninit _ _ _ _).
- by [].
- by move=> i j i' j' _ _ _ _ [].
by split=> // i j hi hj; apply: (h j i).
Qed.

Lemma extractP er ec wr wc A :
  [/\ wf er ec (extract er ec wr wc A), rowmaj (extract er ec wr wc A) = rowmaj A &
      forall i j, i < er -> j < ec -> get (extract er ec wr wc A) i j = get A (i + wr) (j + wc)].
Proof.
by have [[w e1 e2] h] := @fillP er ec (uninit (rowmaj A) (junk A) er ec)
  (fun i j => get A (i + wr) (j + wc)) (wf_uninit _ _ _ _).
Qed.

Lemma insertP r c ir ic wr wc sub A : wf r c A -> ir + wr <= r -> ic + wc <= c ->
  same r c A (insert ir ic wr wc sub A) /\
  forall x y, get (insert ir ic wr wc sub A) x y =
    if (wr <= x < ir + wr) && (wc <= y < ic + wc) then get sub (x - wr) (y - wc) else get A x y.
Proof.
move=> w h1 h2.
have [||s g1 g2] := @fill2P ir ic r c A (fun i j => (i + wr, j + wc)) (get sub) w.
- by move=> i j hi hj /=; split; [apply: leq_trans h1|apply: leq_trans h2]; rewrite ltn_add2r.
- by move=> i j i' j' _ _ _ _ [] /eqP; rewrite eqn_add2r => /eqP -> /eqP; rewrite eqn_add2r => /eqP ->.
split=> // x y; case: ifP => [/andP [/andP [a1 a2] /andP [b1 b2]]|hn].
  have := g1 (x - wr) (y - wc); rewrite /= !subnK //; apply; by rewrite ltn_subLR // addnC.
apply: g2 => i j hi hj [e1 e2]; move/negP: hn; apply.
by rewrite -e1 -e2 !leq_addl !ltn_add2r hi hj.
Qed.

Lemma assignP r c A elems k :
  wf r c A -> k + size elems = r * c ->
  let B := assign c (k %/ c) (k %% c) elems A in
  same r c A B /\ forall i j, i < r -> j < c ->
    get B i j = if i * c + j < k then get A i j else nth (junk A) elems (i * c + j - k).
Proof.
elim: elems k A => [|x rest IH] k A w hk B.
  split=> // i j hi hj; rewrite -[k]addn0 hk.
  have -> // : i * c + j < r * c.
  by apply: (@leq_trans (i.+1 * c)); rewrite ?leq_mul2r ?hi ?orbT // mulSn addnC ltn_add2r.
have c0 : 0 < c by case: (c) hk => //; rewrite muln0 addnS.
have hkr : k %/ c < r by rewrite ltn_divLR // -hk -{1}[k]addn0 ltn_add2l.
have hkc : k %% c < c by rewrite ltn_mod.
have e1 : (if k %% c != c.-1 then k %/ c else (k %/ c).+1) = k.+1 %/ c.
  have -> : k.+1 %/ c = k %/ c + (k %% c).+1 %/ c by rewrite {1}(divn_eq k c) -addnS divnMDl.
  case: eqP => /= h.
    by rewrite h prednK // divnn c0 addn1.
  rewrite [(k %% c).+1 %/ c]divn_small ?addn0 // ltn_neqAle hkc andbT; apply/eqP => e; apply: h.
  by rewrite -[in RHS]e.
have e2 : (k %% c + 1) %% c = k.+1 %% c by rewrite modnDml addn1.
have hk' : k.+1 + size rest = r * c by rewrite addSnnS.
rewrite /B /= e1 e2.
have [s h] := IH k.+1 (set A (k %/ c) (k %% c) x) (wf_set _ w hkr hkc) hk'.
split; first exact: same_trans (same_set _ w hkr hkc) s.
move=> i j hi hj; rewrite h // ltnS get_set junk_set leq_eqVlt.
case: (i * c + j =P k) => [<-|ne] /=.
  rewrite divnMDl // modnMDl divn_small // addn0 modn_small // !eqxx ltnn.
  by rewrite subnn.
case: ltnP => hlt.
  case: (i =P k %/ c) => [e|] //=; case: (j =P k %% c) => [e'|] //=.
  by case: ne; rewrite e e' -divn_eq.
have hlt' : k < i * c + j by rewrite ltn_neqAle hlt andbT; apply/eqP => e; case: ne.
by rewrite -[i * c + j - k]prednK ?subn_gt0 //= -subnS.
Qed.

Lemma ctor_elemsP rm (jk : T) r c elems : size elems = r * c ->
  [/\ wf r c (ctor_elems rm jk r c elems), rowmaj (ctor_elems rm jk r c elems) = rm &
    forall i j, i < r -> j < c -> get (ctor_elems rm jk r c elems) i j = nth jk elems (i * c + j)].
Proof.
move=> h; have := @assignP r c (uninit rm jk r c) elems 0 (wf_uninit _ _ _ _).
rewrite /= div0n mod0n add0n => /(_ h) [[w e1 e2] hg]; split=> // i j hi hj.
by rewrite hg // subn0.
Qed.

Lemma ctor_vectorP rm (jk : T) r c v : minn r c = 1 -> size v = maxn r c ->
  [/\ wf r c (ctor_vector rm jk r c v), rowmaj (ctor_vector rm jk r c v) = rm &
    forall i j, i < r -> j < c -> get (ctor_vector rm jk r c v) i j = nth jk v (i + j)].
Proof.
move=> hm sv; rewrite /ctor_vector hm eqxx.
have hsum : stripe_count rm r c + stripe_dim rm r c = 1 + maxn r c.
  by rewrite -hm addn_min_max /stripe_count /stripe_dim; case: rm; rewrite // addnC.
have hdim : stripe_dim rm r c = 1 \/ stripe_dim rm r c = maxn r c.
  by rewrite -hm /stripe_dim /minn /maxn; case: (rm); case: ltnP; auto.
case: eqP => [hd|hd].
  have hc : stripe_count rm r c = 1 by move/eqP: hsum; rewrite hd eqn_add2r => /eqP.
  split=> //; first by apply: wf_set_stripe; rewrite ?hc ?hd //; apply: wf_uninit.
  move=> i j hi hj; rewrite /get /= !nth_set_nth /=; move: hc; rewrite /stripe_count; case: rm {hsum hdim hd} => /= hc.
    by have -> : i = 0 by move: hi; rewrite hc ltnS leqn0 => /eqP.
  by have -> : j = 0 by [move: hj; rewrite hc ltnS leqn0 => /eqP]; rewrite addn0.
case: hdim => [hd1|h]; last by case: hd.
have hc : stripe_count rm r c = maxn r c by move/eqP: hsum; rewrite hd1 addnC eqn_add2l => /eqP.
set U := uninit rm jk r c; have wU : wf r c U by apply: wf_uninit.
pose P q A := same r c U A /\ forall i, i < q -> nth [::] (stripes A) i = [:: nth jk v i].
have [[w e1 e2] h] : P (stripe_count rm r c) (for_loop 0 (stripe_count rm r c)
  (fun i A => set_stripe A i (set_nth jk (nth [::] (stripes A) i) 0 (nth jk v i))) U).
  apply: (@for_loop_ind _ P) => // q A /andP [_ hq] [[wA e1 e2] hA].
  have := @wf_dim r c A q wA; rewrite e1 /= hd1 => /(_ hq) s1; split.
    split=> //; apply: wf_set_stripe => //; rewrite e1 //= hd1.
    by move: s1; case: (nth _ _ _) => [|y []].
  move=> i; rewrite ltnS /= nth_set_nth /=; case: eqP => [->|/eqP ne] hi.
    by move: s1; case: (nth _ _ _) => [|y []].
  by apply: hA; rewrite ltn_neqAle ne.
split=> // i j hi hj; rewrite /get e1 e2 /=; move: h hd1; rewrite /stripe_count /stripe_dim.
case: (rm) => h hd1.
  by have -> : j = 0 by [move: hj; rewrite hd1 ltnS leqn0 => /eqP]; rewrite h // addn0.
by have -> : i = 0 by [move: hi; rewrite hd1 ltnS leqn0 => /eqP]; rewrite h // addn0.
Qed.

Lemma to_vectorP (x0 : T) r c A : wf r c A -> minn r c = 1 ->
  size (to_vector r c A) = maxn r c /\
  forall i j, i < r -> j < c -> nth x0 (to_vector r c A) (i + j) = get A i j.
Proof.
move=> w hm; rewrite /to_vector; case: eqP => [hr|hr].
  have c0 : 0 < c by rewrite lt0n; apply/eqP => e; move: hm; rewrite e minn0.
  split; first by rewrite (size_get_row w) ?hr // (maxn_idPr c0).
  move=> i j hi hj; have -> : i = 0 by move: hi; rewrite hr ltnS leqn0 => /eqP.
  by rewrite (nth_get_row _ w) // hr.
have hc : c = 1 by move: hm; rewrite /minn; case: ltnP.
have r0 : 0 < r by rewrite lt0n; apply/eqP => e; move: hm; rewrite e min0n.
split; first by rewrite (size_get_col w) ?hc // (maxn_idPl r0).
move=> i j hi hj; have -> : j = 0 by move: hj; rewrite hc ltnS leqn0 => /eqP.
by rewrite addn0 (nth_get_col _ w) // hc.
Qed.
End Storage.

Section Compare.
Variable T : eqType.
Lemma mat_eqP r c (f g : nat -> nat -> T) :
  for_loop 0 r (fun i e => for_loop 0 c (fun j e => e && (f i j == g i j)) e) true <->
  forall i j, i < r -> j < c -> f i j = g i j.
Proof.
pose P k (e : bool) := e <-> forall i j, i < k -> j < c -> f i j = g i j.
suff : P r (for_loop 0 r (fun i e => for_loop 0 c (fun j e => e && (f i j == g i j)) e) true) by [].
apply: (@for_loop_ind _ P) => // k e /andP [_ hk] he.
pose Q m (e : bool) := e <-> (forall i j, i < k -> j < c -> f i j = g i j) /\ (forall j, j < m -> f k j = g k j).
suff h : Q c (for_loop 0 c (fun j e => e && (f k j == g k j)) e).
  apply: iff_trans h _; split=> [[h1 h2] i j|h].
    by rewrite ltnS leq_eqVlt => /orP [/eqP ->|hi] hj; [apply: h2|apply: h1].
  by split=> [i j hi hj|j hj]; apply: h => //; rewrite ltnS ltnW.
apply: (@for_loop_ind _ Q) => //; first by apply: (iff_trans he); split=> [|[]].
move=> m e' /andP [_ hm] he'; split.
  case/andP => /he' [h1 h2] /eqP h3; split=> // j; rewrite ltnS leq_eqVlt => /orP [/eqP ->|] //; exact: h2.
move=> [h1 h2]; apply/andP; split; last by apply/eqP/h2.
by apply/he'; split=> // j hj; apply: h2; rewrite ltnS ltnW.
Qed.
End Compare.

Local Open Scope ring_scope.
Section Arithmetic.
Variable R : ringType.
Implicit Types (A B : mat R) (v : seq R).

Lemma nth_vmuladd n (a b c : seq R) i : size a = n -> size b = n -> size c = n -> (i < n)%N ->
  nth 0 (vmuladd a b c) i = nth 0 a i * nth 0 b i + nth 0 c i.
Proof.
move=> sa sb sc hi; rewrite /vmuladd /vmap3 (nth_map ((0, 0), 0)) ?size_zip ?sa ?sb ?sc ?minnn //.
by rewrite nth_zip ?size_zip ?sa ?sb ?sc ?minnn // nth_zip ?sa ?sb.
Qed.
Lemma size_vmuladd n (a b c : seq R) : size a = n -> size b = n -> size c = n -> size (vmuladd a b c) = n.
Proof. by move=> sa sb sc; rewrite size_map !size_zip sa sb sc !minnn. Qed.

Lemma sum_iota k (f : nat -> R) : (0 < k)%N -> \sum_(l < k) f l = f 0%N + \sum_(1 <= l < k) f l.
Proof. by case: k => // k _; rewrite -(big_mkord xpredT f) big_ltn. Qed.

Lemma mul_rrP r k c A B : wf r k A -> wf k c B -> (0 < k)%N ->
  [/\ wf r c (mul_rr r k c A B), rowmaj (mul_rr r k c A B) = true &
      forall i j, (i < r)%N -> (j < c)%N ->
        get (mul_rr r k c A B) i j = \sum_(l < k) get A i l * get B l j].
Proof.
move=> wA wB k0; set U := uninit true (junk A) r c.
pose P m M := same r c U M /\ forall i j, (i < m)%N -> (j < c)%N ->
  get M i j = \sum_(l < k) get A i l * get B l j.
suff [[w e _] h] : P r (mul_rr r k c A B) by split.
apply: (@for_loop_ind _ P) => //; first by split=> //; split=> //; apply: wf_uninit.
move=> i M /andP [_ hi] [sM hM]; have [wM _ _] := sM.
have s0 : size (vscalel (get A i 0) (get_row c B 0)) = c by rewrite size_map (size_get_row wB).
have [sM0 hM0] := set_rowP wM hi s0; set M0 := set_row c M i _ in sM0 hM0 *.
pose Q m N := same r c U N /\ forall x y, (x < i.+1)%N -> (y < c)%N ->
  get N x y = if x == i then \sum_(0 <= l < m) get A i l * get B l y else get M x y.
have [sN hN] : Q k (for_loop 1 k (fun l M =>
        set_row c M i (vmuladd (nseq c (get A i l)) (get_row c B l) (get_row c M i))) M0).
  apply: (@for_loop_ind _ Q) => //.
    split=> [|x y hx hy]; first exact: same_trans sM sM0.
    rewrite hM0 big_nat1; case: eqP => // _.
    by rewrite (set_nth_default 0) ?s0 // nth_vscalel (nth_get_row _ wB).
  move=> l N /andP [hl1 hl] [sN hN]; have [wN _ _] := sN.
  have s1 : size (vmuladd (nseq c (get A i l)) (get_row c B l) (get_row c N i)) = c.
    by rewrite (@size_vmuladd c) ?size_nseq ?(size_get_row wB) ?(size_get_row wN).
  have [sN' hN'] := set_rowP wN hi s1; split; first exact: same_trans sN sN'.
  move=> x y hx hy; rewrite hN'; case: (x =P i) => [_|ne]; last by rewrite hN // (introF eqP ne).
  rewrite (set_nth_default 0) ?s1 // (@nth_vmuladd c) ?size_nseq ?(size_get_row wB) ?(size_get_row wN) //.
  rewrite nth_nseq hy (nth_get_row _ wB) // (nth_get_row _ wN) // hN // eqxx.
  by rewrite big_nat_recr //= addrC.
split=> // x y hx hy; rewrite hN //; case: eqP => [->|/eqP ne]; first by rewrite big_mkord.
by apply: hM => //; rewrite ltn_neqAle ne -ltnS.
Qed.

Lemma dot_rowcol n (f g : nat -> R) a b : size a = n -> size b = n ->
  (forall i, (i < n)%N -> nth 0 a i = f i) -> (forall i, (i < n)%N -> nth 0 b i = g i) ->
  vsum (vmul a b) = \sum_(l < n) f l * g l.
Proof.
move=> sa sb ha hb; rewrite (@vsum_nth _ n) ?(size_vmul sa sb) //; apply: eq_bigr => i _.
by rewrite (nth_vmul _ sa sb) ha ?hb.
Qed.

Lemma mul_rcP r k c A B : wf r k A -> wf k c B ->
  [/\ wf r c (mul_rc r k c A B), rowmaj (mul_rc r k c A B) = true &
      forall i j, (i < r)%N -> (j < c)%N ->
        get (mul_rc r k c A B) i j = \sum_(l < k) get A i l * get B l j].
Proof.
move=> wA wB.
have [[w e1 e2] h] := @fillP _ r c (uninit true (junk A) r c)
  (fun i j => vsum (vmul (get_row k A i) (get_col k B j))) (wf_uninit _ _ _ _).
split=> // i j hi hj; rewrite h //.
apply: (@dot_rowcol k (get A i) (fun l => get B l j)); rewrite ?(size_get_row wA) ?(size_get_col wB) //.
  by move=> l hl; rewrite (nth_get_row _ wA).
by move=> l hl; rewrite (nth_get_col _ wB).
Qed.

Lemma mul_cxP r k c A B : wf r k A -> wf k c B -> (0 < k)%N ->
  [/\ wf r c (mul_cx r k c A B), rowmaj (mul_cx r k c A B) = false &
      forall i j, (i < r)%N -> (j < c)%N ->
        get (mul_cx r k c A B) i j = \sum_(l < k) get A i l * get B l j].
Proof.
move=> wA wB k0; set U := uninit false (junk A) r c.
pose P m M := same r c U M /\ forall i j, (i < r)%N -> (j < m)%N ->
  get M i j = \sum_(l < k) get A i l * get B l j.
suff [[w e _] h] : P c (mul_cx r k c A B) by split.
apply: (@for_loop_ind _ P) => //; first by split=> //; split=> //; apply: wf_uninit.
move=> j M /andP [_ hj] [sM hM]; have [wM _ _] := sM.
have s0 : size (vscale (get_col r A 0) (get B 0 j)) = r by rewrite size_map (size_get_col wA).
have [sM0 hM0] := set_colP wM hj s0; set M0 := set_col r M j _ in sM0 hM0 *.
pose Q m N := same r c U N /\ forall x y, (x < r)%N -> (y < j.+1)%N ->
  get N x y = if y == j then \sum_(0 <= l < m) get A x l * get B l j else get M x y.
have [sN hN] : Q k (for_loop 1 k (fun l M =>
        set_col r M j (vmuladd (get_col r A l) (nseq r (get B l j)) (get_col r M j))) M0).
  apply: (@for_loop_ind _ Q) => //.
    split=> [|x y hx hy]; first exact: same_trans sM sM0.
    rewrite hM0 big_nat1; case: eqP => // _.
    by rewrite (set_nth_default 0) ?s0 // nth_vscale (nth_get_col _ wA).
  move=> l N /andP [hl1 hl] [sN hN]; have [wN _ _] := sN.
  have s1 : size (vmuladd (get_col r A l) (nseq r (get B l j)) (get_col r N j)) = r.
    by rewrite (@size_vmuladd r) ?size_nseq ?(size_get_col wA) ?(size_get_col wN).
  have [sN' hN'] := set_colP wN hj s1; split; first exact: same_trans sN sN'.
  move=> x y hx hy; rewrite hN'; case: (y =P j) => [_|ne]; last by rewrite hN // (introF eqP ne).
  rewrite (set_nth_default 0) ?s1 // (@nth_vmuladd r) ?size_nseq ?(size_get_col wA) ?(size_get_col wN) //.
  rewrite nth_nseq hx (nth_get_col _ wA) // (nth_get_col _ wN) // hN // eqxx.
  by rewrite big_nat_recr //= addrC.
split=> // x y hx hy; rewrite hN //; case: eqP => [->|/eqP ne]; first by rewrite big_mkord.
by apply: hM => //; rewrite ltn_neqAle ne -ltnS.
Qed.

Lemma mat_mulP r k c A B : wf r k A -> wf k c B -> (0 < k)%N ->
  [/\ wf r c (mat_mul r k c A B), rowmaj (mat_mul r k c A B) = rowmaj A &
      forall i j, (i < r)%N -> (j < c)%N ->
        get (mat_mul r k c A B) i j = \sum_(l < k) get A i l * get B l j].
Proof.
move=> wA wB k0; rewrite /mat_mul; case: (rowmaj A); last exact: mul_cxP.
by case: (rowmaj B); [apply: mul_rrP|apply: mul_rcP].
Qed.

Lemma mxof_mul r k c A B : wf r k A -> wf k c B -> (0 < k)%N ->
  mxof r c (mat_mul r k c A B) = mxof r k A *m mxof k c B.
Proof.
move=> wA wB k0; have [_ _ h] := mat_mulP wA wB k0.
by apply/matrixP => i j; rewrite !mxE h //; apply: eq_bigr => l _; rewrite !mxE.
Qed.

Lemma elementwiseP f g r c A B : wf r c A -> wf r c B ->
  (forall n a b, size a = n -> size b = n -> size (f a b) = n /\
     forall i, (i < n)%N -> nth 0 (f a b) i = g (nth 0 a i) (nth 0 b i)) ->
  [/\ wf r c (elementwise f r c A B), rowmaj (elementwise f r c A B) = rowmaj A &
      forall i j, (i < r)%N -> (j < c)%N -> get (elementwise f r c A B) i j = g (get A i j) (get B i j)].
Proof.
move=> wA wB hf; rewrite /elementwise; set U := uninit (rowmaj A) (junk A) r c.
case hr: (rowmaj A).
  pose P m M := same r c U M /\ forall i j, (i < m)%N -> (j < c)%N -> get M i j = g (get A i j) (get B i j).
  suff [[w e _] h] : P r (for_loop 0 r (fun s M => set_row c M s (f (get_row c A s) (get_row c B s))) U).
    by split=> //; rewrite e.
  apply: (@for_loop_ind _ P) => //; first by split=> //; split=> //; apply: wf_uninit.
  move=> i M /andP [_ hi] [sM hM]; have [wM _ _] := sM.
  have [s0 h0] := hf c _ _ (size_get_row wA hi) (size_get_row wB hi).
  have [sM' hM'] := set_rowP wM hi s0; split; first exact: same_trans sM sM'.
  move=> x y; rewrite ltnS => hx hy; rewrite hM'; case: eqP => [->|/eqP ne].
    by rewrite (set_nth_default 0) ?s0 // h0 // (nth_get_row _ wA) // (nth_get_row _ wB).
  by apply: hM => //; rewrite ltn_neqAle ne.
pose P m M := same r c U M /\ forall i j, (i < r)%N -> (j < m)%N -> get M i j = g (get A i j) (get B i j).
suff [[w e _] h] : P c (for_loop 0 c (fun s M => set_col r M s (f (get_col r A s) (get_col r B s))) U).
  by split=> //; rewrite e.
apply: (@for_loop_ind _ P) => //; first by split=> //; split=> //; apply: wf_uninit.
move=> i M /andP [_ hi] [sM hM]; have [wM _ _] := sM.
have [s0 h0] := hf r _ _ (size_get_col wA hi) (size_get_col wB hi).
have [sM' hM'] := set_colP wM hi s0; split; first exact: same_trans sM sM'.
move=> x y hx; rewrite ltnS => hy; rewrite hM'; case: eqP => [->|/eqP ne].
  by rewrite (set_nth_default 0) ?s0 // h0 // (nth_get_col _ wA) // (nth_get_col _ wB).
by apply: hM => //; rewrite ltn_neqAle ne.
Qed.

Lemma vmap2_pw (g : R -> R -> R) n a b : size a = n -> size b = n ->
  size (vmap2 g a b) = n /\ forall i, (i < n)%N -> nth 0 (vmap2 g a b) i = g (nth 0 a i) (nth 0 b i).
Proof.
move=> sa sb; split; first by rewrite size_vmap2 sa sb minnn.
by move=> i hi; rewrite (nth_vmap2 _ 0 0) ?sa ?sb.
Qed.

Lemma scalar_opP (f : seq R -> seq R) (g : R -> R) r c A : wf r c A ->
  (forall v, f v = [seq g x | x <- v]) ->
  [/\ wf r c (scalar_op f r c A), rowmaj (scalar_op f r c A) = rowmaj A &
      forall i j, (i < r)%N -> (j < c)%N -> get (scalar_op f r c A) i j = g (get A i j)].
Proof.
move=> wA hf; rewrite /scalar_op; set U := uninit (rowmaj A) (junk A) r c.
pose P m M := same r c U M /\ forall s, (s < m)%N -> nth [::] (stripes M) s = f (nth [::] (stripes A) s).
have [[w e1 e2] h] : P (stripe_count (rowmaj A) r c) (for_loop 0 (stripe_count (rowmaj A) r c)
   (fun s M => set_stripe M s (f (nth [::] (stripes A) s))) U).
  apply: (@for_loop_ind _ P) => //; first by split=> //; split=> //; apply: wf_uninit.
  move=> s M /andP [_ hs] [sM hM]; have [wM e1 e2] := sM; split.
    apply: same_trans sM _; split=> //; apply: wf_set_stripe => //; rewrite e1 //.
    by rewrite hf size_map (wf_dim wA).
  move=> t; rewrite ltnS /= nth_set_nth /=; case: eqP => [->|/eqP ne] // ht.
  by apply: hM; rewrite ltn_neqAle ne.
split=> // i j hi hj; rewrite /get e1 e2 /=.
have hd := wf_dim wA; rewrite /stripe_count /stripe_dim in h hd.
case: (rowmaj A) h hd => h hd; rewrite h // hf (nth_map (junk A)) ?hd //.
Qed.

Lemma vec_matP k c v B : wf k c B -> (0 < k)%N -> size v = k ->
  vec_mat k c v B = mkseq (fun j => \sum_(l < k) nth 0 v l * get B l j) c.
Proof.
move=> wB k0 sv; rewrite /vec_mat; case: (rowmaj B); last first.
  apply/eq_in_map => j; rewrite mem_iota => hj.
  apply: (@dot_rowcol k (nth 0 v) (fun l => get B l j)); rewrite ?(size_get_col wB) // => l hl.
  by rewrite (nth_get_col _ wB).
pose P m w := w = mkseq (fun j => \sum_(0 <= l < m) nth 0 v l * get B l j) c.
have -> : P k (for_loop 1 k (fun l w => vmuladd (nseq c (nth (junk B) v l)) (get_row c B l) w)
   (vscalel (nth (junk B) v 0) (get_row c B 0))).
  apply: (@for_loop_ind _ P) => //.
    rewrite /P (get_rowE wB) // /vscalel /mkseq -map_comp; apply: eq_map => j /=.
    by rewrite big_nat1 (set_nth_default 0) ?sv.
  move=> l w /andP [hl1 hl] ->; rewrite /P.
  have sB := size_get_row wB hl.
  apply: (@eq_from_nth _ 0); rewrite ?(@size_vmuladd c) ?size_nseq ?size_mkseq //.
  move=> j hj; rewrite (@nth_vmuladd c) ?size_nseq ?size_mkseq // nth_nseq hj !nth_mkseq //.
  by rewrite (nth_get_row _ wB) // big_nat_recr //= addrC (set_nth_default 0) ?sv.
by apply: eq_mkseq => j; rewrite big_mkord.
Qed.

Lemma mat_vecP r k A v : wf r k A -> (0 < k)%N -> size v = k ->
  mat_vec r k A v = mkseq (fun i => \sum_(l < k) nth 0 v l * get A i l) r.
Proof.
move=> wA k0 sv; have [w _ _ h] := flip_layout_and_orderP wA.
rewrite /mat_vec (vec_matP w) //; apply/eq_in_map => i; rewrite mem_iota => hi.
by apply: eq_bigr => l _; rewrite h.
Qed.
End Arithmetic.
