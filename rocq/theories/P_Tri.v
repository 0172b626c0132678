(* Lemmas about the triangular solvers and the builders. *)
From mathcomp Require Import all_ssreflect all_algebra.
From mathcomp Require Import ring.
From Verif Require Import M_Vec P_Vec M_Mat Spec P_Mat M_LU.
Set Implicit Arguments. Unset Strict Implicit. Unset Printing Implicit Defensive.
Import GRing.Theory.
Local Open Scope ring_scope.

Section Builders.
Variable R : ringType.

Lemma zero_matP rm (jk : R) r c :
  [/\ wf r c (zero_mat rm jk r c), rowmaj (zero_mat rm jk r c) = rm, junk (zero_mat rm jk r c) = jk &
      forall i j, (i < r)%N -> (j < c)%N -> get (zero_mat rm jk r c) i j = 0].
Proof.
pose P k (A : mat R) := same r c (uninit rm jk r c) A /\
  forall s, (s < k)%N -> nth [::] (stripes A) s = nseq (stripe_dim rm r c) 0.
have [[w e1 e2] h] : P (stripe_count rm r c) (zero_mat rm jk r c).
  apply: (@for_loop_ind _ P) => //; first by split=> //; split=> //; apply: wf_uninit.
  move=> s A /andP [_ hs] [[w e1 e2] h]; split; last first.
    move=> t; rewrite ltnS /= nth_set_nth /= leq_eqVlt => /orP [/eqP ->|ht]; first by rewrite eqxx.
    by rewrite (ltn_eqF ht) h.
  by split=> //; apply: wf_set_stripe; rewrite // e1 /= ?size_nseq.
split=> // i j hi hj; rewrite /get e1 /=.
by case: rm h {w e1 e2 P} => h; rewrite h // nth_nseq /stripe_dim ?hi ?hj.
Qed.

Lemma identityP rm (jk : R) r c :
  [/\ wf r c (identity rm jk r c), rowmaj (identity rm jk r c) = rm, junk (identity rm jk r c) = jk &
      forall i j, (i < r)%N -> (j < c)%N -> get (identity rm jk r c) i j = (i == j)%:R].
Proof.
have [w e1 e2 h] := zero_matP rm jk r c.
pose P k (A : mat R) := same r c (zero_mat rm jk r c) A /\
  forall i j, (i < r)%N -> (j < c)%N -> get A i j = ((i == j) && (i < k)%N)%:R.
have [[w' e1' e2'] h'] : P (minn r c) (identity rm jk r c).
  apply: (@for_loop_ind _ P) => //; first by split=> // i j hi hj; rewrite h // andbF.
  move=> k A /andP [_]; rewrite leq_min => /andP [hr hc] [[wA eA1 eA2] hA]; split.
    by apply: same_trans (same_set _ wA hr hc).
  move=> i j hi hj; rewrite get_set hA //; case: (i =P k) => [->|/eqP ik] /=.
    by rewrite ltnSn andbT eq_sym; case: eqP => //; rewrite andbF.
  by rewrite ltnS [(i <= k)%N]leq_eqVlt (negPf ik).
split; rewrite ?e1' ?e2' // => i j hi hj; rewrite h' //; case: (i =P j) => // e.
by rewrite leq_min hi e hj.
Qed.

Lemma mxof_identity rm (jk : R) n : mxof n n (identity rm jk n n) = 1%:M.
Proof. by have [_ _ _ h] := identityP rm jk n n; apply/matrixP => i j; rewrite !mxE h // -val_eqE. Qed.
End Builders.

Section Tri.
Variable F : fieldType.
Implicit Types (A b : mat F).

Lemma axpyP r c A i (v : seq F) m : wf r c A -> (i < r)%N -> size v = c ->
  let B := set_row c A i (vsub (get_row c A i) (vscalel m v)) in
  same r c A B /\ forall x y, (x < r)%N -> (y < c)%N ->
    get B x y = if x == i then get A i y - m * nth 0 v y else get A x y.
Proof.
move=> w hi sv; have sr := size_get_row w hi.
have sm : size (vscalel m v) = c by rewrite size_map.
have [ss hs] := vmap2_pw (fun x y => x - y) sr sm.
have [s h] := set_rowP w hi ss; split=> // x y hx hy; rewrite h; case: eqP => // _.
rewrite (set_nth_default 0) ?ss // hs // (nth_get_row _ w) //.
by rewrite (nth_map 0) ?sv.
Qed.

Lemma nth_divs (v : seq F) x i : (i < size v)%N -> nth 0 [seq y / x | y <- v] i = nth 0 v i / x.
Proof. by move=> h; rewrite (nth_map 0). Qed.

Lemma tri_foldP n c targets r rowA rowB A b :
  wf n n A -> wf n c b -> size rowA = n -> size rowB = c -> (r < n)%N ->
  r \notin targets -> uniq targets -> all (fun t => (t < n)%N) targets ->
  let st := foldl (fun st t =>
        let: (A, b) := st in
        let targetA := get_row n A t in
        let targetB := get_row c b t in
        let multiplier := nth 0 targetA r in
        (set_row n A t (vsub targetA (vscalel multiplier rowA)),
         set_row c b t (vsub targetB (vscalel multiplier rowB)))) (A, b) targets in
  [/\ same n n A st.1, same n c b st.2,
      forall i l, (i < n)%N -> (l < n)%N -> get st.1 i l =
        if i \in targets then get A i l - get A i r * nth 0 rowA l else get A i l &
      forall i j, (i < n)%N -> (j < c)%N -> get st.2 i j =
        if i \in targets then get b i j - get A i r * nth 0 rowB j else get b i j].
Proof.
move=> wA wb sA sb hr; elim: targets A b wA wb => [|t ts IH] A b wA wb //=.
rewrite inE negb_or => /andP [rt rts] /andP [tts us] /andP [ht hts].
have [s1 h1] := axpyP (nth 0 (get_row n A t) r) wA ht sA.
have [s2 h2] := axpyP (nth 0 (get_row n A t) r) wb ht sb.
have [w1 _ _] := s1; have [w2 _ _] := s2; rewrite !(nth_get_row _ wA) // in s1 h1 s2 h2 w1 w2 *.
have [s3 s4 h3 h4] := IH _ _ w1 w2 rts us hts.
split; [exact: same_trans s1 s3|exact: same_trans s2 s4| |].
  move=> i l hi hl; rewrite h3 // !h1 // inE; case: (i =P t) => //= ->.
  by rewrite (negPf tts).
move=> i j hi hj; rewrite h4 // h2 // h1 // inE; case: (i =P t) => //= ->.
by rewrite (negPf tts).
Qed.

Lemma tri_stepP n c targets r A b :
  wf n n A -> wf n c b -> (r < n)%N ->
  r \notin targets -> uniq targets -> all (fun t => (t < n)%N) targets -> get A r r != 0 ->
  exists2 st, tri_step n c targets r (A, b) = Some st &
  [/\ same n n A st.1, same n c b st.2,
      forall i l, (i < n)%N -> (l < n)%N -> get st.1 i l =
        if i == r then get A r l / get A r r
        else if i \in targets then get A i l - get A i r * (get A r l / get A r r) else get A i l &
      forall i j, (i < n)%N -> (j < c)%N -> get st.2 i j =
        if i == r then get b r j / get A r r
        else if i \in targets then get b i j - get A i r * (get b r j / get A r r) else get b i j].
Proof.
move=> wA wb hr rt ut ht ne; rewrite /tri_step (negPf ne).
set rowA := [seq _ | x <- get_row n A r]; set rowB := [seq _ | x <- get_row c b r].
have sA : size rowA = n by rewrite size_map (size_get_row wA).
have sB : size rowB = c by rewrite size_map (size_get_row wb).
have [s1 h1] := set_rowP wA hr sA; have [s2 h2] := set_rowP wb hr sB.
have [w1 _ _] := s1; have [w2 _ _] := s2.
have [s3 s4 h3 h4] := tri_foldP w1 w2 sA sB hr rt ut ht.
have nA l : (l < n)%N -> nth 0 rowA l = get A r l / get A r r.
  by move=> hl; rewrite nth_divs ?(size_get_row wA) // (nth_get_row _ wA).
have nB l : (l < c)%N -> nth 0 rowB l = get b r l / get A r r.
  by move=> hl; rewrite nth_divs ?(size_get_row wb) // (nth_get_row _ wb).
eexists; first reflexivity.
split; [exact: same_trans s1 s3|exact: same_trans s2 s4| |].
  move=> i l hi hl; rewrite h3 // !h1 nA //; case: (i =P r) => [->|//].
  by rewrite (negPf rt) (set_nth_default 0) ?sA // nA.
move=> i j hi hj; rewrite h4 // !h2 h1 nB //; case: (i =P r) => [->|//].
by rewrite (negPf rt) (set_nth_default 0) ?sB // nB.
Qed.

(* X solves A X = b *)
Definition solves n c A b (X : nat -> nat -> F) :=
  forall i j, (i < n)%N -> (j < c)%N -> \sum_(l < n) get A i l * X l j = get b i j.

(* [rows]: the rows still to be processed; each is eliminated from the rows after it, and has zeros there *)
Fixpoint tri_ok (tg : nat -> seq nat) (A0 : nat -> nat -> F) (rows : seq nat) : Prop :=
  match rows with
  | [::] => True
  | r :: rest => [/\ tg r =i rest, uniq (tg r), forall l, l \in rest -> A0 r l = 0 & tri_ok tg A0 rest]
  end.

Lemma tri_loopP n c tg (A0 : nat -> nat -> F) rows A b :
  wf n n A -> wf n c b -> uniq rows -> all (fun r => (r < n)%N) rows -> tri_ok tg A0 rows ->
  (forall i l, (i < n)%N -> (l < n)%N ->
     get A i l = if (i \in rows) && (l \in rows) then A0 i l else (i == l)%:R) ->
  match for_opt rows (fun r => tri_step n c (tg r) r) (A, b) with
  | None => exists2 r, r \in rows & A0 r r = 0
  | Some st => [/\ forall r, r \in rows -> A0 r r != 0, same n n A st.1, same n c b st.2,
      forall i l, (i < n)%N -> (l < n)%N -> get st.1 i l = (i == l)%:R &
      forall X, solves n c A b X -> solves n c st.1 st.2 X]
  end.
Proof.
elim: rows A b => [|r rest IH] A b wA wb //= /andP [rr ur] /andP [hr hrest] [tgr utg zr ok] hA.
have eA : get A r r = A0 r r by rewrite hA // inE eqxx.
have [z|nz] := eqVneq (A0 r r) 0.
  by rewrite eA z eqxx; exists r => //; rewrite inE eqxx.
have rtg : r \notin tg r by rewrite tgr.
have htg : all (fun t => (t < n)%N) (tg r) by apply/allP => t; rewrite tgr => /(allP hrest).
have nz' : get A r r != 0 by rewrite eA.
have [[A' b'] e [s1 s2 h1 h2]] := tri_stepP wA wb hr rtg utg htg nz'.
rewrite -/(tri_step n c (tg r) r (A, b)) e; rewrite /= in s1 s2 h1 h2.
have [w1 _ _] := s1; have [w2 _ _] := s2.
have eR l : (l < n)%N -> get A r l / get A r r = (r == l)%:R.
  move=> hl; rewrite hA // !inE eqxx /=; case: (l =P r) => [->|/eqP lr] /=.
    by rewrite eqxx eA divff.
  by rewrite [r == l]eq_sym (negPf lr); case: ifP => [/zr ->|_]; rewrite mul0r.
have hA' i l : (i < n)%N -> (l < n)%N ->
    get A' i l = if (i \in rest) && (l \in rest) then A0 i l else (i == l)%:R.
  move=> hi hl; rewrite h1 //; case: (i =P r) => [->|/eqP ir].
    by rewrite (negPf rr) eR.
  rewrite eR // tgr !hA // !inE (negPf ir) eqxx /= andbT.
  case: (boolP (i \in rest)) => //= hi'; case: (l =P r) => [->|/eqP lr] /=.
    by rewrite (negPf rr) eqxx mulr1 subrr (negPf ir).
  by rewrite [r == l]eq_sym (negPf lr) mulr0 subr0.
have := IH _ _ w1 w2 ur hrest ok hA'.
case: for_opt => [st [d s3 s4 h3 h4]|[r' hr' z]]; last by exists r'; rewrite // inE hr' orbT.
split=> //; [|exact: same_trans s1 s3|exact: same_trans s2 s4|].
  by move=> r'; rewrite inE => /orP [/eqP ->|/d].
move=> X hX; apply: h4 => i j hi hj; rewrite h2 //.
case: (i =P r) => [e'|/eqP ir].
  rewrite -hX // mulr_suml; apply: eq_bigr => l _.
  by rewrite e' h1 // eqxx mulrAC.
have [hi'|hi'] := boolP (i \in tg r); last first.
  by rewrite -(hX i) //; apply: eq_bigr => l _; rewrite h1 // (negPf ir) (negPf hi').
rewrite -(hX i) // -(hX r) // mulr_suml mulr_sumr -sumrB; apply: eq_bigr => l _.
by rewrite h1 // (negPf ir) hi' mulrBl; congr (_ - _); rewrite -!mulrA; congr (_ * (_ * _)); rewrite mulrC.
Qed.

Definition upper n A := forall i l, (i < n)%N -> (l < i)%N -> get A i l = 0.
Definition lower n A := forall i l, (i < l)%N -> (l < n)%N -> get A i l = 0.

Lemma solve_ind n c A b tg rows :
  wf n n A -> wf n c b -> perm_eq rows (iota 0 n) -> tri_ok tg (get A) rows ->
  match omap (fun st => convert (rowmaj b) n c st.2)
    (for_opt rows (fun r => tri_step n c (tg r) r) (convert true n n A, convert true n c b)) with
  | None => exists2 r, (r < n)%N & get A r r = 0
  | Some x => [/\ forall r, (r < n)%N -> get A r r != 0, wf n c x, rowmaj x = rowmaj b, junk x = junk b &
       forall X, solves n c A b X -> forall i j, (i < n)%N -> (j < c)%N -> get x i j = X i j]
  end.
Proof.
move=> wA wb pr ok; have [w1 e1 j1 h1] := convertP true wA; have [w2 e2 j2 h2] := convertP true wb.
have mr i : (i \in rows) = (i < n)%N by rewrite (perm_mem pr) mem_iota.
have ur : uniq rows by rewrite (perm_uniq pr) iota_uniq.
have ar : all (fun r => (r < n)%N) rows by apply/allP => r; rewrite mr.
have := @tri_loopP n c tg (get A) rows _ _ w1 w2 ur ar ok.
case: for_opt => [st|] /= [].
- by move=> i l hi hl; rewrite h1 // !mr hi hl.
- move=> d s1 [w3 e3 j3] h3 h4; have [w4 e4 j4 h5] := convertP (rowmaj b) w3.
  split=> //; first by move=> r hr; apply: d; rewrite mr.
    by rewrite j4 j3.
  move=> X hX i j hi hj; rewrite h5 // -(h4 X) //.
    rewrite (bigD1 (Ordinal hi)) //= h3 // eqxx mul1r big1 ?addr0 // => l li.
    by rewrite h3 // -val_eqE /= in li *; rewrite eq_sym (negPf li) mul0r.
  by move=> k l hk hl; rewrite h2 // -hX //; apply: eq_bigr => m _; rewrite h1.
- by move=> i l hi hl; rewrite h1 // !mr hi hl.
by move=> r; rewrite mr => hr z; exists r.
Qed.

Lemma tri_ok_upper n A m : (m <= n)%N -> upper n A ->
  tri_ok (fun r => rev (iota 0 r)) (get A) (rev (iota 0 m)).
Proof.
elim: m => [|m IH] hm hu //; rewrite -addn1 iotaD add0n rev_cat /=; split=> //.
- by rewrite rev_uniq iota_uniq.
- by move=> l; rewrite mem_rev mem_iota add0n => /andP [_ hl]; apply: hu.
exact: IH (ltnW hm) hu.
Qed.

Lemma tri_ok_lower n A m : (m <= n)%N -> lower n A ->
  tri_ok (fun r => iota r.+1 (n - r.+1)) (get A) (iota (n - m) m).
Proof.
elim: m => [|m IH] hm hu //=; have e : (n - m = (n - m.+1).+1)%N by rewrite -subSn.
split; rewrite ?iota_uniq // -?e ?(subKn (ltnW hm)) //; last exact: IH (ltnW hm) hu.
by move=> l; rewrite mem_iota subnK ?(ltnW hm) // e => /andP [h1 h2]; apply: hu.
Qed.

Lemma solve_upperP n c A b : wf n n A -> wf n c b -> upper n A ->
  match solve_upper n c A b with
  | None => exists2 r, (r < n)%N & get A r r = 0
  | Some x => [/\ forall r, (r < n)%N -> get A r r != 0, wf n c x, rowmaj x = rowmaj b, junk x = junk b &
       forall X, solves n c A b X -> forall i j, (i < n)%N -> (j < c)%N -> get x i j = X i j]
  end.
Proof.
move=> wA wb hu; apply: solve_ind => //; first by rewrite perm_rev.
exact: (tri_ok_upper (leqnn n) hu).
Qed.

Lemma solve_lowerP n c A b : wf n n A -> wf n c b -> lower n A ->
  match solve_lower n c A b with
  | None => exists2 r, (r < n)%N & get A r r = 0
  | Some x => [/\ forall r, (r < n)%N -> get A r r != 0, wf n c x, rowmaj x = rowmaj b, junk x = junk b &
       forall X, solves n c A b X -> forall i j, (i < n)%N -> (j < c)%N -> get x i j = X i j]
  end.
Proof.
move=> wA wb hu; apply: solve_ind => //.
by have := tri_ok_lower (leqnn n) hu; rewrite subnn.
Qed.
End Tri.
