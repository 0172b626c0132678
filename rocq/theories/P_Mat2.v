(* Lemmas on Sum, Min, Max, Norm, determinant and inverse of small matrices. *)
From mathcomp Require Import all_ssreflect all_algebra.
From mathcomp Require Import ring.
From Verif Require Import M_Vec P_Vec M_Mat Spec P_Det P_Mat.
Set Implicit Arguments. Unset Strict Implicit. Unset Printing Implicit Defensive.
Import Order.Theory GRing.Theory Num.Theory.
Local Open Scope ring_scope.

Section Sum.
Variable R : ringType.
Implicit Types A B : mat R.

Lemma mat_sumP r c A : wf r c A ->
  mat_sum r c A = \sum_(i < r) \sum_(j < c) get A i j.
Proof.
move=> w; have hd := wf_dim w; rewrite /stripe_count /stripe_dim in hd.
pose P m s := s = \sum_(0 <= k < m) vsum (nth [::] (stripes A) k).
have -> : P (stripe_count (rowmaj A) r c) (mat_sum r c A).
  apply: (@for_loop_ind _ P) => //; first by rewrite /P big_geq.
  by move=> k s _ ->; rewrite /P big_nat_recr.
rewrite big_mkord /stripe_count; case hr: (rowmaj A) hd => hd.
  apply: eq_bigr => i _; rewrite (vsum_nth (hd _ (ltn_ord i))); apply: eq_bigr => j _.
  by rewrite /get hr; apply: set_nth_default; rewrite hd.
rewrite exchange_big; apply: eq_bigr => j _; rewrite (vsum_nth (hd _ (ltn_ord j))); apply: eq_bigr => i _.
by rewrite /get hr; apply: set_nth_default; rewrite hd.
Qed.

Lemma norm_squaredP r c A : wf r c A ->
  norm_squared r c A = \sum_(i < r) \sum_(j < c) get A i j * get A i j.
Proof.
move=> w; have [wh _ h] := elementwiseP w w (@vmap2_pw R *%R).
rewrite /norm_squared (mat_sumP wh); apply: eq_bigr => i _; apply: eq_bigr => j _; exact: h.
Qed.

Lemma traceP n A : trace n A = \sum_(i < n) get A i i.
Proof.
rewrite /trace (@vsum_nth _ n) ?size_mkseq //; apply: eq_bigr => i _.
by rewrite nth_mkseq.
Qed.
End Sum.

Section Order.
Variable R : realDomainType.
Implicit Types (A : mat R) (v : seq R).

Lemma vminelemP v : v != [::] -> vminelem v \in v /\ forall y, y \in v -> vminelem v <= y.
Proof.
case: v => // x s _; rewrite /vminelem /=; elim: s x => [|y s IH] x /=.
  by split=> [|y]; rewrite ?mem_head // inE => /eqP ->.
have [h1 h2] := IH (if y < x then y else x).
split; first by move: h1; rewrite !inE => /orP [/eqP ->|->]; [case: ifP; rewrite eqxx ?orbT|rewrite !orbT].
move=> z; rewrite !inE => /or3P [/eqP ->|/eqP ->|hz]; last by apply: h2; rewrite inE hz orbT.
  apply: le_trans (h2 _ (mem_head _ _)) _; case: ifP => // /ltW //.
by apply: le_trans (h2 _ (mem_head _ _)) _; case: ltP.
Qed.

Lemma mem_stripe r c A k : wf r c A -> (k < stripe_count (rowmaj A) r c)%N -> forall x,
  x \in nth [::] (stripes A) k -> exists i j, [/\ (i < r)%N, (j < c)%N & x = get A i j].
Proof.
move=> w hk x /(nthP (junk A)) [l hl <-]; move: hl; rewrite (wf_dim w) //.
move: hk; rewrite /stripe_count /stripe_dim /get; case: (rowmaj A) => hk hl.
  by exists k, l.
by exists l, k.
Qed.
Lemma get_stripe r c A i j : wf r c A -> (i < r)%N -> (j < c)%N ->
  exists2 k, (k < stripe_count (rowmaj A) r c)%N & get A i j \in nth [::] (stripes A) k.
Proof.
move=> w hi hj; have := wf_dim w; rewrite /stripe_count /stripe_dim /get; case: (rowmaj A) => hd.
  by exists i => //; apply: mem_nth; rewrite hd.
by exists j => //; apply: mem_nth; rewrite hd.
Qed.

(* the fold of a selecting binary operation over selecting stripes *)
Lemma mat_selP (le : rel R) (op : R -> R -> R) (sel : seq R -> R) r c A :
  reflexive le -> transitive le ->
  (forall x y, op x y = x \/ op x y = y) -> (forall x y, le (op x y) x) -> (forall x y, le (op x y) y) ->
  (forall v, v != [::] -> sel v \in v /\ forall y, y \in v -> le (sel v) y) ->
  wf r c A -> (0 < r)%N -> (0 < c)%N ->
  let m := for_loop 1 (stripe_count (rowmaj A) r c)
    (fun s best => op best (sel (nth [::] (stripes A) s))) (sel (nth [::] (stripes A) 0)) in
  (exists i j, [/\ (i < r)%N, (j < c)%N & m = get A i j]) /\
  forall i j, (i < r)%N -> (j < c)%N -> le m (get A i j).
Proof.
move=> lr lt h1 h2 h3 hs w r0 c0 m.
have n0 : (0 < stripe_count (rowmaj A) r c)%N by rewrite /stripe_count; case: ifP.
have ne k : (k < stripe_count (rowmaj A) r c)%N -> nth [::] (stripes A) k != [::].
  by move=> hk; rewrite -size_eq0 (wf_dim w) // /stripe_dim -lt0n; case: ifP.
pose P k x := (exists i j, [/\ (i < r)%N, (j < c)%N & x = get A i j]) /\
  forall l y, (l < k)%N -> y \in nth [::] (stripes A) l -> le x y.
have [hm1 hm2] : P (stripe_count (rowmaj A) r c) m.
  apply: (@for_loop_ind _ P) => //.
    have [a b] := hs _ (ne _ n0); split; first exact: mem_stripe a.
    by move=> l y; rewrite ltnS leqn0 => /eqP ->; apply: b.
  move=> k x /andP [_ hk] [g1 g2]; have [a b] := hs _ (ne _ hk); split.
    by case: (h1 x (sel (nth [::] (stripes A) k))) => -> //; apply: mem_stripe a.
  move=> l y; rewrite ltnS leq_eqVlt => /orP [/eqP ->|hl] hy.
    by apply: lt (h3 _ _) (b _ hy).
  by apply: lt (h2 _ _) (g2 _ _ hl hy).
split=> // i j hi hj; have [k hk hy] := get_stripe w hi hj; exact: hm2 hy.
Qed.

Lemma std_min_cases (x y : R) : [/\ std_min x y = x \/ std_min x y = y, std_min x y <= x & std_min x y <= y].
Proof. by rewrite std_minE; split; rewrite ?le_minl ?lexx ?orbT //; case: (leP x y); [left|right]. Qed.
Lemma std_max_cases (x y : R) : [/\ std_max x y = x \/ std_max x y = y, x <= std_max x y & y <= std_max x y].
Proof. by rewrite std_maxE; split; rewrite ?le_maxr ?lexx ?orbT //; case: (leP x y); [right|left]. Qed.

Lemma mat_minP r c A : wf r c A -> (0 < r)%N -> (0 < c)%N ->
  (exists i j, [/\ (i < r)%N, (j < c)%N & mat_min r c A = get A i j]) /\
  forall i j, (i < r)%N -> (j < c)%N -> mat_min r c A <= get A i j.
Proof.
move=> w r0 c0; apply: (@mat_selP <=%R (@std_min R) (@vminelem R)) => //; try exact: vminelemP.
- by move=> x y z; exact: le_trans.
- by move=> x y; case: (std_min_cases x y).
- by move=> x y; case: (std_min_cases x y).
- by move=> x y; case: (std_min_cases x y).
Qed.
Lemma mat_maxP r c A : wf r c A -> (0 < r)%N -> (0 < c)%N ->
  (exists i j, [/\ (i < r)%N, (j < c)%N & mat_max r c A = get A i j]) /\
  forall i j, (i < r)%N -> (j < c)%N -> get A i j <= mat_max r c A.
Proof.
move=> w r0 c0; apply: (@mat_selP >=%R (@std_max R) (@vmaxelem R)) => //; try exact: vmaxelemP.
- by move=> x /=; exact: lexx.
- by move=> x y z /= h1 h2; apply: le_trans h2 h1.
- by move=> x y; case: (std_max_cases x y).
- by move=> x y /=; case: (std_max_cases x y).
- by move=> x y /=; case: (std_max_cases x y).
Qed.
End Order.

Section Norm.
Variable R : rcfType.
Implicit Types A : mat R.

Lemma norm_preciseE r c A : wf r c A -> (0 < r)%N -> (0 < c)%N ->
  norm_precise r c A = Some (norm r c A).
Proof.
move=> w r0 c0; rewrite /norm_precise.
have [wre _ hre] := scalar_opP (f := fun v => [seq `|x| | x <- v]) w (fun v => erefl).
set re := scalar_op _ r c A in wre hre *.
have [[im [jm [hi hj hm]]] hmax] := mat_maxP wre r0 c0.
set M := mat_max r c re in hm hmax *.
have M0 : 0 <= M by rewrite hm hre.
rewrite /norm (norm_squaredP w); case: eqP => [e|/eqP ne].
  congr Some; rewrite big1 ?sqrtr0 // => i _; rewrite big1 // => j _.
  have := hmax i j (ltn_ord i) (ltn_ord j); rewrite e hre // normr_le0 => /eqP ->.
  by rewrite mulr0.
rewrite /mat_div (negbTE ne) //; congr Some.
have [wd _ hd] := scalar_opP (f := fun v => [seq x / M | x <- v]) wre (fun v => erefl).
rewrite -/(norm_squared _ _ _) (norm_squaredP wd) -[X in _ * X](ger0_norm M0) -sqrtr_sqr -sqrtrM; last first.
  by apply: sumr_ge0 => i _; apply: sumr_ge0 => j _; rewrite -expr2 sqr_ge0.
congr Num.sqrt; rewrite mulr_suml; apply: eq_bigr => i _; rewrite mulr_suml; apply: eq_bigr => j _.
rewrite hd // hre // -expr2 expr_div_n divfK ?expf_eq0 //.
by rewrite real_normK ?num_real // expr2.
Qed.
End Norm.

(** Small determinants and inverses *)
Section SmallCom.
Variable R : comRingType.
Implicit Types A : mat R.

(* the matrix of the stripes *)
Definition smx n A : 'M[R]_n := mxf n n (fun s t => nth 0 (nth [::] (stripes A) s) t).

Lemma mxof_smx n A : wf n n A -> mxof n n A = if rowmaj A then smx n A else (smx n A)^T.
Proof.
move=> w; have := wf_dim w; rewrite /stripe_count /stripe_dim => hd.
case hr: (rowmaj A); apply/matrixP => i j; rewrite !mxE /get hr; apply: set_nth_default.
  by move: hd; rewrite hr => ->.
by move: hd; rewrite hr => ->.
Qed.
Lemma det_smx n A : wf n n A -> \det (mxof n n A) = \det (smx n A).
Proof. by move/mxof_smx ->; case: ifP => // _; rewrite det_tr. Qed.

Lemma seq4 (T : Type) (x0 : T) (s : seq T) : size s = 4%N ->
  s = [:: nth x0 s 0; nth x0 s 1; nth x0 s 2; nth x0 s 3].
Proof. by case: s => [|a [|b [|c [|d [|]]]]]. Qed.

Definition el A s t := nth 0 (nth [::] (stripes A) s) t.
Lemma wf_stripes n A : wf n n A -> size (stripes A) = n /\ forall s, (s < n)%N -> size (nth [::] (stripes A) s) = n.
Proof.
by move=> w; have := wf_count w; have := wf_dim w; rewrite /stripe_count /stripe_dim; case: (rowmaj A).
Qed.
Lemma wf2E A : wf 2 2 A -> A = Mat (rowmaj A) (junk A) [:: [:: el A 0 0; el A 0 1]; [:: el A 1 0; el A 1 1]].
Proof.
case/wf_stripes; rewrite /el; case: A => rm jk st /= hs hd; congr Mat.
by rewrite [LHS](seq2 [::] hs) [X in [:: X]](seq2 0 (hd 1%N isT)) [X in [:: X; _]](seq2 0 (hd 0%N isT)).
Qed.
Lemma wf3E A : wf 3 3 A -> A = Mat (rowmaj A) (junk A)
  [:: [:: el A 0 0; el A 0 1; el A 0 2]; [:: el A 1 0; el A 1 1; el A 1 2]; [:: el A 2 0; el A 2 1; el A 2 2]].
Proof.
case/wf_stripes; rewrite /el; case: A => rm jk st /= hs hd; congr Mat.
by rewrite [LHS](seq3 [::] hs) -!(seq3 0 (hd _ _)).
Qed.
Lemma wf4E A : wf 4 4 A -> A = Mat (rowmaj A) (junk A)
  [:: [:: el A 0 0; el A 0 1; el A 0 2; el A 0 3]; [:: el A 1 0; el A 1 1; el A 1 2; el A 1 3];
      [:: el A 2 0; el A 2 1; el A 2 2; el A 2 3]; [:: el A 3 0; el A 3 1; el A 3 2; el A 3 3]].
Proof.
case/wf_stripes; rewrite /el; case: A => rm jk st /= hs hd; congr Mat.
by rewrite [LHS](seq4 [::] hs) -!(seq4 0 (hd _ _)).
Qed.

Ltac gen_el := repeat match goal with |- context [el ?A ?s ?t] => move: (el A s t) => ? end.

Lemma det2P A : wf 2 2 A -> det2 A = \det (mxof 2 2 A).
Proof.
move=> w; rewrite (det_smx w) -/(detf 2 _) detf2 {1}(wf2E w) /det2 /get /= -/(el A _ _).
rewrite -![nth 0 _ _]/(el A _ _); case: (rowmaj A) => /=; gen_el; ring.
Qed.
Lemma det3S A : wf 3 3 A -> det3 A = \det (smx 3 A).
Proof.
move=> w; rewrite -/(detf 3 _) detf3 {1}(wf3E w) /det3 /sw /swz /vsum /=.
rewrite -![nth 0 _ _]/(el A _ _); gen_el; ring.
Qed.
Lemma det4S A : wf 4 4 A -> det4 A = \det (smx 4 A).
Proof.
move=> w; rewrite -/(detf 4 _) detf4 !detf3 {1}(wf4E w) /det4 /sw /swz /vsum /= /skip /=.
rewrite -![nth 0 _ _]/(el A _ _); gen_el; ring.
Qed.
End SmallCom.

Section Inverse.
Variable F : fieldType.
Implicit Types A : mat F.

(* from an adjugate on the stripes to a two-sided inverse on the elements *)
Lemma inverse_of n A N d : wf n n A -> wf n n N -> rowmaj N = rowmaj A ->
  d = \det (smx n A) -> smx n N *m smx n A = d%:M ->
  (\det (mxof n n A) == 0) = ~~ isSome (mat_div n n N d) /\
     (forall B, mat_div n n N d = Some B ->
       [/\ wf n n B, rowmaj B = rowmaj A, mxof n n B *m mxof n n A = 1%:M & mxof n n A *m mxof n n B = 1%:M]).
Proof.
move=> wA wN er dE hN; rewrite (det_smx wA) -dE /mat_div; case: (d =P 0) => // /eqP d0.
split=> // B [<-]; have [w e h] := scalar_opP (f := fun v => [seq x / d | x <- v]) wN (fun v => erefl).
set B' := scalar_op _ _ _ _ in w e h *.
have e2 : mxof n n B' = d^-1 *: mxof n n N.
  by apply/matrixP => i j; rewrite !mxE h // mulrC.
have e3 : mxof n n B' *m mxof n n A = 1%:M.
  rewrite e2 -scalemxAl (mxof_smx wN) (mxof_smx wA) er; case: (rowmaj A).
    by rewrite hN scale_scalar_mx mulVf.
  have -> : (smx n N)^T *m (smx n A)^T = d%:M.
    have h2 : (d^-1 *: smx n N) *m smx n A = 1%:M by rewrite -scalemxAl hN scale_scalar_mx mulVf.
    have := mulmx1C h2; rewrite -scalemxAr => /(congr1 (fun M => d *: M)).
    by rewrite scalerA mulfV // scale1r scalemx1 -trmx_mul => ->; rewrite tr_scalar_mx.
  by rewrite scale_scalar_mx mulVf.
by split=> //; [rewrite e|apply: mulmx1C].
Qed.

Ltac gen_el := repeat match goal with |- context [el ?A ?s ?t] => move: (el A s t) => ? end.
Ltac ord_cases n := let i := fresh in let h := fresh in
  case=> i h; do ![case: i h => [|i] h //].

Lemma inverse2P A : wf 2 2 A ->
  (\det (mxof 2 2 A) == 0) = ~~ isSome (inverse2 A) /\
  forall B, inverse2 A = Some B -> [/\ wf 2 2 B, rowmaj B = rowmaj A,
    mxof 2 2 B *m mxof 2 2 A = 1%:M & mxof 2 2 A *m mxof 2 2 B = 1%:M].
Proof.
move=> w; rewrite /inverse2; set N := Mat _ _ _; set d := _ - _.
have [||||] // := @inverse_of 2 A N d w.
- by rewrite /N /wf /=; case: (rowmaj A).
- by rewrite -/(detf 2 _) detf2 /d.
apply/matrixP => i j; rewrite !mxE !big_ord_recl big_ord0 !mxE /d /N.
case: i j => [[|[|i]] hi] // [[|[|j]] hj] //=; rewrite ?mulr1n ?mulr0n -![nth 0 _ _]/(el A _ _); gen_el; ring.
Qed.

Lemma wf_of_cols n A cs : size cs = n -> wf n n (of_cols A n cs).
Proof.
move=> h; rewrite /wf /of_cols /= size_mkseq; case: (rowmaj A); rewrite eqxx /=.
  by apply/(all_nthP [::]) => i; rewrite size_mkseq => hi; rewrite nth_mkseq // size_map h.
by apply/(all_nthP [::]) => i; rewrite size_mkseq => hi; rewrite nth_mkseq // size_map h.
Qed.

Lemma inverse3P A : wf 3 3 A ->
  (\det (mxof 3 3 A) == 0) = ~~ isSome (inverse3 A) /\
  forall B, inverse3 A = Some B -> [/\ wf 3 3 B, rowmaj B = rowmaj A,
    mxof 3 3 B *m mxof 3 3 A = 1%:M & mxof 3 3 A *m mxof 3 3 B = 1%:M].
Proof.
move=> w; rewrite /inverse3; set N := of_cols _ _ _.
have [||||] // := @inverse_of 3 A N (det3 A) w.
- exact: wf_of_cols.
- exact: det3S.
apply/matrixP => i j; rewrite (det3S w) -/(detf 3 _) detf3 !mxE !big_ord_recl big_ord0 !mxE /N.
rewrite /sw /swz /= -![nth 0 (nth _ (stripes A) _) _]/(el A _ _).
case: i j => [[|[|[|i]]] hi] // [[|[|[|j]]] hj] //=; rewrite ?mulr1n ?mulr0n /bump /= -?[nth 0 (nth _ (stripes A) _) _]/(el A _ _); gen_el; ring.
Qed.

Lemma inverse4P A : wf 4 4 A ->
  (\det (mxof 4 4 A) == 0) = ~~ isSome (inverse4 A) /\
  forall B, inverse4 A = Some B -> [/\ wf 4 4 B, rowmaj B = rowmaj A,
    mxof 4 4 B *m mxof 4 4 A = 1%:M & mxof 4 4 A *m mxof 4 4 B = 1%:M].
Proof.
move=> w; rewrite /inverse4; set N := of_cols _ _ _.
have [||||] // := @inverse_of 4 A N (det4 A) w.
- exact: wf_of_cols.
- exact: det4S.
apply/matrixP => i j; rewrite (det4S w) -/(detf 4 _) detf4 !detf3 /skip /= !mxE !big_ord_recl big_ord0 !mxE /N.
rewrite /sw /swz /= -![nth 0 (nth _ (stripes A) _) _]/(el A _ _).
case: i j => [[|[|[|[|i]]]] hi] // [[|[|[|[|j]]]] hj] //=; rewrite ?mulr1n ?mulr0n /bump /= -?[nth 0 (nth _ (stripes A) _) _]/(el A _ _); gen_el; ring.
Qed.
End Inverse.
