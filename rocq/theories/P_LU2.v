(* Lemmas about solving with the LU and LUP decompositions, in terms of mathematical matrices. *)
From mathcomp Require Import all_ssreflect all_algebra.
From mathcomp Require Import ring.
From Verif Require Import M_Vec P_Vec M_Mat Spec P_Mat M_LU P_Tri P_LU.
Set Implicit Arguments. Unset Strict Implicit. Unset Printing Implicit Defensive.
Import Order.Theory GRing.Theory Num.Theory.
Local Open Scope ring_scope.

Section Solve.
Variable F : fieldType.
Implicit Types (A L U b : mat F).

Definition fun_of n c (X : 'M[F]_(n, c)) (i j : nat) : F :=
  if insub i is Some a then if insub j is Some b then X a b else 0 else 0.
Lemma fun_ofE n c (X : 'M[F]_(n, c)) (i : 'I_n) (j : 'I_c) : fun_of X i j = X i j.
Proof. by rewrite /fun_of !valK. Qed.

Lemma solves_fun_of n c A b (X : 'M[F]_(n, c)) : mxof n n A *m X = mxof n c b -> solves n c A b (fun_of X).
Proof.
move=> /matrixP h i j hi hj; have := h (Ordinal hi) (Ordinal hj); rewrite !mxE /= => <-.
by apply: eq_bigr => l _; rewrite !mxE -[j]/(val (Ordinal hj)) fun_ofE.
Qed.

Lemma det_upper_mx n A : upper n A -> \det (mxof n n A) = \prod_(i < n) get A i i.
Proof. by move=> h; rewrite (@det_upper _ n (get A)) // => i j /andP [ji hi]; apply: h. Qed.
Lemma det_lower_mx n A : lower n A -> \det (mxof n n A) = \prod_(i < n) get A i i.
Proof. by move=> h; rewrite (@det_lower _ n (get A)) // => i j /andP [ji hi]; apply: h. Qed.

Lemma unit_diag n A : \det (mxof n n A) = \prod_(i < n) get A i i ->
  (mxof n n A \in unitmx) <-> (forall r, (r < n)%N -> get A r r != 0).
Proof.
rewrite unitmxE unitfE => ->; rewrite (prod_neq0 n (fun i => get A i i)); split.
  by move=> /forallP h r hr; apply: (h (Ordinal hr)).
by move=> h; apply/forallP => i; apply: h.
Qed.

Lemma solve_upper_mx n c A b : wf n n A -> wf n c b -> upper n A ->
  if mxof n n A \in unitmx then
    exists2 x, solve_upper n c A b = Some x &
      [/\ wf n c x, rowmaj x = rowmaj b, junk x = junk b & mxof n n A *m mxof n c x = mxof n c b]
  else solve_upper n c A b = None.
Proof.
move=> wA wb hu; have := solve_upperP wA wb hu; have ud := unit_diag (det_upper_mx hu).
case: solve_upper => [x [d wx ex jx h]|[r hr z]]; last first.
  by case: ifP => // /ud /(_ r hr); rewrite z eqxx.
have uA : mxof n n A \in unitmx by apply/ud.
rewrite uA; exists x => //; split=> //.
have -> : mxof n c x = invmx (mxof n n A) *m mxof n c b; last by rewrite mulKVmx.
apply/matrixP => i j; rewrite [LHS]mxE (h (fun_of (invmx (mxof n n A) *m mxof n c b))) ?fun_ofE //.
by apply: solves_fun_of; rewrite mulKVmx.
Qed.

Lemma solve_lower_mx n c A b : wf n n A -> wf n c b -> lower n A ->
  if mxof n n A \in unitmx then
    exists2 x, solve_lower n c A b = Some x &
      [/\ wf n c x, rowmaj x = rowmaj b, junk x = junk b & mxof n n A *m mxof n c x = mxof n c b]
  else solve_lower n c A b = None.
Proof.
move=> wA wb hu; have := solve_lowerP wA wb hu; have ud := unit_diag (det_lower_mx hu).
case: solve_lower => [x [d wx ex jx h]|[r hr z]]; last first.
  by case: ifP => // /ud /(_ r hr); rewrite z eqxx.
have uA : mxof n n A \in unitmx by apply/ud.
rewrite uA; exists x => //; split=> //.
have -> : mxof n c x = invmx (mxof n n A) *m mxof n c b; last by rewrite mulKVmx.
apply/matrixP => i j; rewrite [LHS]mxE (h (fun_of (invmx (mxof n n A) *m mxof n c b))) ?fun_ofE //.
by apply: solves_fun_of; rewrite mulKVmx.
Qed.

Lemma mxof_flip r c A : wf r c A -> mxof c r (flip_layout_and_order r c A) = (mxof r c A)^T.
Proof.
by move=> w; have [_ _ _ h] := flip_layout_and_orderP w; apply/matrixP => i j; rewrite !mxE h.
Qed.

Lemma solve_upper_follow_mx n r A b : wf n n A -> wf r n b -> upper n A ->
  if mxof n n A \in unitmx then
    exists2 x, solve_upper_follow n r A b = Some x &
      [/\ wf r n x, rowmaj x = rowmaj b, junk x = junk b & mxof r n x *m mxof n n A = mxof r n b]
  else solve_upper_follow n r A b = None.
Proof.
move=> wA wb hu; rewrite /solve_upper_follow.
have [wAf _ _ hA] := flip_layout_and_orderP wA; have [wbf ebf jbf _] := flip_layout_and_orderP wb.
have hl : lower n (flip_layout_and_order n n A).
  by move=> i l il hl; rewrite hA // ?hu // (ltn_trans il).
have := solve_lower_mx wAf wbf hl; rewrite mxof_flip // unitmx_tr.
case: ifP => // _; last by move=> ->.
move=> [x -> [wx ex jx h]]; have [wxf exf jxf hf] := flip_layout_and_orderP wx.
exists (flip_layout_and_order n r x) => //; split; rewrite ?exf ?ex ?ebf ?negbK ?jxf ?jx //.
by apply: trmx_inj; rewrite trmx_mul mxof_flip // trmxK h mxof_flip.
Qed.

Lemma solve_lower_follow_mx n r A b : wf n n A -> wf r n b -> lower n A ->
  if mxof n n A \in unitmx then
    exists2 x, solve_lower_follow n r A b = Some x &
      [/\ wf r n x, rowmaj x = rowmaj b, junk x = junk b & mxof r n x *m mxof n n A = mxof r n b]
  else solve_lower_follow n r A b = None.
Proof.
move=> wA wb hu; rewrite /solve_lower_follow.
have [wAf _ _ hA] := flip_layout_and_orderP wA; have [wbf ebf jbf _] := flip_layout_and_orderP wb.
have hl : upper n (flip_layout_and_order n n A).
  by move=> i l hi li; rewrite hA // ?hu // (ltn_trans li).
have := solve_upper_mx wAf wbf hl; rewrite mxof_flip // unitmx_tr.
case: ifP => // _; last by move=> ->.
move=> [x -> [wx ex jx h]]; have [wxf exf jxf hf] := flip_layout_and_orderP wx.
exists (flip_layout_and_order n r x) => //; split; rewrite ?exf ?ex ?ebf ?negbK ?jxf ?jx //.
by apply: trmx_inj; rewrite trmx_mul mxof_flip // trmxK h mxof_flip.
Qed.

(* a unit lower triangular L, an upper triangular U *)
Definition lu_ok n L U := [/\ wf n n L, wf n n U, lower n L, forall i, (i < n)%N -> get L i i = 1 & upper n U].

Lemma lu_ok_unit n L U : lu_ok n L U -> mxof n n L \in unitmx.
Proof.
by case=> _ _ hl h1 _; apply/(unit_diag (det_lower_mx hl)) => r hr; rewrite h1 // oner_eq0.
Qed.

Lemma lu_solve_mx n c L U b : lu_ok n L U -> wf n c b ->
  if mxof n n U \in unitmx then
    exists2 x, lu_solve n c (L, U) b = Some x &
      [/\ wf n c x, rowmaj x = rowmaj b, junk x = junk b &
          mxof n n L *m mxof n n U *m mxof n c x = mxof n c b]
  else lu_solve n c (L, U) b = None.
Proof.
move=> ok wb; have uL := lu_ok_unit ok; have [wL wU hl _ hu] := ok.
have := solve_lower_mx wL wb hl; rewrite uL => [[y ey [wy ry jy hy]]].
rewrite /lu_solve ey /=; have := solve_upper_mx wU wy hu; case: ifP => // _ [x ex [wx rx jx hx]].
by exists x => //; split; rewrite ?rx ?jx // -mulmxA hx.
Qed.

Lemma lu_solve_follow_mx n r L U b : lu_ok n L U -> wf r n b ->
  if mxof n n U \in unitmx then
    exists2 x, lu_solve_follow n r (L, U) b = Some x &
      [/\ wf r n x, rowmaj x = rowmaj b, junk x = junk b &
          mxof r n x *m (mxof n n L *m mxof n n U) = mxof r n b]
  else lu_solve_follow n r (L, U) b = None.
Proof.
move=> ok wb; have uL := lu_ok_unit ok; have [wL wU hl _ hu] := ok.
have := solve_upper_follow_mx wU wb hu; rewrite /lu_solve_follow /=; case: ifP => // _; last by move=> ->.
move=> [y -> [wy ry jy hy]] /=.
have := solve_lower_follow_mx wL wy hl; rewrite uL => [[x -> [wx rx jx hx]]].
by exists x => //; split; rewrite ?rx ?jx // mulmxA hx.
Qed.

Lemma lu_inv_ok n A p L U : lu_inv n A p n.-1 L U -> lu_ok n L U.
Proof.
move=> [[wL wU] hL hU _]; split=> //.
- by move=> i l il ln; rewrite hL ?(ltn_trans il ln) ?(ltnW il) // ltn_eqF.
- by move=> i hi; rewrite hL ?leqnn // eqxx.
move=> i l hi li; apply: hU => //; first exact: ltn_trans hi.
by apply: leq_trans li _; rewrite -ltnS prednK // (leq_ltn_trans _ hi).
Qed.

(* rows of a product *)
Lemma lu_inv_mx n A p L U : lu_inv n A p n.-1 L U ->
  mxof n n L *m mxof n n U = \matrix_(i, j) get A (p i) j.
Proof.
move=> [_ _ _ h]; apply/matrixP => i j; rewrite !mxE -h //.
by apply: eq_bigr => l _; rewrite !mxE.
Qed.

Lemma rows_fillP n c (q : nat -> nat) (v : nat -> seq F) B : wf n c B ->
  (forall i, (i < n)%N -> (q i < n)%N) -> (forall i j, (i < n)%N -> (j < n)%N -> q i = q j -> i = j) ->
  (forall i, (i < n)%N -> size (v i) = c) ->
  let B' := for_loop 0 n (fun i B => set_row c B (q i) (v i)) B in
  same n c B B' /\ forall i j, (i < n)%N -> (j < c)%N -> get B' (q i) j = nth 0 (v i) j.
Proof.
move=> wB hq qi sv; pose P k B' := same n c B B' /\ forall i j, (i < k)%N -> (j < c)%N -> get B' (q i) j = nth 0 (v i) j.
apply: (@for_loop_ind _ P) => // k B' /andP [_ hk] [s h]; have [w _ _] := s.
have [s1 h1] := set_rowP w (hq k hk) (sv k hk); split; first exact: same_trans s s1.
move=> i j; rewrite ltnS leq_eqVlt => hi hj; rewrite h1.
case/orP: hi => [/eqP ->|ik]; first by rewrite eqxx (set_nth_default 0) ?sv.
by case: eqP => [/(qi _ _ (ltn_trans ik hk) hk) e|_]; [rewrite e ltnn in ik|apply: h].
Qed.

Lemma cols_fillP n r (q : nat -> nat) (v : nat -> seq F) B : wf r n B ->
  (forall i, (i < n)%N -> (q i < n)%N) -> (forall i j, (i < n)%N -> (j < n)%N -> q i = q j -> i = j) ->
  (forall i, (i < n)%N -> size (v i) = r) ->
  let B' := for_loop 0 n (fun i B => set_col r B (q i) (v i)) B in
  same r n B B' /\ forall i j, (i < n)%N -> (j < r)%N -> get B' j (q i) = nth 0 (v i) j.
Proof.
move=> wB hq qi sv; pose P k B' := same r n B B' /\ forall i j, (i < k)%N -> (j < r)%N -> get B' j (q i) = nth 0 (v i) j.
apply: (@for_loop_ind _ P) => // k B' /andP [_ hk] [s h]; have [w _ _] := s.
have [s1 h1] := set_colP w (hq k hk) (sv k hk); split; first exact: same_trans s s1.
move=> i j; rewrite ltnS leq_eqVlt => hi hj; rewrite h1.
case/orP: hi => [/eqP ->|ik]; first by rewrite eqxx (set_nth_default 0) ?sv.
by case: eqP => [/(qi _ _ (ltn_trans ik hk) hk) e|_]; [rewrite e ltnn in ik|apply: h].
Qed.

Lemma perm_lt n P i : perm_eq P (iota 0 n) -> (i < n)%N -> (nth 0%N P i < n)%N.
Proof.
move=> p hi; have : nth 0%N P i \in iota 0 n by rewrite -(perm_mem p) mem_nth // (perm_size p) size_iota.
by rewrite mem_iota.
Qed.
Lemma perm_inj n P i j : perm_eq P (iota 0 n) -> (i < n)%N -> (j < n)%N -> nth 0%N P i = nth 0%N P j -> i = j.
Proof.
move=> p hi hj /eqP; rewrite nth_uniq ?(perm_size p) ?size_iota // => [/eqP //|].
by rewrite (perm_uniq p) iota_uniq.
Qed.
Lemma perm_onto n P x : perm_eq P (iota 0 n) -> (x < n)%N -> exists2 i, (i < n)%N & nth 0%N P i = x.
Proof.
move=> p hx; have xP : x \in P by rewrite (perm_mem p) mem_iota.
by exists (index x P); rewrite ?nth_index // -[n](size_iota 0) -(perm_size p) index_mem.
Qed.

Lemma permuteP n c P b : perm_eq P (iota 0 n) -> wf n c b ->
  [/\ wf n c (permute n c P b), rowmaj (permute n c P b) = rowmaj b, junk (permute n c P b) = junk b &
      forall i j, (i < n)%N -> (j < c)%N -> get (permute n c P b) i j = get b (nth 0%N P i) j].
Proof.
move=> p w; have pl i := @perm_lt n P i p.
have [||||[w1 e1 j1] h] := @rows_fillP n c id (fun i => get_row c b (nth 0%N P i)) (uninit (rowmaj b) (junk b) n c) => //.
- exact: wf_uninit.
- by move=> i hi; rewrite (size_get_row w) // pl.
by split=> // i j hi hj; rewrite h // (nth_get_row _ w) // pl.
Qed.
Lemma permute_followP n r P b : perm_eq P (iota 0 n) -> wf r n b ->
  [/\ wf r n (permute_follow n r P b), rowmaj (permute_follow n r P b) = rowmaj b &
      forall i j, (i < r)%N -> (j < n)%N -> get (permute_follow n r P b) i j = get b i (nth 0%N P j)].
Proof.
move=> p w; have pl i := @perm_lt n P i p.
have [||||[w1 e1 j1] h] := @cols_fillP n r id (fun i => get_col r b (nth 0%N P i)) (uninit (rowmaj b) (junk b) r n) => //.
- exact: wf_uninit.
- by move=> i hi; rewrite (size_get_col w) // pl.
by split=> // i j hi hj; rewrite h // (nth_get_col _ w) // pl.
Qed.
Lemma inverse_permuteP n c P b : perm_eq P (iota 0 n) -> wf n c b ->
  [/\ wf n c (inverse_permute n c P b), rowmaj (inverse_permute n c P b) = rowmaj b &
      forall i j, (i < n)%N -> (j < c)%N -> get (inverse_permute n c P b) (nth 0%N P i) j = get b i j].
Proof.
move=> p w; have pl i := @perm_lt n P i p.
have [||||[w1 e1 j1] h] := @rows_fillP n c (nth 0%N P) (fun i => get_row c b i) (uninit (rowmaj b) (junk b) n c) => //.
- exact: wf_uninit.
- by move=> i j; apply: perm_inj.
- by move=> i hi; rewrite (size_get_row w).
by split=> // i j hi hj; rewrite h // (nth_get_row _ w).
Qed.
Lemma inverse_permute_followP n r P b : perm_eq P (iota 0 n) -> wf r n b ->
  [/\ wf r n (inverse_permute_follow n r P b), rowmaj (inverse_permute_follow n r P b) = rowmaj b,
      junk (inverse_permute_follow n r P b) = junk b &
      forall i j, (i < r)%N -> (j < n)%N -> get (inverse_permute_follow n r P b) i (nth 0%N P j) = get b i j].
Proof.
move=> p w; have pl i := @perm_lt n P i p.
have [||||[w1 e1 j1] h] := @cols_fillP n r (nth 0%N P) (fun i => get_col r b i) (uninit (rowmaj b) (junk b) r n) => //.
- exact: wf_uninit.
- by move=> i j; apply: perm_inj.
- by move=> i hi; rewrite (size_get_col w).
by split=> // i j hi hj; rewrite h // (nth_get_col _ w).
Qed.

(* the permutation matrix with a 1 at (i, P i) *)
Definition pmx n (P : seq nat) : 'M[F]_n := \matrix_(i, j) (nth 0%N P i == j)%:R.
Lemma pmx_mul n c P (f : nat -> nat -> F) : perm_eq P (iota 0 n) ->
  pmx n P *m (\matrix_(i < n, j < c) f i j) = \matrix_(i < n, j < c) f (nth 0%N P i) j.
Proof.
move=> p; apply/matrixP => i j; rewrite !mxE; have hi := perm_lt p (ltn_ord i).
rewrite (bigD1 (Ordinal hi)) //= !mxE eqxx mul1r big1 ?addr0 // => l.
by rewrite -val_eqE /= !mxE eq_sym => /negPf ->; rewrite mul0r.
Qed.
Lemma pmx_unit n P : perm_eq P (iota 0 n) -> pmx n P *m (pmx n P)^T = 1%:M.
Proof.
move=> p; rewrite /pmx [X in _ *m X](_ : _ = \matrix_(i, j) (nth 0%N P j == i)%:R); last first.
  by apply/matrixP => i j; rewrite !mxE.
rewrite -/(pmx n P) (pmx_mul _ (fun i j => (nth 0%N P j == i)%:R)) //; apply/matrixP => i j; rewrite !mxE.
by rewrite eq_sym; congr (_%:R); congr nat_of_bool; apply/eqP/eqP => [/(perm_inj p)|->] // h; apply/val_inj/h.
Qed.
End Solve.
