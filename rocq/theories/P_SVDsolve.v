(* Solve and Inverse of the SVD. *)
From mathcomp Require Import all_ssreflect all_algebra.
From mathcomp Require Import ring.
From Verif Require Import Spec M_Vec P_Vec M_Mat P_Mat P_Mat2 M_LU P_Tri P_LU P_LU2 M_QR P_QR M_SVD P_SVD2 P_SVD P_SVDres.
Set Implicit Arguments. Unset Strict Implicit. Unset Printing Implicit Defensive.
Import Order.Theory GRing.Theory Num.Theory.
Local Open Scope ring_scope.

Section Lines.
Variable R : rcfType.
Variables (S : seq R) (gt : mat R -> nat -> seq R) (pt : mat R -> nat -> seq R -> mat R).

Lemma div_line_stuck lo hi (st : outcome (mat R)) : (if st is Done _ then False else True) ->
  for_loop lo hi (div_line S gt pt) st = st.
Proof. by move=> h; apply: (@for_loop_inv _ (fun s => s = st)) => // i s _ ->; case: st h. Qed.

Lemma for_loop_cut m lo hi (T : Type) (body : nat -> T -> T) s : (lo <= m <= hi)%N ->
  for_loop lo hi body s = for_loop m hi body (for_loop lo m body s).
Proof.
move=> /andP [h1 h2]; rewrite /for_loop -foldl_cat; congr foldl.
have -> : (hi - lo = (m - lo) + (hi - m))%N by rewrite addnC addnBA // subnK.
by rewrite iotaD subnKC.
Qed.

Lemma div_line_in m X : (m <= size S)%N -> for_loop 0 m (div_line S gt pt) (Done X) <> OutOfBounds.
Proof.
move=> hm; apply: (@for_loop_inv _ (fun s => s <> OutOfBounds)) => // i s /andP [_ im]; case: s => //= Y _.
by rewrite (leq_trans im hm); case: vdivs.
Qed.

Variables (wfX : mat R -> bool) (el : mat R -> nat -> nat -> R) (len n : nat).
Hypothesis gt_size : forall X i, wfX X -> (i < n)%N -> size (gt X i) = len.
Hypothesis gt_nth : forall X i j, wfX X -> (i < n)%N -> (j < len)%N -> nth 0 (gt X i) j = el X i j.
Hypothesis ptP : forall X i v, wfX X -> (i < n)%N -> size v = len ->
  wfX (pt X i v) /\ forall i' j, (j < len)%N -> el (pt X i v) i' j = if i' == i then nth 0 v j else el X i' j.

Lemma div_lineP m X : wfX X -> (m <= n)%N -> (m <= size S)%N -> (forall i, (i < m)%N -> nth 0 S i != 0) ->
  exists2 X', for_loop 0 m (div_line S gt pt) (Done X) = Done X' & wfX X' /\
    forall i j, (j < len)%N -> el X' i j = if (i < m)%N then el X i j / nth 0 S i else el X i j.
Proof.
move=> w; elim: m => [|m IH] mn ms hz; first by exists X.
have [||Y e [wY gY]] := IH _ _ (fun i h => hz i (ltnW h)); [exact: ltnW|exact: ltnW|].
rewrite for_loopS // e /= ms /vdivs (negPf (hz m _)) //.
have sv : size [seq x / nth 0 S m | x <- gt Y m] = len by rewrite size_map gt_size.
have [w' g'] := ptP wY mn sv; eexists; first by reflexivity.
split=> // i j hj; rewrite g' // ltnS [(i <= m)%N]leq_eqVlt; case: (i =P m) => [->|_] /=; last by rewrite gY.
by rewrite (nth_map 0) ?gt_size // gt_nth // gY // ltnn.
Qed.

Lemma div_line_out m X : wfX X -> (size S <= n)%N -> (size S < m)%N -> (forall i, (i < size S)%N -> nth 0 S i != 0) ->
  for_loop 0 m (div_line S gt pt) (Done X) = OutOfBounds.
Proof.
move=> w sn hm hz; have [Y e _] := div_lineP w sn (leqnn _) hz.
rewrite (@for_loop_cut (size S).+1) // for_loopS // e /= ltnn div_line_stuck //.
Qed.

Lemma div_line_fault m X i : wfX X -> (m <= n)%N -> (i < m)%N -> (i < size S)%N -> nth 0 S i = 0 ->
  for_loop 0 m (div_line S gt pt) (Done X) = Fault.
Proof.
move=> w mn im iS z; pose k := find (fun x => x == 0) S.
have ki : (k <= i)%N by rewrite leqNgt; apply/negP => h; have := before_find 0 h; rewrite z eqxx.
have kS := leq_ltn_trans ki iS; have km := leq_ltn_trans ki im.
have zk : nth 0 S k == 0 by have := @nth_find _ 0 (fun x => x == 0) S; apply; rewrite has_find.
have [||j hj|Y e _] := @div_lineP k X w; [exact: leq_trans (ltnW km) mn|exact: ltnW|by rewrite (before_find 0 hj)|].
by rewrite (@for_loop_cut k.+1) // for_loopS // e /= kS /vdivs zk div_line_stuck.
Qed.
End Lines.

Section Solve.
Variable R : rcfType.
Implicit Types (A U V X b : mat R).

(* the parts of a decomposition: U is rows x p, S has p elements, V is p x cols *)
Definition svd_shape rows cols (d : svd R) : Prop :=
  [/\ wf rows (minn rows cols) (svdU d), size (svdS d) = minn rows cols & wf (minn rows cols) cols (svdV d)].

Lemma row_size r c X i : wf r c X -> (i < r)%N -> size (get_row c X i) = c.
Proof. exact: size_get_row. Qed.
Lemma row_nth r c X i j : wf r c X -> (i < r)%N -> (j < c)%N -> nth 0 (get_row c X i) j = get X i j.
Proof. exact: nth_get_row. Qed.
Lemma row_put r c X i v : wf r c X -> (i < r)%N -> size v = c ->
  wf r c (set_row c X i v) /\ forall i' j, (j < c)%N -> get (set_row c X i v) i' j = if i' == i then nth 0 v j else get X i' j.
Proof.
move=> w hi sv; have [[w' _ _] g] := set_rowP w hi sv; split=> // i' j hj; rewrite g.
by rewrite (set_nth_default 0) ?sv.
Qed.
Lemma col_size r c X i : wf r c X -> (i < c)%N -> size (get_col r X i) = r.
Proof. exact: size_get_col. Qed.
Lemma col_nth r c X i j : wf r c X -> (i < c)%N -> (j < r)%N -> nth 0 (get_col r X i) j = get X j i.
Proof. by move=> w hi hj; apply: nth_get_col w hj hi. Qed.
Lemma col_put r c X i v : wf r c X -> (i < c)%N -> size v = r ->
  wf r c (set_col r X i v) /\ forall i' j, (j < r)%N -> get (set_col r X i v) j i' = if i' == i then nth 0 v j else get X j i'.
Proof.
move=> w hi sv; have [[w' _ _] g] := set_colP w hi sv; split=> // i' j hj; rewrite g.
by rewrite (set_nth_default 0) ?sv.
Qed.

Definition rowsP r c S := @div_lineP R S (get_row c) (set_row c) (wf r c) (fun X i j => get X i j) c r
  (@row_size r c) (@row_nth r c) (@row_put r c).
Definition colsP r c S := @div_lineP R S (get_col r) (set_col r) (wf r c) (fun X i j => get X j i) r c
  (@col_size r c) (@col_nth r c) (@col_put r c).
Definition rows_out r c S := @div_line_out R S (get_row c) (set_row c) (wf r c) (fun X i j => get X i j) c r
  (@row_size r c) (@row_nth r c) (@row_put r c).
Definition cols_out r c S := @div_line_out R S (get_col r) (set_col r) (wf r c) (fun X i j => get X j i) r c
  (@col_size r c) (@col_nth r c) (@col_put r c).
Definition rows_fault r c S := @div_line_fault R S (get_row c) (set_row c) (wf r c) (fun X i j => get X i j) c r
  (@row_size r c) (@row_nth r c) (@row_put r c).
Definition cols_fault r c S := @div_line_fault R S (get_col r) (set_col r) (wf r c) (fun X i j => get X j i) r c
  (@col_size r c) (@col_nth r c) (@col_put r c).

Definition dinv p (S : seq R) : 'M[R]_p := diag_mx (\row_i (nth 0 S i)^-1).
Lemma dinvP p S : (forall i, (i < p)%N -> nth 0 S i != 0) -> diag_mx (rv p S) *m dinv p S = 1%:M.
Proof.
move=> h; rewrite mulmx_diag; apply/matrixP => i j; rewrite !mxE; case: eqP => // _; by rewrite mulfV // h.
Qed.
Lemma dinv_tr p S : (dinv p S)^T = dinv p S. Proof. exact: tr_diag_mx. Qed.
Lemma rdiag_mul p c S (M : 'M[R]_(p, c)) i j : (dinv p S *m M) i j = M i j / nth 0 S i.
Proof.
rewrite mxE (bigD1 i) //= !mxE eqxx mulr1n big1 ?addr0 1?mulrC // => k ki.
by rewrite !mxE eq_sym (negPf ki) mulr0n mul0r.
Qed.
Lemma cdiag_mul p c S (M : 'M[R]_(c, p)) i j : (M *m dinv p S) i j = M i j / nth 0 S j.
Proof.
rewrite mxE (bigD1 j) //= !mxE eqxx mulr1n big1 ?addr0 // => k ki.
by rewrite !mxE (negPf ki) mulr0n mulr0.
Qed.

Lemma svd_solveP rows cols c d b : svd_shape rows cols d -> (0 < cols <= rows)%N -> wf rows c b ->
  (forall i, (i < cols)%N -> nth 0 (svdS d) i != 0) ->
  exists2 x, svd_solve rows cols c d b = Done x & wf cols c x /\
    mxof cols c x = (mxof cols cols (svdV d))^T *m (dinv cols (svdS d) *m ((mxof rows cols (svdU d))^T *m mxof rows c b)).
Proof.
move=> [wU sS wV] /andP [c0 cr] wb hz; have mn : minn rows cols = cols by apply/minn_idPr.
rewrite /svd_solve; rewrite mn in wU sS wV *; have r0 := leq_trans c0 cr.
have [wt _ _ _] := transposeP rows cols (svdU d); have [wt' _ _ _] := transposeP cols cols (svdV d).
have [wX _ _] := mat_mulP wt wb r0.
have sle : (cols <= size (svdS d))%N by rewrite sS.
have [X' -> [wX' gX']] := rowsP wX (leqnn _) sle hz.
eexists; first by reflexivity.
have [w _ _] := mat_mulP wt' wX' c0; split=> //; rewrite (mxof_mul _ wX') // mxof_transpose; congr (_ *m _).
apply/matrixP => i j; rewrite rdiag_mul -mxof_transpose -(mxof_mul _ wb) // !mxE gX' //.
by rewrite ltn_ord.
Qed.

Lemma svd_solve_followP rows cols r2 d b : svd_shape rows cols d -> (0 < rows <= cols)%N -> wf r2 cols b ->
  (forall i, (i < rows)%N -> nth 0 (svdS d) i != 0) ->
  exists2 x, svd_solve_follow rows cols r2 d b = Done x & wf r2 rows x /\
    mxof r2 rows x = ((mxof r2 cols b *m (mxof rows cols (svdV d))^T) *m dinv rows (svdS d)) *m (mxof rows rows (svdU d))^T.
Proof.
move=> [wU sS wV] /andP [r0 rc] wb hz; have mn : minn rows cols = rows by apply/minn_idPl.
rewrite /svd_solve_follow; rewrite mn in wU sS wV *; have c0 := leq_trans r0 rc.
have [wt _ _ _] := transposeP rows rows (svdU d); have [wt' _ _ _] := transposeP rows cols (svdV d).
have [wX _ _] := mat_mulP wb wt' c0.
have sle : (rows <= size (svdS d))%N by rewrite sS.
have [X' -> [wX' gX']] := colsP wX (leqnn _) sle hz.
eexists; first by reflexivity.
have [w _ _] := mat_mulP wX' wt r0; split=> //; rewrite (mxof_mul wX') // mxof_transpose; congr (_ *m _).
apply/matrixP => i j; rewrite cdiag_mul -mxof_transpose -(mxof_mul wb) // !mxE gX' //.
by rewrite ltn_ord.
Qed.

Lemma svd_inverseP rows cols d : svd_shape rows cols d -> (0 < minn rows cols)%N ->
  (forall i, (i < minn rows cols)%N -> nth 0 (svdS d) i != 0) ->
  exists2 x, svd_inverse rows cols d = Done x & wf cols rows x /\
    mxof cols rows x = (mxof (minn rows cols) cols (svdV d))^T *m dinv (minn rows cols) (svdS d) *m (mxof rows (minn rows cols) (svdU d))^T.
Proof.
move=> [wU sS wV] p0 hz; rewrite /svd_inverse.
have [wt _ _ _] := transposeP rows (minn rows cols) (svdU d); have [wt' _ _ _] := transposeP (minn rows cols) cols (svdV d).
have sle : (size (svdS d) <= minn rows cols)%N by rewrite sS.
have hz' i : (i < size (svdS d))%N -> nth 0 (svdS d) i != 0 by rewrite sS; apply: hz.
have [X' -> [wX' gX']] := colsP wt' sle (leqnn _) hz'.
eexists; first by reflexivity.
have [w _ _] := mat_mulP wX' wt p0; split=> //; rewrite (mxof_mul wX') // mxof_transpose; congr (_ *m _).
apply/matrixP => i j; rewrite cdiag_mul -mxof_transpose !mxE gX' // sS ltn_ord.
by [].
Qed.
End Solve.
