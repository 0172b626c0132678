(* Solve and Inverse of the SVD of complex matrices. *)
From mathcomp Require Import all_ssreflect all_algebra.
From mathcomp Require Import ring complex.
From Verif Require Import Spec M_Vec P_Vec M_Mat P_Mat P_Mat2 M_LU P_Tri P_LU P_LU2 M_Complex P_Complex M_QRC P_QRC M_SVD P_SVD2 P_SVD P_SVDsolve M_SVDC P_SVDC2 P_SVDC P_SVDCres.
Set Implicit Arguments. Unset Strict Implicit. Unset Printing Implicit Defensive.
Import Order.Theory GRing.Theory Num.Theory.
Local Open Scope complex_scope.
Local Open Scope ring_scope.

Section Lines.
Variable R : rcfType.
Variables (S : seq R) (gt : mat R[i] -> nat -> seq R[i]) (pt : mat R[i] -> nat -> seq R[i] -> mat R[i]).

Lemma div_line_c_stuck lo hi (st : outcome (mat R[i])) : (if st is Done _ then False else True) ->
  for_loop lo hi (div_line_c S gt pt) st = st.
Proof. by move=> h; apply: (@for_loop_inv _ (fun s => s = st)) => // i s _ ->; case: st h. Qed.

Lemma div_line_c_in m X : (m <= size S)%N -> for_loop 0 m (div_line_c S gt pt) (Done X) <> OutOfBounds.
Proof.
move=> hm; apply: (@for_loop_inv _ (fun s => s <> OutOfBounds)) => // i s /andP [_ im]; case: s => //= Y _.
by rewrite (leq_trans im hm); case: cdivs.
Qed.

Variables (wfX : mat R[i] -> bool) (el : mat R[i] -> nat -> nat -> R[i]) (len n : nat).
Hypothesis gt_size : forall X i, wfX X -> (i < n)%N -> size (gt X i) = len.
Hypothesis gt_nth : forall X i j, wfX X -> (i < n)%N -> (j < len)%N -> nth 0 (gt X i) j = el X i j.
Hypothesis ptP : forall X i v, wfX X -> (i < n)%N -> size v = len ->
  wfX (pt X i v) /\ forall i' j, (j < len)%N -> el (pt X i v) i' j = if i' == i then nth 0 v j else el X i' j.

Lemma div_line_cP m X : wfX X -> (m <= n)%N -> (m <= size S)%N -> (forall i, (i < m)%N -> nth 0 S i != 0) ->
  exists2 X', for_loop 0 m (div_line_c S gt pt) (Done X) = Done X' & wfX X' /\
    forall i j, (j < len)%N -> el X' i j = if (i < m)%N then el X i j / (nth 0 S i)%:C else el X i j.
Proof.
move=> w; elim: m => [|m IH] mn ms hz; first by exists X.
have [||Y e [wY gY]] := IH _ _ (fun i h => hz i (ltnW h)); [exact: ltnW|exact: ltnW|].
rewrite for_loopS // e /= ms /cdivs (negPf (hz m _)) //.
have sv : size [seq x / (nth 0 S m)%:C | x <- gt Y m] = len by rewrite size_map gt_size.
have [w' g'] := ptP wY mn sv; eexists; first by reflexivity.
split=> // i j hj; rewrite g' // ltnS [(i <= m)%N]leq_eqVlt; case: (i =P m) => [->|_] /=; last by rewrite gY.
by rewrite (nth_map 0) ?gt_size // gt_nth // gY // ltnn.
Qed.

Lemma div_line_c_out m X : wfX X -> (size S <= n)%N -> (size S < m)%N -> (forall i, (i < size S)%N -> nth 0 S i != 0) ->
  for_loop 0 m (div_line_c S gt pt) (Done X) = OutOfBounds.
Proof.
move=> w sn hm hz; have [Y e _] := div_line_cP w sn (leqnn _) hz.
rewrite (@for_loop_cut (size S).+1) // for_loopS // e /= ltnn div_line_c_stuck //.
Qed.

Lemma div_line_c_fault m X i : wfX X -> (m <= n)%N -> (i < m)%N -> (i < size S)%N -> nth 0 S i = 0 ->
  for_loop 0 m (div_line_c S gt pt) (Done X) = Fault.
Proof.
move=> w mn im iS z; pose k := find (fun x => x == 0) S.
have ki : (k <= i)%N by rewrite leqNgt; apply/negP => h; have := before_find 0 h; rewrite z eqxx.
have kS := leq_ltn_trans ki iS; have km := leq_ltn_trans ki im.
have zk : nth 0 S k == 0 by have := @nth_find _ 0 (fun x => x == 0) S; apply; rewrite has_find.
have [||j hj|Y e _] := @div_line_cP k X w; [exact: leq_trans (ltnW km) mn|exact: ltnW|by rewrite (before_find 0 hj)|].
by rewrite (@for_loop_cut k.+1) // for_loopS // e /= kS /cdivs zk div_line_c_stuck.
Qed.
End Lines.

Section Solve.
Variable R : rcfType.
Implicit Types (A U V X b : mat R[i]).

(* the parts of a decomposition: U is rows x p, S has p elements, V is p x cols *)
Definition svd_shape_c rows cols (d : svdc R) : Prop :=
  [/\ wf rows (minn rows cols) (cU d), size (cS d) = minn rows cols & wf (minn rows cols) cols (cV d)].

Lemma row_size_c r c X i : wf r c X -> (i < r)%N -> size (get_row c X i) = c.
Proof. exact: size_get_row. Qed.
Lemma row_nth_c r c X i j : wf r c X -> (i < r)%N -> (j < c)%N -> nth 0 (get_row c X i) j = get X i j.
Proof. exact: nth_get_row. Qed.
Lemma row_put_c r c X i v : wf r c X -> (i < r)%N -> size v = c ->
  wf r c (set_row c X i v) /\ forall i' j, (j < c)%N -> get (set_row c X i v) i' j = if i' == i then nth 0 v j else get X i' j.
Proof.
move=> w hi sv; have [[w' _ _] g] := set_rowP w hi sv; split=> // i' j hj; rewrite g.
by rewrite (set_nth_default 0) ?sv.
Qed.
Lemma col_size_c r c X i : wf r c X -> (i < c)%N -> size (get_col r X i) = r.
Proof. exact: size_get_col. Qed.
Lemma col_nth_c r c X i j : wf r c X -> (i < c)%N -> (j < r)%N -> nth 0 (get_col r X i) j = get X j i.
Proof. by move=> w hi hj; apply: nth_get_col w hj hi. Qed.
Lemma col_put_c r c X i v : wf r c X -> (i < c)%N -> size v = r ->
  wf r c (set_col r X i v) /\ forall i' j, (j < r)%N -> get (set_col r X i v) j i' = if i' == i then nth 0 v j else get X j i'.
Proof.
move=> w hi sv; have [[w' _ _] g] := set_colP w hi sv; split=> // i' j hj; rewrite g.
by rewrite (set_nth_default 0) ?sv.
Qed.

Definition rowsP_c r c S := @div_line_cP R S (get_row c) (set_row c) (wf r c) (fun X i j => get X i j) c r
  (@row_size_c r c) (@row_nth_c r c) (@row_put_c r c).
Definition colsP_c r c S := @div_line_cP R S (get_col r) (set_col r) (wf r c) (fun X i j => get X j i) r c
  (@col_size_c r c) (@col_nth_c r c) (@col_put_c r c).
Definition rows_out_c r c S := @div_line_c_out R S (get_row c) (set_row c) (wf r c) (fun X i j => get X i j) c r
  (@row_size_c r c) (@row_nth_c r c) (@row_put_c r c).
Definition cols_out_c r c S := @div_line_c_out R S (get_col r) (set_col r) (wf r c) (fun X i j => get X j i) r c
  (@col_size_c r c) (@col_nth_c r c) (@col_put_c r c).
Definition rows_fault_c r c S := @div_line_c_fault R S (get_row c) (set_row c) (wf r c) (fun X i j => get X i j) c r
  (@row_size_c r c) (@row_nth_c r c) (@row_put_c r c).
Definition cols_fault_c r c S := @div_line_c_fault R S (get_col r) (set_col r) (wf r c) (fun X i j => get X j i) r c
  (@col_size_c r c) (@col_nth_c r c) (@col_put_c r c).

Definition dinvc p (S : seq R) : 'M[R[i]]_p := diag_mx (\row_i ((nth 0 S i)%:C)^-1).
Lemma dinvP_c p S : (forall i, (i < p)%N -> nth 0 S i != 0) -> diag_mx (rvc p S) *m dinvc p S = 1%:M.
Proof.
move=> h; rewrite mulmx_diag; apply/matrixP => i j; rewrite !mxE; case: eqP => // _; by rewrite mulfV // rc_eq0 h.
Qed.
Lemma dinv_tr_c p S : (dinvc p S)^T = dinvc p S. Proof. exact: tr_diag_mx. Qed.
Lemma rdiag_mul_c p c S (M : 'M[R[i]]_(p, c)) i j : (dinvc p S *m M) i j = M i j / (nth 0 S i)%:C.
Proof.
rewrite mxE (bigD1 i) //= !mxE eqxx mulr1n big1 ?addr0 1?mulrC // => k ki.
by rewrite !mxE eq_sym (negPf ki) mulr0n mul0r.
Qed.
Lemma cdiag_mul_c p c S (M : 'M[R[i]]_(c, p)) i j : (M *m dinvc p S) i j = M i j / (nth 0 S j)%:C.
Proof.
rewrite mxE (bigD1 j) //= !mxE eqxx mulr1n big1 ?addr0 // => k ki.
by rewrite !mxE (negPf ki) mulr0n mulr0.
Qed.

Lemma svd_solveP_c rows cols c d b : svd_shape_c rows cols d -> (0 < cols <= rows)%N -> wf rows c b ->
  (forall i, (i < cols)%N -> nth 0 (cS d) i != 0) ->
  exists2 x, svd_solve_c rows cols c d b = Done x & wf cols c x /\
    mxof cols c x = hermx (mxof cols cols (cV d)) *m (dinvc cols (cS d) *m (hermx (mxof rows cols (cU d)) *m mxof rows c b)).
Proof.
move=> [wU sS wV] /andP [c0 cr] wb hz; have mn : minn rows cols = cols by apply/minn_idPr.
rewrite /svd_solve_c; rewrite mn in wU sS wV *; have r0 := leq_trans c0 cr.
have [wt _ _] := conj_transposeP rows cols (cU d); have [wt' _ _] := conj_transposeP cols cols (cV d).
have [wX _ _] := mat_mulP wt wb r0.
have sle : (cols <= size (cS d))%N by rewrite sS.
have [X' -> [wX' gX']] := rowsP_c wX (leqnn _) sle hz.
eexists; first by reflexivity.
have [w _ _] := mat_mulP wt' wX' c0; split=> //; rewrite (mxof_mul _ wX') // mxof_conj_transpose; congr (_ *m _).
apply/matrixP => i j; rewrite rdiag_mul_c -mxof_conj_transpose -(mxof_mul _ wb) // !mxE gX' //.
by rewrite ltn_ord.
Qed.

Lemma svd_solve_followP_c rows cols r2 d b : svd_shape_c rows cols d -> (0 < rows <= cols)%N -> wf r2 cols b ->
  (forall i, (i < rows)%N -> nth 0 (cS d) i != 0) ->
  exists2 x, svd_solve_follow_c rows cols r2 d b = Done x & wf r2 rows x /\
    mxof r2 rows x = ((mxof r2 cols b *m hermx (mxof rows cols (cV d))) *m dinvc rows (cS d)) *m hermx (mxof rows rows (cU d)).
Proof.
move=> [wU sS wV] /andP [r0 rc] wb hz; have mn : minn rows cols = rows by apply/minn_idPl.
rewrite /svd_solve_follow_c; rewrite mn in wU sS wV *; have c0 := leq_trans r0 rc.
have [wt _ _] := conj_transposeP rows rows (cU d); have [wt' _ _] := conj_transposeP rows cols (cV d).
have [wX _ _] := mat_mulP wb wt' c0.
have sle : (rows <= size (cS d))%N by rewrite sS.
have [X' -> [wX' gX']] := colsP_c wX (leqnn _) sle hz.
eexists; first by reflexivity.
have [w _ _] := mat_mulP wX' wt r0; split=> //; rewrite (mxof_mul wX') // mxof_conj_transpose; congr (_ *m _).
apply/matrixP => i j; rewrite cdiag_mul_c -mxof_conj_transpose -(mxof_mul wb) // !mxE gX' //.
by rewrite ltn_ord.
Qed.

Lemma svd_inverseP_c rows cols d : svd_shape_c rows cols d -> (0 < minn rows cols)%N ->
  (forall i, (i < minn rows cols)%N -> nth 0 (cS d) i != 0) ->
  exists2 x, svd_inverse_c rows cols d = Done x & wf cols rows x /\
    mxof cols rows x = hermx (mxof (minn rows cols) cols (cV d)) *m dinvc (minn rows cols) (cS d) *m hermx (mxof rows (minn rows cols) (cU d)).
Proof.
move=> [wU sS wV] p0 hz; rewrite /svd_inverse_c.
have [wt _ _] := conj_transposeP rows (minn rows cols) (cU d); have [wt' _ _] := conj_transposeP (minn rows cols) cols (cV d).
have sle : (size (cS d) <= minn rows cols)%N by rewrite sS.
have hz' i : (i < size (cS d))%N -> nth 0 (cS d) i != 0 by rewrite sS; apply: hz.
have [X' -> [wX' gX']] := colsP_c wt' sle (leqnn _) hz'.
eexists; first by reflexivity.
have [w _ _] := mat_mulP wX' wt p0; split=> //; rewrite (mxof_mul wX') // mxof_conj_transpose; congr (_ *m _).
apply/matrixP => i j; rewrite cdiag_mul_c -mxof_conj_transpose !mxE gX' // sS ltn_ord.
by [].
Qed.
End Solve.
