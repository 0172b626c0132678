(* Givens rotations and the two-sided Jacobi loop on complex matrices. *)
From mathcomp Require Import all_ssreflect all_algebra.
From mathcomp Require Import ring complex.
From Verif Require Import Spec M_Vec P_Vec M_Mat P_Mat P_Mat2 M_LU P_Tri P_LU P_LU2 M_Complex P_Complex M_QRC P_QRC M_SVD P_SVD2 P_SVD M_SVDC P_SVDC2.
Set Implicit Arguments. Unset Strict Implicit. Unset Printing Implicit Defensive.
Import Order.Theory GRing.Theory Num.Theory.
Local Open Scope complex_scope.
Local Open Scope ring_scope.

Lemma zsum_rot (Z : zmodType) n p q (f g : nat -> Z) : (p < q < n)%N ->
  (forall k, (k < n)%N -> k != p -> k != q -> f k = g k) -> f p + f q = g p + g q ->
  \sum_(k < n) f k = \sum_(k < n) g k.
Proof.
move=> /andP [pq qn] h e; have pn := ltn_trans pq qn.
rewrite (bigD1 (Ordinal pn)) //= [RHS](bigD1 (Ordinal pn)) //=.
rewrite (bigD1 (Ordinal qn)) /=; last by rewrite -val_eqE /= (gtn_eqF pq).
rewrite [X in _ = _ + X](bigD1 (Ordinal qn)) /=; last by rewrite -val_eqE /= (gtn_eqF pq).
rewrite !addrA e; congr (_ + _); apply: eq_bigr => k /andP [k1 k2]; exact: h.
Qed.

Section SVD.
Variable R : rcfType.
Local Notation C := R[i].
Implicit Types (A U V X : mat C).

Lemma givens_right_cP r c X p q (cv sv det : C) : wf r c X -> (p < q < c)%N ->
  same r c X (givens_right_c r X p q cv sv det) /\
  forall i j, (i < r)%N -> get (givens_right_c r X p q cv sv det) i j =
    if j == p then get X i p * cv + get X i q * sv
    else if j == q then det * (get X i q * conjc cv - get X i p * conjc sv) else get X i j.
Proof.
move=> w /andP [pq qc]; have pc := ltn_trans pq qc.
have sp := size_get_col w pc; have sq := size_get_col w qc.
rewrite /givens_right_c; set cp := vadd _ _; set cq := vscalel _ _.
have s1 : size cp = r by rewrite /cp (size_vadd (n := r)) // size_map.
have s2 : size cq = r by rewrite /cq size_map (size_vsub (n := r)) // size_map.
have [sm1 e1] := set_colP w pc s1; have [w1 r1 j1] := sm1.
have [sm2 e2] := set_colP w1 qc s2.
split; first exact: same_trans sm1 sm2.
move=> i j hi; rewrite e2 e1; case: (j =P q) => [->|jq].
  rewrite (gtn_eqF pq); rewrite (set_nth_default 0) ?s2 // /cq (nth_map 0) ?(size_vsub (n := r)) ?size_map //.
  rewrite (nth_vmap2 _ 0 0) ?size_map ?sp ?sq // !(nth_map 0) ?sp ?sq //.
  by rewrite !(nth_get_col _ w).
case: eqP => // _; rewrite (set_nth_default 0) ?s1 // /cp (nth_vmap2 _ 0 0) ?size_map ?sp ?sq // !(nth_map 0) ?sp ?sq //.
by rewrite !(nth_get_col _ w).
Qed.

Lemma givens_left_cP r c X p q (cv sv det : C) : wf r c X -> (p < q < r)%N ->
  same r c X (givens_left_c c X p q cv sv det) /\
  forall i j, (j < c)%N -> get (givens_left_c c X p q cv sv det) i j =
    if i == p then get X p j * cv - det * get X q j * conjc sv
    else if i == q then det * get X q j * conjc cv + get X p j * sv else get X i j.
Proof.
move=> w /andP [pq qc]; have pc := ltn_trans pq qc.
have sp := size_get_row w pc; have sq := size_get_row w qc.
rewrite /givens_left_c; set cp := vsub _ _; set cq := vadd _ _.
have s1 : size cp = c by rewrite /cp (size_vsub (n := c)) // !size_map.
have s2 : size cq = c by rewrite /cq (size_vadd (n := c)) // !size_map.
have [sm1 e1] := set_rowP w pc s1; have [w1 r1 j1] := sm1.
have [sm2 e2] := set_rowP w1 qc s2.
split; first exact: same_trans sm1 sm2.
move=> i j hi; rewrite e2 e1; case: (i =P q) => [->|jq].
  rewrite (gtn_eqF pq); rewrite (set_nth_default 0) ?s2 // /cq.
  rewrite (nth_vmap2 _ 0 0) ?size_map ?sp ?sq // !(nth_map 0) ?size_map ?sp ?sq //.
  by rewrite !(nth_get_row _ w).
case: eqP => // _; rewrite (set_nth_default 0) ?s1 // /cp (nth_vmap2 _ 0 0) ?size_map ?sp ?sq // !(nth_map 0) ?size_map ?sp ?sq //.
by rewrite !(nth_get_row _ w).
Qed.

(* sums of squared moduli: off the diagonal, all *)
Definition off2c n m (M : 'M[C]_(n, m)) : R :=
  \sum_(i < n) \sum_(j < m) (if i == j :> nat then 0 else cnorm1 (M i j)).
Definition fro2c n m (M : 'M[C]_(n, m)) : R := \sum_i \sum_j cnorm1 (M i j).

Lemma off2c_ge0 n m (M : 'M[C]_(n, m)) : 0 <= off2c M.
Proof. by apply: sumr_ge0 => i _; apply: sumr_ge0 => j _; case: ifP => // _; apply: cnorm1_ge0. Qed.
Lemma fro2c_ge0 n m (M : 'M[C]_(n, m)) : 0 <= fro2c M.
Proof. by apply: sumr_ge0 => i _; apply: sumr_ge0 => j _; apply: cnorm1_ge0. Qed.

Lemma fro2c_off n (M : 'M[C]_n) : fro2c M = off2c M + \sum_i cnorm1 (M i i).
Proof.
rewrite /fro2c /off2c -big_split /=; apply: eq_bigr => i _.
rewrite (bigD1 i) //= [X in _ = X + _](bigD1 i) //= eqxx add0r addrC; congr (_ + _).
by apply: eq_bigr => j; rewrite val_eqE eq_sym => /negPf ->.
Qed.

Lemma fro2c_tr n m (M : 'M[C]_(n, m)) : (fro2c M)%:C = \tr (M *m hermx M).
Proof.
rewrite /fro2c rc_sum; apply: eq_bigr => i _; rewrite rc_sum mxE; apply: eq_bigr => j _.
by rewrite !mxE cnorm1E.
Qed.

Lemma fro2c_orth r n m c (U : 'M[C]_(r, n)) (M : 'M[C]_(n, m)) (V : 'M[C]_(m, c)) :
  hermx U *m U = 1%:M -> V *m hermx V = 1%:M -> fro2c (U *m M *m V) = fro2c M.
Proof.
move=> hU hV; apply: complexI; rewrite !fro2c_tr.
have -> : U *m M *m V *m hermx (U *m M *m V) = U *m (M *m hermx M *m hermx U).
  by rewrite !hermx_mul !mulmxA -[U *m M *m V *m hermx V]mulmxA hV mulmx1.
by rewrite mxtrace_mulC -!mulmxA hU mulmx1.
Qed.

(* a rotation keeps inner products *)
Lemma rot_dot (c s d x y x' y' : C) : c * conjc c + s * conjc s = 1 -> d * conjc d = 1 ->
  (x * c + y * s) * conjc (x' * c + y' * s) +
  d * (y * conjc c - x * conjc s) * conjc (d * (y' * conjc c - x' * conjc s)) = x * conjc x' + y * conjc y'.
Proof.
move=> h1 h2; rewrite !(conjD, conjN, conjM) !conjcK.
transitivity ((c * conjc c + d * conjc d * (s * conjc s)) * (x * conjc x') +
  (s * conjc s + d * conjc d * (c * conjc c)) * (y * conjc y') +
  (1 - d * conjc d) * (c * conjc s * (x * conjc y') + s * conjc c * (y * conjc x'))).
  by move: (conjc c) (conjc s) (conjc d) (conjc x') (conjc y') => *; ring.
by rewrite h2 !mul1r subrr mul0r addr0 [s * _ + _]addrC h1 !mul1r.
Qed.

Lemma rot_norm (c s d x y : C) : c * conjc c + s * conjc s = 1 -> d * conjc d = 1 ->
  cnorm1 (x * c + y * s) + cnorm1 (d * (y * conjc c - x * conjc s)) = cnorm1 x + cnorm1 y.
Proof. by move=> h1 h2; apply: complexI; rewrite rcD [in RHS]rcD !cnorm1E rot_dot. Qed.

Section Two.
Variables (sg : nat -> nat -> nat -> bool) (n cols : nat) (tol : R) (M0 : 'M[C]_n) (D0 : nat -> C).
Hypothesis tol0 : 0 <= tol.

(* the diagonal of X keeps its initial elements D0 or gets non-negative real ones *)
Definition inv2c (st : mat C * mat C * mat C) : Prop :=
  let: (U, X, V) := st in
  [/\ [/\ wf n n U, wf n n X & wf n n V],
      mxof n n U *m hermx (mxof n n U) = 1%:M,
      hermx (mxof n n V) *m mxof n n V = 1%:M,
      mxof n n U *m mxof n n X *m mxof n n V = M0 &
      [/\ forall i j, (i < n)%N -> (cols <= j < n)%N -> get X i j = 0,
          forall i j, (i < n)%N -> (j < n)%N -> (cols <= i)%N || (cols <= j)%N -> get V i j = (i == j)%:R &
          forall i, (i < n)%N -> get X i i = D0 i \/ exists2 r : R, 0 <= r & get X i i = r%:C]].

(* one rotation *)
Definition rotated_c (U X V U' X' V' : mat C) (p q : nat) (d : svd22c R) : Prop :=
  [/\ forall i j, (i < n)%N -> (j < n)%N -> get U' i j =
        if j == p then get U i p * ccu d + get U i q * csu d
        else if j == q then cdt d * (get U i q * conjc (ccu d) - get U i p * conjc (csu d)) else get U i j,
      forall i j, (i < n)%N -> (j < n)%N -> get V' i j =
        if i == p then get V p j * ccv d + get V q j * - conjc (csv d)
        else if i == q then 1 * (get V q j * conjc (ccv d) - get V p j * conjc (- conjc (csv d))) else get V i j &
      exists2 Y, (forall i j, (i < n)%N -> (j < n)%N -> get Y i j =
        if i == p then get X p j * conjc (ccu d) + get X q j * conjc (csu d)
        else if i == q then conjc (cdt d) * (get X q j * conjc (conjc (ccu d)) - get X p j * conjc (conjc (csu d))) else get X i j) &
        forall i j, (i < n)%N -> (j < n)%N -> get X' i j =
        if j == p then get Y i p * conjc (ccv d) + get Y i q * - csv d
        else if j == q then 1 * (get Y i q * conjc (conjc (ccv d)) - get Y i p * conjc (- csv d)) else get Y i j].

Definition small1 (z : C) := `|Rep z| <= tol /\ `|Imp z| <= tol.

Lemma cscal2_le x y : cscal2 x y <= tol -> small1 x /\ small1 y.
Proof.
rewrite /cscal2 => h.
have [m1 m2] := std_max_geC (std_max `|Rep x| `|Rep y|) (std_max `|Imp x| `|Imp y|).
have [m3 m4] := std_max_geC `|Rep x| `|Rep y|; have [m5 m6] := std_max_geC `|Imp x| `|Imp y|.
have h1 := le_trans m1 h; have h2 := le_trans m2 h.
by split; split; [apply: le_trans h1|apply: le_trans h2|apply: le_trans h1|apply: le_trans h2].
Qed.

Lemma cscal2_0 : cscal2 (0 : C) 0 = 0.
Proof. by rewrite /cscal2 /= normr0 /std_max !ltxx. Qed.

Lemma tol_lt_c x y : tol < cscal2 x y -> tol ^+ 2 <= cnorm1 x + cnorm1 y.
Proof.
have aux z : tol < `|z| -> tol ^+ 2 <= z ^+ 2.
  by move=> h; rewrite -[X in _ <= X]real_normK ?num_real // ler_expn2r ?nnegrE ?normr_ge0 // ltW.
have a0 := sqr_ge0 (Rep x); have a1 := sqr_ge0 (Imp x); have a2 := sqr_ge0 (Rep y); have a3 := sqr_ge0 (Imp y).
rewrite /cscal2 {1}/std_max; case: ifP => _; rewrite /std_max; case: ifP => _ /aux h; apply: le_trans h _; rewrite /cnorm1.
- by rewrite addrA ler_addr !addr_ge0.
- by rewrite [Rep x ^+ 2 + _]addrC -addrA ler_addl !addr_ge0.
- by rewrite addrCA ler_addl !addr_ge0.
- by rewrite -addrA ler_addl !addr_ge0.
Qed.

Lemma two_sided_step_cP k p q U X V e : (p < q < n)%N -> wf n n U -> wf n n X -> wf n n V ->
  exists U' X' V' e', two_sided_step_c sg n tol k p q (U, X, V, e) = Some (U', X', V', e') /\
  ([/\ (U', X', V', e') = (U, X, V, e), small1 (get X p q) & small1 (get X q p)] \/
   exists d, [/\ svd2x2_c (sg k p q) (get X p p) (get X p q) (get X q p) (get X q q) = Some d,
     [/\ wf n n U', wf n n X' & wf n n V'], rotated_c U X V U' X' V' p q d,
     tol < cscal2 (get X p q) (get X q p) & e' = std_max e (cscal2 (get X p q) (get X q p))]).
Proof.
move=> pq wU wX wV; rewrite /two_sided_step_c; case: ltP => ht; last first.
  by exists U, X, V, e; split=> //; left; have [t1 t2] := cscal2_le ht.
have [d ed [[h1 h2 h3 h4 h5] _ _]] := svd2x2_cP (sg k p q) (get X p p) (get X p q) (get X q p) (get X q q).
rewrite ed; ob.
have [[wU' _ _] eU] := givens_right_cP (ccu d) (csu d) (cdt d) wU pq.
have [[wY _ _] eY] := givens_left_cP (conjc (ccu d)) (- conjc (cdt d) * csu d) (conjc (cdt d)) wX pq.
have [[wX' _ _] eX] := givens_right_cP (conjc (ccv d)) (- csv d) 1 wY pq.
have [[wV' _ _] eV] := givens_left_cP (ccv d) (csv d) 1 wV pq.
do 4!eexists; split; first by reflexivity.
right; exists d; split=> //; split.
- by move=> i j hi hj; rewrite eU.
- move=> i j hi hj; rewrite eV // conjN conjcK !mul1r !mulrN opprK.
  by case: ifP => // _; case: ifP.
- exists (givens_left_c n X p q (conjc (ccu d)) (- conjc (cdt d) * csu d) (conjc (cdt d))); move=> i j hi hj; last by rewrite eX.
  rewrite eY // conjM conjN !conjcK; case: ifP => _; last first.
    by case: ifP => _ //; move: (get X q j) (get X p j) (ccu d) (csu d) (conjc (cdt d)) => *; ring.
  transitivity (get X p j * conjc (ccu d) + cdt d * conjc (cdt d) * (get X q j * conjc (csu d))); last by rewrite h3 mul1r.
  by move: (get X q j) (get X p j) (cdt d) (conjc (ccu d)) (conjc (csu d)) (conjc (cdt d)) => *; ring.
Qed.

Lemma mulmx_get_c r m c (A B : mat C) i j : (mxof r m A *m mxof m c B) i j = \sum_(k < m) get A i k * get B k j.
Proof. by rewrite mxE; apply: eq_bigr => k _; rewrite !mxE. Qed.

(* the rotated elements *)
Lemma rotated_elems U X V U' X' V' p q b d : (p < q < n)%N ->
  svd2x2_c b (get X p p) (get X p q) (get X q p) (get X q q) = Some d ->
  rotated_c U X V U' X' V' p q d ->
  [/\ get X' p p = (cs11 d)%:C, get X' q q = (cs22 d)%:C, get X' p q = 0 & get X' q p = 0].
Proof.
move=> pq hd [eU eV [Y eY eX]].
have [d' ed' [[cs1 cs2 dt2 s1 s2] [a1 a2 a3 a4] _]] := svd2x2_cP b (get X p p) (get X p q) (get X q p) (get X q q).
have e : d' = d by move: ed'; rewrite hd => -[].
rewrite e in cs1 cs2 dt2 s1 s2 a1 a2 a3 a4; clear d' ed' e.
have /andP [lpq qn] := pq; have pn := ltn_trans lpq qn.
have npq : (q == p) = false := gtn_eqF lpq.
have Ypp : get Y p p = (cs11 d)%:C * ccv d.
  rewrite eY // eqxx a1 a3.
  transitivity ((ccu d * conjc (ccu d) + csu d * conjc (csu d)) * ((cs11 d)%:C * ccv d)); last by rewrite cs1 mul1r.
  by move: (ccu d) (csu d) (ccv d) (csv d) (cdt d) ((cs11 d)%:C) ((cs22 d)%:C) (conjc (ccu d)) (conjc (csu d)) => *; ring.
have Ypq : get Y p q = - ((cs11 d)%:C * conjc (csv d)).
  rewrite eY // eqxx a2 a4.
  transitivity (- (ccu d * conjc (ccu d) + csu d * conjc (csu d)) * ((cs11 d)%:C * conjc (csv d))); last by rewrite cs1 mulN1r.
  move: (conjc (ccv d)) (conjc (csv d)) (conjc (ccu d)) (conjc (csu d)).
  by move: (ccu d) (csu d) (cdt d) ((cs11 d)%:C) ((cs22 d)%:C) => *; ring.
have Yqp : get Y q p = (cs22 d)%:C * csv d.
  rewrite eY // npq eqxx a1 a3 !conjcK.
  transitivity (cdt d * conjc (cdt d) * (ccu d * conjc (ccu d) + csu d * conjc (csu d)) * ((cs22 d)%:C * csv d)); last by rewrite cs1 dt2 !mul1r.
  move: (conjc (cdt d)) (conjc (ccu d)) (conjc (csu d)).
  by move: (ccu d) (csu d) (ccv d) (csv d) (cdt d) ((cs11 d)%:C) ((cs22 d)%:C) => *; ring.
have Yqq : get Y q q = (cs22 d)%:C * conjc (ccv d).
  rewrite eY // npq eqxx a2 a4 !conjcK.
  transitivity (cdt d * conjc (cdt d) * (ccu d * conjc (ccu d) + csu d * conjc (csu d)) * ((cs22 d)%:C * conjc (ccv d))); last by rewrite cs1 dt2 !mul1r.
  move: (conjc (cdt d)) (conjc (ccu d)) (conjc (csu d)) (conjc (csv d)) (conjc (ccv d)).
  by move: (ccu d) (csu d) (cdt d) ((cs11 d)%:C) ((cs22 d)%:C) => *; ring.
split; rewrite eX // ?npq ?eqxx ?Ypp ?Ypq ?Yqp ?Yqq ?conjN ?conjcK.
- transitivity ((ccv d * conjc (ccv d) + csv d * conjc (csv d)) * (cs11 d)%:C); last by rewrite cs2 mul1r.
  by move: (conjc (csv d)) (conjc (ccv d)) ((cs11 d)%:C) => *; ring.
- transitivity ((ccv d * conjc (ccv d) + csv d * conjc (csv d)) * (cs22 d)%:C); last by rewrite cs2 mul1r.
  by move: (conjc (csv d)) (conjc (ccv d)) ((cs22 d)%:C) => *; ring.
- by move: (conjc (csv d)) (ccv d) ((cs11 d)%:C) => *; ring.
- by move: (conjc (ccv d)) (csv d) ((cs22 d)%:C) => *; ring.
Qed.

Lemma rotated_inv_c U X V U' X' V' p q b d : (p < q < n)%N ->
  svd2x2_c b (get X p p) (get X p q) (get X q p) (get X q q) = Some d ->
  tol < cscal2 (get X p q) (get X q p) ->
  wf n n U' -> wf n n X' -> wf n n V' ->
  rotated_c U X V U' X' V' p q d -> inv2c (U, X, V) -> inv2c (U', X', V').
Proof.
move=> pq hd ht wU' wX' wV' hrot [[wU wX wV] oU oV eM [zX dV rX]].
have [Xpp Xqq Xpq Xqp] := rotated_elems pq hd hrot.
case: hrot => eU eV [Y eY eX].
have [d' ed' [[cs1 cs2 dt2 s1 s2] [a1 a2 a3 a4] [rv [erv cpos sle]]]] := svd2x2_cP b (get X p p) (get X p q) (get X q p) (get X q q).
have e : d' = d by move: ed'; rewrite hd => -[].
rewrite e in cs1 cs2 dt2 s1 s2 a1 a2 a3 a4 erv sle; clear d' ed' e.
have /andP [lpq qn] := pq; have pn := ltn_trans lpq qn.
have npq : (q == p) = false := gtn_eqF lpq.
have cs1' : conjc (ccu d) * conjc (conjc (ccu d)) + conjc (csu d) * conjc (conjc (csu d)) = 1.
  by rewrite !conjcK mulrC [conjc (csu d) * _]mulrC.
have dt2' : conjc (cdt d) * conjc (conjc (cdt d)) = 1 by rewrite conjcK mulrC.
have cs2' : ccv d * conjc (ccv d) + - conjc (csv d) * conjc (- conjc (csv d)) = 1.
  by rewrite conjN conjcK mulrNN [conjc (csv d) * _]mulrC.
have one2 : 1 * conjc 1 = 1 :> C by rewrite conjc1 mul1r.
(* the new columns *)
have pc : (p < cols)%N.
  case: (ltnP p cols) => // hp; move: ht; rewrite !zX ?hp //; last by rewrite (leq_trans hp) // ltnW.
  by rewrite cscal2_0 ltNge tol0.
have qc : (q < cols)%N \/ ccv d = 1 /\ csv d = 0.
  case: (ltnP q cols) => [|hq]; [by left|right].
  have z1 : get X p q = 0 by rewrite zX // hq.
  have z2 : get X q q = 0 by rewrite zX // hq.
  have nz : get X q p != 0.
    by apply: contraTneq ht => z; rewrite z z1 cscal2_0 ltNge tol0.
  have b1 : get X p p * conjc (ccv d) = ccu d * (cs11 d)%:C.
    transitivity (get X p p * conjc (ccv d) - get X p q * csv d); first by rewrite z1 mul0r subr0.
    rewrite a1 a2; transitivity ((ccv d * conjc (ccv d) + csv d * conjc (csv d)) * (ccu d * (cs11 d)%:C)); last by rewrite cs2 mul1r.
    move: (conjc (csv d)) (conjc (ccv d)) (conjc (csu d)).
    by move: (ccu d) (ccv d) (csv d) (cdt d) ((cs11 d)%:C) ((cs22 d)%:C) => *; ring.
  have b2 : get X q p * conjc (ccv d) = csu d * (cs11 d)%:C.
    transitivity (get X q p * conjc (ccv d) - get X q q * csv d); first by rewrite z2 mul0r subr0.
    rewrite a3 a4; transitivity ((ccv d * conjc (ccv d) + csv d * conjc (csv d)) * (csu d * (cs11 d)%:C)); last by rewrite cs2 mul1r.
    move: (conjc (csv d)) (conjc (ccv d)) (conjc (ccu d)).
    by move: (csu d) (ccv d) (csv d) (cdt d) ((cs11 d)%:C) ((cs22 d)%:C) => *; ring.
  have b3 : get X p p * conjc (csv d) = - (conjc (csu d) * (cdt d * (cs22 d)%:C)).
    transitivity (get X p p * conjc (csv d) + get X p q * ccv d); first by rewrite z1 mul0r addr0.
    rewrite a1 a2; transitivity (- (ccv d * conjc (ccv d) + csv d * conjc (csv d)) * (conjc (csu d) * (cdt d * (cs22 d)%:C))); last by rewrite cs2 mulN1r.
    move: (conjc (csv d)) (conjc (ccv d)) (conjc (csu d)).
    by move: (ccu d) (ccv d) (csv d) (cdt d) ((cs11 d)%:C) ((cs22 d)%:C) => *; ring.
  have b4 : get X q p * conjc (csv d) = conjc (ccu d) * (cdt d * (cs22 d)%:C).
    transitivity (get X q p * conjc (csv d) + get X q q * ccv d); first by rewrite z2 mul0r addr0.
    rewrite a3 a4; transitivity ((ccv d * conjc (ccv d) + csv d * conjc (csv d)) * (conjc (ccu d) * (cdt d * (cs22 d)%:C))); last by rewrite cs2 mul1r.
    move: (conjc (csv d)) (conjc (ccv d)) (conjc (ccu d)).
    by move: (csu d) (ccv d) (csv d) (cdt d) ((cs11 d)%:C) ((cs22 d)%:C) => *; ring.
  have : (cnorm1 (get X p p) + cnorm1 (get X q p))%:C * (ccv d * conjc (csv d)) = 0.
    rewrite rcD !cnorm1E.
    transitivity (conjc (get X p p * conjc (ccv d)) * (get X p p * conjc (csv d)) +
                  conjc (get X q p * conjc (ccv d)) * (get X q p * conjc (csv d))).
      rewrite !conjM !conjcK; move: (conjc (csv d)) (conjc (get X p p)) (conjc (get X q p)).
      by move: (ccv d) (get X p p) (get X q p) => *; ring.
    rewrite b1 b2 b3 b4 !conjM !conj_rc.
    by move: (conjc (ccu d)) (conjc (csu d)) (cdt d) ((cs11 d)%:C) ((cs22 d)%:C) => *; ring.
  move/eqP; rewrite mulf_eq0 rc_eq0 paddr_eq0 ?cnorm1_ge0 // !cnorm1_eq0 (negPf nz) andbF /= mulf_eq0 conjc_eq0 erv rc_eq0 (gt_eqF cpos) /= => /eqP z.
  split=> //; move: cs2; rewrite z mul0r addr0 erv conj_rc -rcM => /complexI /eqP; rewrite -expr2 sqrf_eq1 => /orP [/eqP -> //|/eqP n1].
  by move: cpos; rewrite n1 ltr0N1.
split=> //.
- rewrite -oU; apply/matrixP => i j; rewrite !mxE.
  under eq_bigr do rewrite !mxE.
  under [RHS]eq_bigr do rewrite !mxE.
  apply: (zsum_rot (f := fun k => get U' i k * conjc (get U' j k)) (g := fun k => get U i k * conjc (get U j k)) pq) => [k kn /negPf k1 /negPf k2|].
    by rewrite !eU // k1 k2.
  by rewrite !eU // !eqxx npq rot_dot.
- rewrite -oV; apply/matrixP => i j; rewrite !mxE.
  under eq_bigr do rewrite !mxE mulrC.
  under [RHS]eq_bigr do rewrite !mxE mulrC.
  apply: (zsum_rot (f := fun k => get V' k j * conjc (get V' k i)) (g := fun k => get V k j * conjc (get V k i)) pq) => [k kn /negPf k1 /negPf k2|].
    by rewrite !eV // k1 k2.
  by rewrite !eV // !eqxx npq rot_dot.
- have -> : mxof n n U' *m mxof n n X' *m mxof n n V' = mxof n n U' *m (mxof n n Y *m mxof n n V).
    rewrite -mulmxA; congr (_ *m _); apply/matrixP => i j; rewrite !mulmx_get_c.
    apply: (zsum_rot (f := fun k => get X' i k * get V' k j) (g := fun k => get Y i k * get V k j) pq) => [k kn /negPf k1 /negPf k2|].
      by rewrite eV // eX // k1 k2.
    rewrite !eV // !eX // !eqxx npq !conjN !conjcK.
    transitivity ((ccv d * conjc (ccv d) + csv d * conjc (csv d)) * (get Y i p * get V p j + get Y i q * get V q j)); last by rewrite cs2 mul1r.
    move: (conjc (ccv d)) (conjc (csv d)).
    by move: (ccv d) (csv d) (get Y i p) (get Y i q) (get V p j) (get V q j) => *; ring.
  rewrite mulmxA -eM; congr (_ *m _); apply/matrixP => i j; rewrite !mulmx_get_c.
  apply: (zsum_rot (f := fun k => get U' i k * get Y k j) (g := fun k => get U i k * get X k j) pq) => [k kn /negPf k1 /negPf k2|].
    by rewrite eU // eY // k1 k2.
  rewrite !eU // !eY // !eqxx npq.
  have := @rot_dot (ccu d) (csu d) (cdt d) (get U i p) (get U i q) (conjc (get X p j)) (conjc (get X q j)) cs1 dt2.
  by rewrite !(conjD, conjN, conjM) !conjcK.
- split.
  + have zY i j : (i < n)%N -> (cols <= j < n)%N -> get Y i j = 0.
      move=> hi hj; have /andP [_ hj'] := hj; rewrite eY // !zX // !mul0r addr0 subr0 mulr0; by case: ifP => //; case: ifP.
    move=> i j hi hj; have /andP [hj1 hj'] := hj; rewrite eX // (zY i j) //.
    case: eqP => [jp|_]; first by move: hj1; rewrite jp leqNgt pc.
    case: eqP => // jq; case: qc => [qc|[-> ->]]; first by move: hj1; rewrite jq leqNgt qc.
    by rewrite zY -?jq // oppr0 conjc0 mulr0 mul0r subr0 mulr0.
  + move=> i j hi hj hc; rewrite eV // mul1r.
    case: (i =P p) => [ip|_].
      have hcj : (cols <= j)%N by move: hc; rewrite ip leqNgt pc.
      rewrite !dV ?hcj ?orbT //; case: qc => [qc|[-> ->]]; last by rewrite conjc0 oppr0 mulr1 mulr0 addr0 ip.
      rewrite ip; have /negPf -> : p != j by apply: contraTneq pc => ->; rewrite -leqNgt.
      have /negPf -> : q != j by apply: contraTneq qc => ->; rewrite -leqNgt.
      by rewrite !mul0r addr0.
    case: (i =P q) => [iq|_]; last by rewrite dV.
    case: qc => [qc|[-> ->]]; last by rewrite conjc0 oppr0 conjc0 conjc1 mulr1 mulr0 subr0 dV ?iq // -iq.
    have hcj : (cols <= j)%N by move: hc; rewrite iq leqNgt qc.
    rewrite !dV ?hcj ?orbT // iq; have /negPf -> : p != j by apply: contraTneq pc => ->; rewrite -leqNgt.
    have /negPf -> : q != j by apply: contraTneq qc => ->; rewrite -leqNgt.
    by rewrite !mul0r subr0.
  + move=> i hi; case: (i =P p) => [->|/eqP ip]; first by right; exists (cs11 d).
    case: (i =P q) => [->|/eqP iq]; first by right; exists (cs22 d).
    have -> : get X' i i = get X i i by rewrite eX // (negPf ip) (negPf iq) eY // (negPf ip) (negPf iq).
    exact: rX.
Qed.

Lemma rotated_off_c U X V U' X' V' p q b d : (p < q < n)%N ->
  svd2x2_c b (get X p p) (get X p q) (get X q p) (get X q q) = Some d ->
  rotated_c U X V U' X' V' p q d ->
  off2c (mxof n n X') = off2c (mxof n n X) - (cnorm1 (get X p q) + cnorm1 (get X q p)).
Proof.
move=> pq hd hrot; have [Xpp Xqq Xpq Xqp] := rotated_elems pq hd hrot.
case: hrot => eU eV [Y eY eX].
have [d' ed' [[cs1 cs2 dt2 s1 s2] _ _]] := svd2x2_cP b (get X p p) (get X p q) (get X q p) (get X q q).
have e : d' = d by move: ed'; rewrite hd => -[].
rewrite e in cs1 cs2 dt2 s1 s2; clear d' ed' e.
have /andP [lpq qn] := pq; have pn := ltn_trans lpq qn.
have npq : (q == p) = false := gtn_eqF lpq.
have cs1' : conjc (ccu d) * conjc (conjc (ccu d)) + conjc (csu d) * conjc (conjc (csu d)) = 1.
  by rewrite !conjcK mulrC [conjc (csu d) * _]mulrC.
have dt2' : conjc (cdt d) * conjc (conjc (cdt d)) = 1 by rewrite conjcK mulrC.
have cs2' : conjc (ccv d) * conjc (conjc (ccv d)) + - csv d * conjc (- csv d) = 1.
  by rewrite conjN conjcK mulrNN [conjc (ccv d) * _]mulrC.
have one2 : 1 * conjc 1 = 1 :> C by rewrite conjc1 mul1r.
have f1 i : (i < n)%N -> cnorm1 (get X' i p) + cnorm1 (get X' i q) = cnorm1 (get Y i p) + cnorm1 (get Y i q).
  by move=> hi; rewrite !eX // !eqxx npq rot_norm.
have f2 i : (i < n)%N -> cnorm1 (get Y p i) + cnorm1 (get Y q i) = cnorm1 (get X p i) + cnorm1 (get X q i).
  by move=> hi; rewrite !eY // !eqxx npq rot_norm.
have F1 : fro2c (mxof n n X') = fro2c (mxof n n Y).
  apply: eq_bigr => i _; under eq_bigr do rewrite mxE; under [RHS]eq_bigr do rewrite mxE.
  apply: (zsum_rot (f := fun k => cnorm1 (get X' i k)) (g := fun k => cnorm1 (get Y i k)) pq) => [k kn /negPf k1 /negPf k2|].
    by rewrite eX // k1 k2.
  exact: f1.
have F2 : fro2c (mxof n n Y) = fro2c (mxof n n X).
  rewrite /fro2c exchange_big [RHS]exchange_big /=.
  apply: eq_bigr => i _; under eq_bigr do rewrite mxE; under [RHS]eq_bigr do rewrite mxE.
  apply: (zsum_rot (f := fun k => cnorm1 (get Y k i)) (g := fun k => cnorm1 (get X k i)) pq) => [k kn /negPf k1 /negPf k2|].
    by rewrite eY // k1 k2.
  exact: f2.
have := fro2c_off (mxof n n X'); rewrite F1 F2 fro2c_off.
have -> : \sum_i cnorm1 (mxof n n X' i i) = \sum_i cnorm1 (mxof n n X i i) + (cnorm1 (get X p q) + cnorm1 (get X q p)).
  under eq_bigr do rewrite mxE; under [X in _ = X + _]eq_bigr do rewrite mxE.
  apply: (sum_rot2 (f := fun k => cnorm1 (get X' k k)) (g := fun k => cnorm1 (get X k k)) pq) => [k kn /negPf k1 /negPf k2|].
    by rewrite eX // k1 k2 eY // k1 k2.
  have n0 : cnorm1 (0 : C) = 0 by apply/eqP; rewrite cnorm1_eq0.
  have g1 := f1 p pn; have g2 := f1 q qn; have g3 := f2 p pn; have g4 := f2 q qn.
  move: g1 g2; rewrite Xpq Xqp n0 addr0 add0r => -> ->.
  by rewrite addrACA g3 g4; move: (cnorm1 _) (cnorm1 _) (cnorm1 _) (cnorm1 _) => *; ring.
rewrite [_ + (cnorm1 (get X p q) + _)]addrC addrA => /addIr ->; by rewrite addrK.
Qed.

Definition offXc (st : mat C * mat C * mat C) : R := off2c (mxof n n st.1.2).
Definition small_before_c p q X := forall p' q', (p' < q' < n)%N -> (p' < p)%N || ((p' == p) && (q' < q)%N) ->
  small1 (get X p' q') /\ small1 (get X q' p').

Definition swinv_c (st0 : mat C * mat C * mat C) p q (s : mat C * mat C * mat C * R) : Prop :=
  inv2c s.1 /\ ((s.2 = 0 /\ s.1 = st0 /\ small_before_c p q st0.1.2) \/ (0 < s.2 /\ offXc s.1 + tol ^+ 2 <= offXc st0)).

Lemma two_sided_sweep_cP k st : inv2c st ->
  exists st' e, two_sided_sweep_c sg n tol k st = Some (st', e) /\ inv2c st' /\
  ((e = 0 /\ st' = st /\ forall p q, (p < n)%N -> (q < n)%N -> p != q -> small1 (get st.1.2 p q)) \/
   (0 < e /\ offXc st' + tol ^+ 2 <= offXc st)).
Proof.
move=> hst; rewrite /two_sided_sweep_c /pairs_loop.
have [||h1 h2] := @for_opt_ind0 _ (fun p => swinv_c st p p.+1) False n
  (fun p s => for_opt (iota p.+1 (n - p.+1)) (two_sided_step_c sg n tol k p) s) (st, 0).
- split=> //; left; split=> //; split=> // p' q' /andP [h _] /=.
  by rewrite ltnS leqn0 => /andP [/eqP h' /eqP h'']; rewrite h' h'' in h.
- move=> p s hp hs.
  have hb : forall q s0, (p.+1 <= q < p.+1 + (n - p.+1))%N -> swinv_c st p q s0 ->
      if two_sided_step_c sg n tol k p q s0 is Some s' then swinv_c st p q.+1 s' else False.
    move=> q [[[U X] V] e]; rewrite subnKC // => /andP [pq qn] [hi hc].
    have [[wU wX wV] _ _ _ _] := hi; have pqn : (p < q < n)%N by rewrite pq.
    have [U' [X' [V' [e' [-> hr]]]]] := two_sided_step_cP k e pqn wU wX wV.
    case: hr => [[[-> -> -> ->] t1 t2]|[d [ed [wU' wX' wV'] hr ht ->]]].
      split=> //; case: hc => [[/= e0 [es sb]]|hc]; [left|by right].
      split=> //; split=> // p' q' pq' /orP [lp|/andP [/eqP ep]]; first by apply: sb; rewrite ?lp.
      rewrite ltnS leq_eqVlt => /orP [/eqP eq|lq]; first by rewrite ep eq -es.
      by apply: sb; rewrite // ep eqxx lq orbT.
    split; first exact: (rotated_inv_c pqn ed ht wU' wX' wV' hr hi).
    right; have ho := rotated_off_c pqn ed hr; have := tol_lt_c ht => ht2.
    have ge0 : 0 <= e by case: hc => [[/= -> _]|[/= /ltW]].
    have r0 := le_lt_trans tol0 ht.
    split; first by rewrite /= {1}/std_max; case: (ltP e) => // ; apply: lt_le_trans r0.
    have : offXc (U', X', V') + tol ^+ 2 <= offXc (U, X, V).
      by rewrite /offXc /= ho addrAC -lter_sub_addr opprK ler_add2l.
    by case: hc => [[/= _ [-> _]] //|[/= _ h]] h'; apply: le_trans h' _; apply: le_trans h; rewrite ler_addl sqr_ge0.
  have := @for_opt_ind _ (fun q => swinv_c st p q) False p.+1 (n - p.+1) (two_sided_step_c sg n tol k p) s hs hb.
  rewrite subnKC //.
  case: for_opt => // s' [hi hc]; split=> //; case: hc => [[e0 [es sb]]|hc]; [left|by right].
  split=> //; split=> // p' q' pq' /orP [|/andP [/eqP ep]].
    by rewrite ltnS leq_eqVlt => h; apply: sb => //; case/andP: pq' => _ ->; rewrite andbT orbC.
  by rewrite ltnS -ep => h; case/andP: pq' => h' _; move: (leq_trans h' h); rewrite ltnn.
- case e: (for_opt _ _ _) h1 h2 => [[st' e']|] h1 h2; last by case: h2.
  exists st', e'; split=> //; have [hi hc] := h1 _ erefl; split=> //.
  case: hc => [[/= e0 [es sb]]|hc]; [left|by right].
  split=> //; split=> // p q pn qn; rewrite neq_ltn => /orP [lt|lt].
    by have [] := sb p q; rewrite ?lt ?pn ?qn.
  by have [] := sb q p; rewrite ?lt ?pn ?qn.
Qed.

Lemma two_sided_jacobi_inv_c fuel k prev err st : inv2c st ->
  exists2 st', inv2c st' /\ offXc st' <= offXc st &
    jacobi (two_sided_sweep_c sg n tol) fuel k prev err st = Done st' \/
    jacobi (two_sided_sweep_c sg n tol) fuel k prev err st = Running st'.
Proof.
move=> h; have [|s' [h1 h2] h3] := @jacobiP _ R (fun s => inv2c s /\ offXc s <= offXc st) (two_sided_sweep_c sg n tol) fuel k prev err st (conj h (lexx _)).
  move=> k' s [hs1 hs2]; have [s' [e [-> [hi hc]]]] := two_sided_sweep_cP k' hs1.
  exists s', e; split=> //; split=> //; case: hc => [[_ [-> _]] //|[_ h']].
  by apply: le_trans hs2; apply: le_trans h'; rewrite ler_addl sqr_ge0.
by exists s'.
Qed.

Lemma two_sided_terminates_c m fuel k prev err st : 0 < tol -> inv2c st -> offXc st <= m%:R * tol ^+ 2 ->
  (m + 2 <= fuel)%N -> exists2 st', inv2c st' & jacobi (two_sided_sweep_c sg n tol) fuel k prev err st = Done st'.
Proof.
move=> t0; have t2 : 0 < tol ^+ 2 by rewrite exprn_gt0.
have stop fuel' k' prev' err' s : inv2c s -> err' <= 0 -> (0 < fuel')%N ->
    exists2 st', inv2c st' & jacobi (two_sided_sweep_c sg n tol) fuel' k' prev' err' s = Done st'.
  move=> hs he; case: fuel' => // f _ /=; case: ifP => _; last by exists s.
  have [s' [e [-> [hi hc]]]] := two_sided_sweep_cP k' hs; exists s' => //.
  have e0 : 0 <= e by case: hc => [[-> _]|[/ltW]].
  by case: f => [|f] /=; rewrite ltNge (le_trans he e0).
elim: fuel m k prev err st => [|f IH] m k prev err st hi hm hf; first by rewrite addn2 in hf.
rewrite /=; case: ifP => _; last by exists st.
have [s' [e [-> [hi' hc]]]] := two_sided_sweep_cP k hi.
case: hc => [[-> [-> _]]|[_ hd]].
  by apply: stop => //; move: hf; rewrite addn2 ltnS; apply: leq_trans.
case: m hm hf => [|m] hm hf.
  have : offXc s' < 0 by rewrite -(ltr_add2r (tol ^+ 2)) add0r (le_lt_trans hd) // (le_lt_trans hm) // mul0r.
  by rewrite ltNge off2c_ge0.
apply: (IH m) => //; rewrite -(ler_add2r (tol ^+ 2)); apply: le_trans hd _; apply: le_trans hm _.
by rewrite -addn1 natrD mulrDl mul1r.
Qed.
End Two.
End SVD.
