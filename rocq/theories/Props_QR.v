(* Properties C37-C40: QR and LQ decompositions (real element types, exact arithmetic).
   [tmin], [tmax]: the smallest and largest positive normal numbers of the element type. *)
From mathcomp Require Import all_ssreflect all_algebra.
From Verif Require Import Spec M_Vec P_Vec M_Mat P_Mat M_LU P_Tri P_LU P_LU2 M_QR P_QR.
Set Implicit Arguments. Unset Strict Implicit. Unset Printing Implicit Defensive.
Import Order.Theory GRing.Theory Num.Theory.
Local Open Scope ring_scope.

(** * C37 QR *)
Theorem C37_qr (R : rcfType) (tmin tmax : R) (rows cols : nat) (A : mat R) :
  0 < tmin -> tmin <= tmax -> wf rows cols A -> (0 < cols <= rows)%N ->
  exists Q Rm, decompose_qr tmin tmax rows cols A = Some (Q, Rm) /\
  [/\ wf rows cols Q /\ wf cols cols Rm,
      forall i j, (j < i < cols)%N -> get Rm i j = 0,
      (mxof rows cols Q)^T *m mxof rows cols Q = 1%:M &
      mxof rows cols Q *m mxof cols cols Rm = mxof rows cols A].
Proof.
move=> t0 tm w h; have [Q [Rm [e [[h1 h2 _ _] h3 h4 h5]]]] := qrP t0 tm w h.
by exists Q, Rm; split=> //; split=> // i j /andP [ji ic]; apply: h3.
Qed.
Print Assumptions C37_qr.

(* the rank one matrix [1 2; 2 4; 0 0] and the zero matrix *)
Example C37_example (R : rcfType) (tmin tmax : R) : 0 < tmin -> tmin <= tmax ->
  decompose_qr tmin tmax 3 2 (ctor_elems true 0 3 2 [:: 1; 2%:R; 2%:R; 4%:R; 0; 0]) /\
  decompose_qr tmin tmax 3 2 (ctor_elems true 0 3 2 [:: 0; 0; 0; 0; 0; 0]).
Proof.
move=> h1 h2; split.
  by have [Q [Rm [-> _]]] := @C37_qr R tmin tmax 3 2 (ctor_elems true 0 3 2 [:: 1; 2%:R; 2%:R; 4%:R; 0; 0]) h1 h2 isT isT.
by have [Q [Rm [-> _]]] := @C37_qr R tmin tmax 3 2 (ctor_elems true 0 3 2 [:: 0; 0; 0; 0; 0; 0]) h1 h2 isT isT.
Qed.

(** * C38 Least squares *)
Lemma full_inj (R : rcfType) rows cols c (A : 'M[R]_(rows, cols)) (d : 'M_(cols, c)) j :
  \rank A = cols -> (forall i, (A *m d) i j = 0) -> forall i, d i j = 0.
Proof.
move=> h hz i; have hf : row_free A^T by rewrite /row_free mxrank_tr h.
have : (col j d)^T *m A^T = 0.
  rewrite -trmx_mul colE mulmxA -colE; apply/matrixP => a l; rewrite !ord1 !mxE.
  by have := hz l; rewrite mxE.
by move=> e; have /matrixP /(_ 0 i) := row_free_inj hf (etrans e (esym (mul0mx _ _))); rewrite !mxE.
Qed.

(* minimality and uniqueness, column by column, from the normal equations *)
Lemma normal_min (R : rcfType) rows cols c (A : 'M[R]_(rows, cols)) (b : 'M_(rows, c)) x :
  \rank A = cols -> A^T *m (A *m x - b) = 0 ->
  forall (y : 'M_(cols, c)) j,
    \sum_i (A *m x - b) i j ^+ 2 <= \sum_i (A *m y - b) i j ^+ 2 /\
    (\sum_i (A *m y - b) i j ^+ 2 = \sum_i (A *m x - b) i j ^+ 2 -> forall i, y i j = x i j).
Proof.
move=> hr hn y j; have := least_squares y j hn; rewrite /nrm2 => ->.
have h0 := nrm2_ge0 (A *m (y - x)) j; rewrite /nrm2 in h0; split; first by rewrite ler_addl.
move=> /eqP; rewrite -subr_eq0 addrAC subrr add0r => /eqP /nrm2_eq0 hz i.
by have := full_inj hr hz i; rewrite !mxE => /eqP; rewrite subr_eq0 => /eqP.
Qed.

Lemma qr_normal (R : rcfType) rows cols c (A Q Rm : mat R) (b : 'M_(rows, c)) x :
  qr_of rows cols A Q Rm -> mxof cols cols Rm *m x = (mxof rows cols Q)^T *m b ->
  (mxof rows cols A)^T *m (mxof rows cols A *m x - b) = 0.
Proof.
case=> _ _ hq <- h; have z : (mxof rows cols Q)^T *m (mxof rows cols Q *m mxof cols cols Rm *m x - b) = 0.
  by rewrite mulmxBr !mulmxA hq mul1mx h subrr.
by rewrite trmx_mul -[_ *m (_ - _)]mulmxA z mulmx0.
Qed.

Theorem C38_least_squares (R : rcfType) (tmin tmax : R) (rows cols c : nat) (A b : mat R) :
  0 < tmin -> tmin <= tmax -> wf rows cols A -> (0 < cols <= rows)%N -> wf rows c b ->
  exists2 qr, decompose_qr tmin tmax rows cols A = Some qr &
  (\rank (mxof rows cols A) = cols ->
     exists2 x, qr_solve rows cols c qr b = Some x & wf cols c x /\
     forall (y : 'M_(cols, c)) (j : 'I_c),
       let err z := \sum_i (mxof rows cols A *m z - mxof rows c b) i j ^+ 2 in
       err (mxof cols c x) <= err y /\ (err y = err (mxof cols c x) -> forall i, y i j = get x i j)) /\
  (\rank (mxof rows cols A) <> cols -> qr_solve rows cols c qr b = None).
Proof.
move=> t0 tm w h wb; have [Q [Rm [e H]]] := qrP t0 tm w h; exists (Q, Rm) => //.
have r0 : (0 < rows)%N by case/andP: h; apply: leq_trans.
have := qr_solveP H r0 wb; case: eqP => // hr.
case=> x -> [wx _ hx]; split=> // _; exists x => //; split=> // y j /=.
have [h1 h2] := normal_min hr (qr_normal H hx) y j; split=> // /h2 h3 i; by rewrite h3 mxE.
Qed.
Print Assumptions C38_least_squares.

Theorem C38_exact (R : rcfType) (tmin tmax : R) (n c : nat) (A b : mat R) :
  0 < tmin -> tmin <= tmax -> wf n n A -> (0 < n)%N -> wf n c b -> mxof n n A \in unitmx ->
  exists2 qr, decompose_qr tmin tmax n n A = Some qr &
  exists2 x, qr_solve n n c qr b = Some x & wf n c x /\ mxof n n A *m mxof n c x = mxof n c b.
Proof.
move=> t0 tm w n0 wb uA; have [|Q [Rm [e H]]] := qrP t0 tm w; first by rewrite n0 leqnn.
exists (Q, Rm) => //; have := qr_solveP H n0 wb; rewrite mxrank_unit // eqxx.
case=> x -> [wx _ hx]; exists x => //; split=> //; case: H => _ _ hq <-.
by rewrite -mulmxA hx mulmxA (mulmx1C hq) mul1mx.
Qed.
Print Assumptions C38_exact.

(* Solve(Vector) *)
Lemma mxof_column (R : rcfType) rm (jk : R) n v : size v = n -> (0 < n)%N ->
  wf n 1 (ctor_vector rm jk n 1 v) /\ mxof n 1 (ctor_vector rm jk n 1 v) = \col_i nth 0 v i.
Proof.
move=> sv n0; have [||w _ g] := @ctor_vectorP _ rm jk n 1 v; rewrite ?(minn_idPr n0) ?(maxn_idPl n0) //.
by split=> //; apply/matrixP => i j; rewrite !mxE g // ord1 addn0 (set_nth_default 0) // sv.
Qed.
Lemma column_mxof (R : rcfType) n (x : mat R) : wf n 1 x -> (0 < n)%N ->
  size (to_vector n 1 x) = n /\ \col_i nth 0 (to_vector n 1 x) i = mxof n 1 x.
Proof.
move=> w n0; have [|s g] := to_vectorP 0 w; first exact/minn_idPr.
split; first by rewrite s (maxn_idPl n0).
by apply/matrixP => i j; rewrite !mxE ord1 -g // addn0.
Qed.

Theorem C38_least_squares_vector (R : rcfType) (tmin tmax : R) (rows cols : nat) (A : mat R) (b : seq R) :
  0 < tmin -> tmin <= tmax -> wf rows cols A -> (0 < cols <= rows)%N -> size b = rows ->
  exists2 qr, decompose_qr tmin tmax rows cols A = Some qr &
  \rank (mxof rows cols A) = cols ->
     exists2 x, qr_solve_vec rows cols qr b = Some x & size x = cols /\
     forall y : 'cV_cols,
       let err z := \sum_i ((mxof rows cols A *m z) i 0 - nth 0 b i) ^+ 2 in
       err (\col_i nth 0 x i) <= err y /\ (err y = err (\col_i nth 0 x i) -> y = \col_i nth 0 x i).
Proof.
move=> t0 tm w h sb; have [Q [Rm [e H]]] := qrP t0 tm w h; exists (Q, Rm) => // hr.
have r0 : (0 < rows)%N by case/andP: h; apply: leq_trans.
have [wb eb] := mxof_column (rowmaj Q) (junk Q) sb r0.
have := qr_solveP H r0 wb; rewrite hr eqxx => -[x ex [wx _ hx]].
have c0 : (0 < cols)%N by case/andP: h.
have [sx ev] := column_mxof wx c0.
exists (to_vector cols 1 x); first by rewrite /qr_solve_vec /= ex.
split=> // y /=; rewrite ev.
have ee z : \sum_i ((mxof rows cols A *m z) i 0 - nth 0 b i) ^+ 2 =
  \sum_i (mxof rows cols A *m z - \col_i nth 0 b i) i 0 ^+ 2.
  by apply: eq_bigr => i _; rewrite [in RHS]mxE; congr ((_ + _) ^+ 2); rewrite !mxE.
rewrite !ee; rewrite eb in hx; have [h1 h2] := normal_min hr (qr_normal H hx) y 0.
by split=> // /h2 h3; apply/matrixP => i j; rewrite ord1 h3.
Qed.
Print Assumptions C38_least_squares_vector.

Definition tall (R : rcfType) : mat R := ctor_elems false 0 3 2 [:: 1; 0; 0; 1; 1; 1].
Lemma tall_rank (R : rcfType) : \rank (mxof 3 2 (tall R)) = 2%N.
Proof.
apply/eqP; rewrite eqn_leq rank_leq_col /=.
pose L : 'M[R]_(2, 3) := \matrix_(i, j) (val i == val j)%:R.
have e : L *m mxof 3 2 (tall R) = 1%:M.
  apply/matrixP => i j; rewrite !mxE !big_ord_recr big_ord0 /= !mxE.
  by case: i j => [[|[|i]] hi] [[|[|j]] hj] //=; rewrite ?mul1r ?mul0r ?addr0 ?add0r.
by have := mxrankM_maxr L (mxof 3 2 (tall R)); rewrite e mxrank1.
Qed.
Example C38_example (R : rcfType) : wf 3 2 (tall R) /\ \rank (mxof 3 2 (tall R)) = 2%N.
Proof. by split=> //; apply: tall_rank. Qed.

(** * C39 Pseudoinverse *)
Theorem C39_pseudoinverse (R : rcfType) (tmin tmax : R) (rows cols : nat) (A : mat R) :
  0 < tmin -> tmin <= tmax -> wf rows cols A -> (0 < cols <= rows)%N ->
  exists2 qr, decompose_qr tmin tmax rows cols A = Some qr &
  (\rank (mxof rows cols A) = cols ->
     exists2 P, qr_inverse rows cols qr = Some P & wf cols rows P /\
     let a := mxof rows cols A in let p := mxof cols rows P in
     [/\ a *m p *m a = a, p *m a *m p = p, (a *m p)^T = a *m p & (p *m a)^T = p *m a]) /\
  (\rank (mxof rows cols A) <> cols -> qr_inverse rows cols qr = None).
Proof.
move=> t0 tm w h; have [Q [Rm [e H]]] := qrP t0 tm w h; exists (Q, Rm) => //.
have c0 : (0 < cols)%N by case/andP: h.
have := qr_inverseP H c0; case: eqP => // hr [P -> [wP _ hP]]; split=> // _; exists P => //; split=> //=.
have uR : mxof cols cols Rm \in unitmx by rewrite (qr_rank H) hr.
case: H => _ _ hq hA.
have pa : mxof cols rows P *m mxof rows cols A = 1%:M.
  by apply: (can_inj (mulKmx uR)); rewrite mulmxA hP mulmx1 -hA mulmxA hq mul1mx.
have ap : mxof rows cols A *m mxof cols rows P = mxof rows cols Q *m (mxof rows cols Q)^T.
  by rewrite -hA -mulmxA hP.
by split; [rewrite -mulmxA pa mulmx1|rewrite pa mul1mx|rewrite ap trmx_mul trmxK|rewrite pa trmx1].
Qed.
Print Assumptions C39_pseudoinverse.

Theorem C39_inverse (R : rcfType) (tmin tmax : R) (n : nat) (A : mat R) :
  0 < tmin -> tmin <= tmax -> wf n n A -> (0 < n)%N -> mxof n n A \in unitmx ->
  exists2 qr, decompose_qr tmin tmax n n A = Some qr &
  exists2 P, qr_inverse n n qr = Some P & wf n n P /\ mxof n n P = invmx (mxof n n A).
Proof.
move=> t0 tm w n0 uA; have [|qr e [H _]] := @C39_pseudoinverse R tmin tmax n n A t0 tm w; first by rewrite n0 leqnn.
exists qr => //; have [|P eP [wP [h1 _ _ _]]] := H; first by rewrite mxrank_unit.
exists P => //; split=> //; apply: (can_inj (mulKmx uA)); rewrite mulmxV //.
by apply: (can_inj (mulmxK uA)); rewrite h1 mul1mx.
Qed.
Print Assumptions C39_inverse.

Example C39_example (R : rcfType) (tmin tmax : R) : 0 < tmin -> tmin <= tmax ->
  exists2 qr, decompose_qr tmin tmax 3 2 (tall R) = Some qr & qr_inverse 3 2 qr.
Proof.
move=> h1 h2; have [//|qr e [H _]] := @C39_pseudoinverse R tmin tmax 3 2 (tall R) h1 h2 isT.
by exists qr => //; have [P -> _] := H (tall_rank R).
Qed.

(** * C40 LQ *)
Lemma lqP (R : rcfType) (tmin tmax : R) (rows cols : nat) (A : mat R) :
  0 < tmin -> tmin <= tmax -> wf rows cols A -> (0 < rows <= cols)%N ->
  exists L Q, [/\ decompose_lq tmin tmax rows cols A = Some (L, Q), wf rows rows L, wf rows cols Q &
    qr_of cols rows (flip_layout_and_order rows cols A)
        (flip_layout_and_order rows cols Q) (flip_layout_and_order rows rows L)].
Proof.
move=> t0 tm w h; have [wf _ _ _] := flip_layout_and_orderP w.
have [Q [Rm [e [[h1 h2 h3 h4] h5 h6 h7]]]] := qrP t0 tm wf h.
rewrite /decompose_lq e; do 2!eexists.
have [w1 e1 _ g1] := flip_layout_and_orderP h1; have [w2 e2 _ g2] := flip_layout_and_orderP h2.
split; [by reflexivity|by []|by []|].
have [w3 e3 _ g3] := flip_layout_and_orderP w1; have [w4 e4 _ g4] := flip_layout_and_orderP w2.
split; first by split; rewrite // ?e3 ?e1 ?e4 ?e2 negbK.
- by move=> i l hi li; have hl := ltn_trans li hi; rewrite g4 // g2 // h5.
- by rewrite !mxof_flip // !trmxK.
- by rewrite !mxof_flip // !trmxK h7 mxof_flip.
Qed.

Theorem C40_lq (R : rcfType) (tmin tmax : R) (rows cols : nat) (A : mat R) :
  0 < tmin -> tmin <= tmax -> wf rows cols A -> (0 < rows <= cols)%N ->
  exists L Q, decompose_lq tmin tmax rows cols A = Some (L, Q) /\
  [/\ wf rows rows L /\ wf rows cols Q,
      forall i j, (i < j < rows)%N -> get L i j = 0,
      mxof rows cols Q *m (mxof rows cols Q)^T = 1%:M &
      mxof rows rows L *m mxof rows cols Q = mxof rows cols A].
Proof.
move=> t0 tm w h; have [L [Q [e w1 w2 [_ hu hq hA]]]] := lqP t0 tm w h.
exists L, Q; split=> //; rewrite !mxof_flip // in hq hA; split=> //.
- move=> i j /andP [ij jr]; have [_ _ _ g] := flip_layout_and_orderP w1.
  by rewrite -g ?(ltn_trans ij jr) // hu.
- by rewrite trmxK in hq.
- by apply: trmx_inj; rewrite trmx_mul.
Qed.
Print Assumptions C40_lq.

(* the decomposition of A is the transpose of the QR decomposition of the transpose of A *)
Theorem C40_transpose (R : rcfType) (tmin tmax : R) (rows cols : nat) (A B : mat R) :
  0 < tmin -> tmin <= tmax -> wf rows cols A -> wf cols rows B -> (0 < rows <= cols)%N ->
  rowmaj B = ~~ rowmaj A -> stripes B = stripes A -> junk B = junk A ->
  mxof cols rows B = (mxof rows cols A)^T /\
  exists L Q Q' Rm, [/\ decompose_lq tmin tmax rows cols A = Some (L, Q),
    decompose_qr tmin tmax cols rows B = Some (Q', Rm),
    mxof rows rows L = (mxof rows rows Rm)^T & mxof rows cols Q = (mxof cols rows Q')^T].
Proof.
move=> t0 tm w wB h e1 e2 e3.
have -> : B = flip_layout_and_order rows cols A.
  rewrite /flip_layout_and_order /convert_order; case: B A w {wB} e1 e2 e3 => rm jk st [rm' jk' st'] /= w -> -> ->.
  case: ifP => [_|]; last by case: rm' {w}.
  congr Mat; have := wf_count w; rewrite /= => sz.
  have -> : stripe_count (~~ rm') cols rows = size st' by rewrite sz; case: rm' {w sz}.
  by apply: (@eq_from_nth _ [::]); rewrite ?size_map ?size_iota // => i hi; rewrite (nth_map 0%N) ?size_iota // nth_iota.
split; first by rewrite mxof_flip.
have [w' _ _ _] := flip_layout_and_orderP w.
have [Q [Rm [e [[h1 h2 h3 h4] _ _ _]]]] := qrP t0 tm w' h.
rewrite /decompose_lq e; exists (flip_layout_and_order rows rows Rm), (flip_layout_and_order cols rows Q), Q, Rm.
by split; rewrite ?mxof_flip.
Qed.
Print Assumptions C40_transpose.

(* X A = b, least squares, row by row. The parameter of Solve(Matrix) is declared with Rows columns
   and so is only usable when Rows = Columns: hypothesis rows = cols for the code as written *)
Theorem C40_solve (R : rcfType) (tmin tmax : R) (rows cols r2 : nat) (A b : mat R) :
  0 < tmin -> tmin <= tmax -> wf rows cols A -> (0 < rows <= cols)%N -> wf r2 cols b ->
  exists2 lq, decompose_lq tmin tmax rows cols A = Some lq &
  (\rank (mxof rows cols A) = rows ->
     exists2 x, lq_solve rows cols r2 lq b = Some x & wf r2 rows x /\
     forall (y : 'M_(r2, rows)) (i : 'I_r2),
       let err z := \sum_j (z *m mxof rows cols A - mxof r2 cols b) i j ^+ 2 in
       err (mxof r2 rows x) <= err y /\ (err y = err (mxof r2 rows x) -> forall j, y i j = get x i j)) /\
  (\rank (mxof rows cols A) <> rows -> lq_solve rows cols r2 lq b = None).
Proof.
move=> t0 tm w h wb; have [L [Q [e wL wQ H]]] := lqP t0 tm w h; exists (L, Q) => //.
have c0 : (0 < cols)%N by case/andP: h; apply: leq_trans.
have [wfb _ _ _] := flip_layout_and_orderP wb.
have := qr_solveP H c0 wfb; rewrite mxof_flip // mxrank_tr /lq_solve /lq_flip /=; case: eqP => [hr|_ -> //].
case=> x -> [wx _ hx]; split=> // _; exists (flip_layout_and_order rows r2 x) => //=.
have [wfx _ _ gx] := flip_layout_and_orderP wx; split=> // y i.
have hn := qr_normal H hx.
have [|h1 h2] := normal_min _ hn y^T i; first by rewrite mxof_flip // mxrank_tr.
have er z : \sum_j (z *m mxof rows cols A - mxof r2 cols b) i j ^+ 2 =
  \sum_j (mxof cols rows (flip_layout_and_order rows cols A) *m z^T - mxof cols r2 (flip_layout_and_order r2 cols b)) j i ^+ 2.
  by rewrite !mxof_flip // -trmx_mul -linearB /=; apply: eq_bigr => j _; rewrite [in RHS]mxE.
rewrite /= !er (mxof_flip wx) trmxK; split=> // /h2 h3 j.
by have := h3 j; rewrite mxE => ->; rewrite gx // mxE.
Qed.
Print Assumptions C40_solve.

Theorem C40_solve_vector (R : rcfType) (tmin tmax : R) (rows cols : nat) (A : mat R) (b : seq R) :
  0 < tmin -> tmin <= tmax -> wf rows cols A -> (0 < rows <= cols)%N -> size b = cols ->
  exists2 lq, decompose_lq tmin tmax rows cols A = Some lq &
  \rank (mxof rows cols A) = rows ->
     exists2 x, lq_solve_vec rows cols lq b = Some x & size x = rows /\
     forall y : 'rV_rows,
       let err z := \sum_j ((z *m mxof rows cols A) 0 j - nth 0 b j) ^+ 2 in
       err (rv rows x) <= err y /\ (err y = err (rv rows x) -> y = rv rows x).
Proof.
move=> t0 tm w h sb; have [L [Q [e wL wQ H]]] := lqP t0 tm w h; exists (L, Q) => // hr.
have c0 : (0 < cols)%N by case/andP: h; apply: leq_trans.
have r0 : (0 < rows)%N by case/andP: h.
rewrite /lq_solve_vec /lq_flip /qr_solve_vec /=.
set Qf := flip_layout_and_order _ _ Q; set Lf := flip_layout_and_order _ _ L.
have [wb eb] := mxof_column (rowmaj Qf) (junk Qf) sb c0.
have := qr_solveP H c0 wb; rewrite mxof_flip // mxrank_tr hr eqxx => -[x ex [wx _ hx]].
have [sx ev] := column_mxof wx r0.
exists (to_vector rows 1 x); first by rewrite ex.
split=> // y; rewrite eb in hx; have hn := qr_normal H hx.
have [|h1 h2] := normal_min _ hn y^T 0; first by rewrite mxof_flip // mxrank_tr.
have er z : \sum_j ((z *m mxof rows cols A) 0 j - nth 0 b j) ^+ 2 =
  \sum_j (mxof cols rows (flip_layout_and_order rows cols A) *m z^T - \col_i nth 0 b i) j 0 ^+ 2.
  rewrite mxof_flip // -trmx_mul; apply: eq_bigr => j _; rewrite [in RHS]mxE; congr ((_ + _) ^+ 2).
    by rewrite [in RHS]mxE.
  by rewrite !mxE.
have et : (rv rows (to_vector rows 1 x))^T = mxof rows 1 x by rewrite -ev; apply/matrixP => i j; rewrite !mxE.
rewrite /= !er et; split=> // /h2 h3; apply: trmx_inj; rewrite et.
by apply/matrixP => i j; rewrite ord1 h3.
Qed.
Print Assumptions C40_solve_vector.

Theorem C40_pseudoinverse (R : rcfType) (tmin tmax : R) (rows cols : nat) (A : mat R) :
  0 < tmin -> tmin <= tmax -> wf rows cols A -> (0 < rows <= cols)%N ->
  exists2 lq, decompose_lq tmin tmax rows cols A = Some lq &
  (\rank (mxof rows cols A) = rows ->
     exists2 P, lq_inverse rows cols lq = Some P & wf cols rows P /\
     let a := mxof rows cols A in let p := mxof cols rows P in
     [/\ a *m p *m a = a, p *m a *m p = p, (a *m p)^T = a *m p & (p *m a)^T = p *m a]) /\
  (\rank (mxof rows cols A) <> rows -> lq_inverse rows cols lq = None).
Proof.
move=> t0 tm w h; have [L [Q [e wL wQ H]]] := lqP t0 tm w h; exists (L, Q) => //.
have r0 : (0 < rows)%N by case/andP: h.
have rf := qr_rank H; have := qr_inverseP H r0; rewrite mxof_flip // mxrank_tr /lq_inverse /lq_flip /=.
case: eqP => [hr|_ -> //] [P -> [wP _ hP]]; split=> // _.
have [wfP _ _ _] := flip_layout_and_orderP wP.
exists (flip_layout_and_order rows cols P) => //; split=> //=; rewrite mxof_flip //.
rewrite (mxof_flip w) mxrank_tr hr eqxx in rf.
case: H => _ _; rewrite !mxof_flip // in hP rf *; rewrite trmxK => hq hA.
have ap : mxof rows cols A *m (mxof rows cols P)^T = 1%:M.
  apply: trmx_inj; rewrite trmx_mul trmxK trmx1; apply: (can_inj (mulKmx rf)).
  by rewrite mulmxA hP mulmx1 -hA trmxK mulmxA hq mul1mx.
have pa : (mxof rows cols P)^T *m mxof rows cols A = (mxof rows cols Q)^T *m mxof rows cols Q.
  by apply: trmx_inj; rewrite !trmx_mul !trmxK -hA -mulmxA hP trmxK.
by split; [rewrite ap mul1mx|rewrite -mulmxA ap mulmx1|rewrite ap trmx1|rewrite pa trmx_mul trmxK].
Qed.
Print Assumptions C40_pseudoinverse.

(* the selected decomposition is always applicable to the shape of the matrix, and QR / LQ is
   selected for square matrices of order PRECEDE / FOLLOW, the ones its Solve functions accept *)
Theorem C40_selection (precede : bool) (rows cols : nat) :
  (qr_or_lq precede rows cols -> (cols <= rows)%N) /\ (~~ qr_or_lq precede rows cols -> (rows <= cols)%N) /\
  (rows = cols -> qr_or_lq precede rows cols = precede).
Proof.
rewrite /qr_or_lq; case: eqP => [->|/eqP ne]; first by rewrite !leqnn.
by split; [apply: ltnW|split=> [|/eqP]; rewrite -?leqNgt // (negbTE ne)].
Qed.
Print Assumptions C40_selection.

Example C40_example (R : rcfType) (tmin tmax : R) : 0 < tmin -> tmin <= tmax ->
  decompose_lq tmin tmax 2 3 (ctor_elems true 0 2 3 [:: 1; 2%:R; 3%:R; 2%:R; 4%:R; 6%:R]).
Proof.
move=> h1 h2.
by have [Q [L [-> _]]] := @C40_lq R tmin tmax 2 3 (ctor_elems true 0 2 3 [:: 1; 2%:R; 3%:R; 2%:R; 4%:R; 6%:R]) h1 h2 isT isT.
Qed.
