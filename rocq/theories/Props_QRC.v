(* Property C84: QR and LQ decompositions of complex matrices (exact arithmetic over R[i]).
   [tmin], [tmax]: the smallest and largest positive normal numbers of the real type.
   [hermx A] is the conjugate transpose: entry (i, j) is the conjugate of entry (j, i) of A. *)
From mathcomp Require Import all_ssreflect all_algebra.
From mathcomp Require Import ring complex.
From Verif Require Import Spec M_Vec P_Vec M_Mat P_Mat P_Mat2 M_LU P_Tri P_LU P_LU2 M_Complex P_Complex M_QRC P_QRC.
Set Implicit Arguments. Unset Strict Implicit. Unset Printing Implicit Defensive.
Import Order.Theory GRing.Theory Num.Theory.
Local Open Scope complex_scope.
Local Open Scope ring_scope.

(* |z|^2 *)
Local Notation sqm z := (complex.Re z ^+ 2 + complex.Im z ^+ 2).

(** * QR *)
Theorem C84_qr (R : rcfType) (tmin tmax : R) (rows cols : nat) (A : mat R[i]) :
  0 < tmin -> tmin <= tmax -> wf rows cols A -> (0 < cols <= rows)%N ->
  exists Q Rm, decompose_qr_c tmin tmax rows cols A = Some (Q, Rm) /\
  [/\ wf rows cols Q /\ wf cols cols Rm,
      forall i j, (j < i < cols)%N -> get Rm i j = 0,
      hermx (mxof rows cols Q) *m mxof rows cols Q = 1%:M &
      mxof rows cols Q *m mxof cols cols Rm = mxof rows cols A].
Proof.
move=> t0 tm w h; have [Q [Rm [e [[h1 h2 _ _] h3 h4 h5]]]] := qr_cP t0 tm w h.
by exists Q, Rm; split=> //; split=> // i j /andP [ji ic]; apply: h3.
Qed.
Print Assumptions C84_qr.

(* the rank one matrix [1 i; i -1] and the zero matrix *)
Example C84_example (R : rcfType) (tmin tmax : R) : 0 < tmin -> tmin <= tmax ->
  decompose_qr_c tmin tmax 2 2 (ctor_elems true 0 2 2 [:: 1; ('i)%C; ('i)%C; -1]) /\
  decompose_qr_c tmin tmax 3 2 (ctor_elems true 0 3 2 [:: 0; 0; 0; 0; 0; 0]).
Proof.
move=> h1 h2; split.
  by have [Q [Rm [-> _]]] := @C84_qr R tmin tmax 2 2 (ctor_elems true 0 2 2 [:: 1; ('i)%C; ('i)%C; -1]) h1 h2 isT isT.
by have [Q [Rm [-> _]]] := @C84_qr R tmin tmax 3 2 (ctor_elems true 0 3 2 [:: 0; 0; 0; 0; 0; 0]) h1 h2 isT isT.
Qed.

(** * Least squares *)
Lemma full_inj_c (F : fieldType) rows cols c (A : 'M[F]_(rows, cols)) (d : 'M_(cols, c)) j :
  \rank A = cols -> (forall i, (A *m d) i j = 0) -> forall i, d i j = 0.
Proof.
move=> h hz i; have hf : row_free A^T by rewrite /row_free mxrank_tr h.
have : (col j d)^T *m A^T = 0.
  rewrite -trmx_mul colE mulmxA -colE; apply/matrixP => a l; rewrite !ord1 !mxE.
  by have := hz l; rewrite mxE.
by move=> e; have /matrixP /(_ 0 i) := row_free_inj hf (etrans e (esym (mul0mx _ _))); rewrite !mxE.
Qed.

Lemma normal_min_c (R : rcfType) rows cols c (A : 'M[R[i]]_(rows, cols)) (b : 'M_(rows, c)) x :
  \rank A = cols -> hermx A *m (A *m x - b) = 0 ->
  forall (y : 'M_(cols, c)) j,
    \sum_i sqm ((A *m x - b) i j) <= \sum_i sqm ((A *m y - b) i j) /\
    (\sum_i sqm ((A *m y - b) i j) = \sum_i sqm ((A *m x - b) i j) -> forall i, y i j = x i j).
Proof.
move=> hr hn y j; have := least_squares_c y j hn; rewrite /nrm2c => ->.
have h0 := nrm2c_ge0 (A *m (y - x)) j; rewrite /nrm2c in h0; split; first by rewrite ler_addl.
move=> /eqP; rewrite -subr_eq0 addrAC subrr add0r => /eqP /nrm2c_eq0 hz i.
by have := full_inj_c hr hz i; rewrite !mxE => /eqP; rewrite subr_eq0 => /eqP.
Qed.

Lemma qr_normal_c (R : rcfType) rows cols c (A Q Rm : mat R[i]) (b : 'M_(rows, c)) x :
  qr_of_c rows cols A Q Rm -> mxof cols cols Rm *m x = hermx (mxof rows cols Q) *m b ->
  hermx (mxof rows cols A) *m (mxof rows cols A *m x - b) = 0.
Proof.
case=> _ _ hq <- h; have z : hermx (mxof rows cols Q) *m (mxof rows cols Q *m mxof cols cols Rm *m x - b) = 0.
  by rewrite mulmxBr !mulmxA hq mul1mx h subrr.
by rewrite hermx_mul -[_ *m (_ - _)]mulmxA z mulmx0.
Qed.

Theorem C84_least_squares (R : rcfType) (tmin tmax : R) (rows cols c : nat) (A b : mat R[i]) :
  0 < tmin -> tmin <= tmax -> wf rows cols A -> (0 < cols <= rows)%N -> wf rows c b ->
  exists2 qr, decompose_qr_c tmin tmax rows cols A = Some qr &
  (\rank (mxof rows cols A) = cols ->
     exists2 x, qr_solve_c rows cols c qr b = Some x & wf cols c x /\
     forall (y : 'M_(cols, c)) (j : 'I_c),
       let err z := \sum_i sqm ((mxof rows cols A *m z - mxof rows c b) i j) in
       err (mxof cols c x) <= err y /\ (err y = err (mxof cols c x) -> forall i, y i j = get x i j)) /\
  (\rank (mxof rows cols A) <> cols -> qr_solve_c rows cols c qr b = None).
Proof.
move=> t0 tm w h wb; have [Q [Rm [e H]]] := qr_cP t0 tm w h; exists (Q, Rm) => //.
have r0 : (0 < rows)%N by case/andP: h; apply: leq_trans.
have := qr_solve_cP H r0 wb; case: eqP => // hr.
case=> x -> [wx _ hx]; split=> // _; exists x => //; split=> // y j /=.
have [h1 h2] := normal_min_c hr (qr_normal_c H hx) y j; split=> // /h2 h3 i; by rewrite h3 mxE.
Qed.
Print Assumptions C84_least_squares.

Theorem C84_exact (R : rcfType) (tmin tmax : R) (n c : nat) (A b : mat R[i]) :
  0 < tmin -> tmin <= tmax -> wf n n A -> (0 < n)%N -> wf n c b -> mxof n n A \in unitmx ->
  exists2 qr, decompose_qr_c tmin tmax n n A = Some qr &
  exists2 x, qr_solve_c n n c qr b = Some x & wf n c x /\ mxof n n A *m mxof n c x = mxof n c b.
Proof.
move=> t0 tm w n0 wb uA; have [|Q [Rm [e H]]] := qr_cP t0 tm w; first by rewrite n0 leqnn.
exists (Q, Rm) => //; have := qr_solve_cP H n0 wb; rewrite mxrank_unit // eqxx.
case=> x -> [wx _ hx]; exists x => //; split=> //; case: H => _ _ hq <-.
by rewrite -mulmxA hx mulmxA (mulmx1C hq) mul1mx.
Qed.
Print Assumptions C84_exact.

(* Solve(Vector) *)
Lemma mxof_column_c (F : ringType) rm (jk : F) n v : size v = n -> (0 < n)%N ->
  wf n 1 (ctor_vector rm jk n 1 v) /\ mxof n 1 (ctor_vector rm jk n 1 v) = \col_i nth 0 v i.
Proof.
move=> sv n0; have [||w _ g] := @ctor_vectorP _ rm jk n 1 v; rewrite ?(minn_idPr n0) ?(maxn_idPl n0) //.
by split=> //; apply/matrixP => i j; rewrite !mxE g // ord1 addn0 (set_nth_default 0) // sv.
Qed.
Lemma column_mxof_c (F : ringType) n (x : mat F) : wf n 1 x -> (0 < n)%N ->
  size (to_vector n 1 x) = n /\ \col_i nth 0 (to_vector n 1 x) i = mxof n 1 x.
Proof.
move=> w n0; have [|s g] := to_vectorP 0 w; first exact/minn_idPr.
split; first by rewrite s (maxn_idPl n0).
by apply/matrixP => i j; rewrite !mxE ord1 -g // addn0.
Qed.

Theorem C84_least_squares_vector (R : rcfType) (tmin tmax : R) (rows cols : nat) (A : mat R[i]) (b : seq R[i]) :
  0 < tmin -> tmin <= tmax -> wf rows cols A -> (0 < cols <= rows)%N -> size b = rows ->
  exists2 qr, decompose_qr_c tmin tmax rows cols A = Some qr &
  \rank (mxof rows cols A) = cols ->
     exists2 x, qr_solve_vec_c rows cols qr b = Some x & size x = cols /\
     forall y : 'cV_cols,
       let err z := \sum_i sqm ((mxof rows cols A *m z) i 0 - nth 0 b i) in
       err (\col_i nth 0 x i) <= err y /\ (err y = err (\col_i nth 0 x i) -> y = \col_i nth 0 x i).
Proof.
move=> t0 tm w h sb; have [Q [Rm [e H]]] := qr_cP t0 tm w h; exists (Q, Rm) => // hr.
have r0 : (0 < rows)%N by case/andP: h; apply: leq_trans.
have [wb eb] := mxof_column_c (rowmaj Q) (junk Q) sb r0.
have := qr_solve_cP H r0 wb; rewrite hr eqxx => -[x ex [wx _ hx]].
have c0 : (0 < cols)%N by case/andP: h.
have [sx ev] := column_mxof_c wx c0.
exists (to_vector cols 1 x); first by rewrite /qr_solve_vec_c /= ex.
split=> // y; cbv zeta; rewrite ev.
have ee z : \sum_i sqm ((mxof rows cols A *m z) i 0 - nth 0 b i) =
  \sum_i sqm ((mxof rows cols A *m z - \col_i nth 0 b i) i 0).
  by apply: eq_bigr => i _; rewrite [(_ - \col_i _) i 0]mxE [(- \col_i _) i 0]mxE [(\col_i _) i 0]mxE.
rewrite !ee; rewrite eb in hx; have [h1 h2] := normal_min_c hr (qr_normal_c H hx) y 0.
by split=> // /h2 h3; apply/matrixP => i j; rewrite ord1 h3.
Qed.
Print Assumptions C84_least_squares_vector.

(** * Pseudoinverse: the four Penrose conditions with the conjugate transpose *)
Theorem C84_pseudoinverse (R : rcfType) (tmin tmax : R) (rows cols : nat) (A : mat R[i]) :
  0 < tmin -> tmin <= tmax -> wf rows cols A -> (0 < cols <= rows)%N ->
  exists2 qr, decompose_qr_c tmin tmax rows cols A = Some qr &
  (\rank (mxof rows cols A) = cols ->
     exists2 P, qr_inverse_c rows cols qr = Some P & wf cols rows P /\
     let a := mxof rows cols A in let p := mxof cols rows P in
     [/\ a *m p *m a = a, p *m a *m p = p, hermx (a *m p) = a *m p & hermx (p *m a) = p *m a]) /\
  (\rank (mxof rows cols A) <> cols -> qr_inverse_c rows cols qr = None).
Proof.
move=> t0 tm w h; have [Q [Rm [e H]]] := qr_cP t0 tm w h; exists (Q, Rm) => //.
have c0 : (0 < cols)%N by case/andP: h.
have := qr_inverse_cP H c0; case: eqP => // hr [P -> [wP _ hP]]; split=> // _; exists P => //; split=> //=.
have uR : mxof cols cols Rm \in unitmx by rewrite (qr_rank_c H) hr.
case: H => _ _ hq hA.
have pa : mxof cols rows P *m mxof rows cols A = 1%:M.
  by apply: (can_inj (mulKmx uR)); rewrite mulmxA hP mulmx1 -hA mulmxA hq mul1mx.
have ap : mxof rows cols A *m mxof cols rows P = mxof rows cols Q *m hermx (mxof rows cols Q).
  by rewrite -hA -mulmxA hP.
by split; [rewrite -mulmxA pa mulmx1|rewrite pa mul1mx|rewrite ap hermx_mul hermxK|rewrite pa hermx1].
Qed.
Print Assumptions C84_pseudoinverse.

Theorem C84_inverse (R : rcfType) (tmin tmax : R) (n : nat) (A : mat R[i]) :
  0 < tmin -> tmin <= tmax -> wf n n A -> (0 < n)%N -> mxof n n A \in unitmx ->
  exists2 qr, decompose_qr_c tmin tmax n n A = Some qr &
  exists2 P, qr_inverse_c n n qr = Some P & wf n n P /\ mxof n n P = invmx (mxof n n A).
Proof.
move=> t0 tm w n0 uA; have [|qr e [H _]] := @C84_pseudoinverse R tmin tmax n n A t0 tm w; first by rewrite n0 leqnn.
exists qr => //; have [|P eP [wP [h1 _ _ _]]] := H; first by rewrite mxrank_unit.
exists P => //; split=> //; apply: (can_inj (mulKmx uA)); rewrite mulmxV //.
by apply: (can_inj (mulmxK uA)); rewrite h1 mul1mx.
Qed.
Print Assumptions C84_inverse.

Definition tall_c (R : rcfType) : mat R[i] := ctor_elems false 0 3 2 [:: ('i)%C; 0; 0; ('i)%C; 1; ('i)%C].
Lemma tall_c_rank (R : rcfType) : \rank (mxof 3 2 (tall_c R)) = 2%N.
Proof.
apply/eqP; rewrite eqn_leq rank_leq_col /=.
pose L : 'M[R[i]]_(2, 3) := \matrix_(i, j) ((- 'i)%C * (val i == val j)%:R).
have e : L *m mxof 3 2 (tall_c R) = 1%:M.
  have hi : (- 'i)%C * ('i)%C = 1 :> R[i] by rewrite mulNr -expr2 sqr_i opprK.
  apply/matrixP => i j; rewrite !mxE !big_ord_recr big_ord0 /= !mxE.
  by case: i j => [[|[|i]] Hi] [[|[|j]] Hj] //=; rewrite ?mulr1 ?mulr0 ?mul0r ?addr0 ?add0r.
by have := mxrankM_maxr L (mxof 3 2 (tall_c R)); rewrite e mxrank1.
Qed.
Example C84_pseudoinverse_example (R : rcfType) (tmin tmax : R) : 0 < tmin -> tmin <= tmax ->
  exists2 qr, decompose_qr_c tmin tmax 3 2 (tall_c R) = Some qr & qr_inverse_c 3 2 qr.
Proof.
move=> h1 h2; have [//|qr e [H _]] := @C84_pseudoinverse R tmin tmax 3 2 (tall_c R) h1 h2 isT.
by exists qr => //; have [P -> _] := H (tall_c_rank R).
Qed.

(** * LQ *)
Lemma hermx_flip (R : rcfType) m n (A : 'M[R[i]]_(m, n)) : hermx A^T *m A^T = (A *m hermx A)^T.
Proof. by rewrite trmx_mul hermx_tr. Qed.

Lemma lq_cP (R : rcfType) (tmin tmax : R) (rows cols : nat) (A : mat R[i]) :
  0 < tmin -> tmin <= tmax -> wf rows cols A -> (0 < rows <= cols)%N ->
  exists L Q, [/\ decompose_lq_c tmin tmax rows cols A = Some (L, Q), wf rows rows L, wf rows cols Q &
    qr_of_c cols rows (flip_layout_and_order rows cols A)
        (flip_layout_and_order rows cols Q) (flip_layout_and_order rows rows L)].
Proof.
move=> t0 tm w h; have [wf _ _ _] := flip_layout_and_orderP w.
have [Q [Rm [e [[h1 h2 h3 h4] h5 h6 h7]]]] := qr_cP t0 tm wf h.
rewrite /decompose_lq_c e; do 2!eexists.
have [w1 e1 _ g1] := flip_layout_and_orderP h1; have [w2 e2 _ g2] := flip_layout_and_orderP h2.
split; [by reflexivity|by []|by []|].
have [w3 e3 _ g3] := flip_layout_and_orderP w1; have [w4 e4 _ g4] := flip_layout_and_orderP w2.
split; first by split; rewrite // ?e3 ?e1 ?e4 ?e2 negbK.
- by move=> i l hi li; have hl := ltn_trans li hi; rewrite g4 // g2 // h5.
- by rewrite !mxof_flip // !trmxK.
- by rewrite !mxof_flip // !trmxK h7 mxof_flip.
Qed.

Theorem C84_lq (R : rcfType) (tmin tmax : R) (rows cols : nat) (A : mat R[i]) :
  0 < tmin -> tmin <= tmax -> wf rows cols A -> (0 < rows <= cols)%N ->
  exists L Q, decompose_lq_c tmin tmax rows cols A = Some (L, Q) /\
  [/\ wf rows rows L /\ wf rows cols Q,
      forall i j, (i < j < rows)%N -> get L i j = 0,
      mxof rows cols Q *m hermx (mxof rows cols Q) = 1%:M &
      mxof rows rows L *m mxof rows cols Q = mxof rows cols A].
Proof.
move=> t0 tm w h; have [L [Q [e w1 w2 [_ hu hq hA]]]] := lq_cP t0 tm w h.
exists L, Q; split=> //; rewrite !mxof_flip // in hq hA; split=> //.
- move=> i j /andP [ij jr]; have [_ _ _ g] := flip_layout_and_orderP w1.
  by rewrite -g ?(ltn_trans ij jr) // hu.
- by apply: trmx_inj; rewrite -hermx_flip hq trmx1.
- by apply: trmx_inj; rewrite trmx_mul.
Qed.
Print Assumptions C84_lq.

(* X A = b, least squares, row by row *)
Theorem C84_lq_solve (R : rcfType) (tmin tmax : R) (rows cols r2 : nat) (A b : mat R[i]) :
  0 < tmin -> tmin <= tmax -> wf rows cols A -> (0 < rows <= cols)%N -> wf r2 cols b ->
  exists2 lq, decompose_lq_c tmin tmax rows cols A = Some lq &
  (\rank (mxof rows cols A) = rows ->
     exists2 x, lq_solve_c rows cols r2 lq b = Some x & wf r2 rows x /\
     forall (y : 'M_(r2, rows)) (i : 'I_r2),
       let err z := \sum_j sqm ((z *m mxof rows cols A - mxof r2 cols b) i j) in
       err (mxof r2 rows x) <= err y /\ (err y = err (mxof r2 rows x) -> forall j, y i j = get x i j)) /\
  (\rank (mxof rows cols A) <> rows -> lq_solve_c rows cols r2 lq b = None).
Proof.
move=> t0 tm w h wb; have [L [Q [e wL wQ H]]] := lq_cP t0 tm w h; exists (L, Q) => //.
have c0 : (0 < cols)%N by case/andP: h; apply: leq_trans.
have [wfb _ _ _] := flip_layout_and_orderP wb.
have := qr_solve_cP H c0 wfb; rewrite mxof_flip // mxrank_tr /lq_solve_c /lq_flip_c /=; case: eqP => [hr|_ -> //].
case=> x -> [wx _ hx]; split=> // _; exists (flip_layout_and_order rows r2 x) => //=.
have [wfx _ _ gx] := flip_layout_and_orderP wx; split=> // y i.
have hn := qr_normal_c H hx.
have [|h1 h2] := normal_min_c _ hn y^T i; first by rewrite mxof_flip // mxrank_tr.
have er z : \sum_j sqm ((z *m mxof rows cols A - mxof r2 cols b) i j) =
  \sum_j sqm ((mxof cols rows (flip_layout_and_order rows cols A) *m z^T - mxof cols r2 (flip_layout_and_order r2 cols b)) j i).
  by rewrite !mxof_flip // -trmx_mul -linearB /=; apply: eq_bigr => j _; rewrite [((_ - _)^T) j i]mxE.
cbv zeta; rewrite !er (mxof_flip wx) trmxK; split=> // /h2 h3 j.
by have := h3 j; rewrite mxE => ->; rewrite gx // mxE.
Qed.
Print Assumptions C84_lq_solve.

Theorem C84_lq_solve_vector (R : rcfType) (tmin tmax : R) (rows cols : nat) (A : mat R[i]) (b : seq R[i]) :
  0 < tmin -> tmin <= tmax -> wf rows cols A -> (0 < rows <= cols)%N -> size b = cols ->
  exists2 lq, decompose_lq_c tmin tmax rows cols A = Some lq &
  \rank (mxof rows cols A) = rows ->
     exists2 x, lq_solve_vec_c rows cols lq b = Some x & size x = rows /\
     forall y : 'rV_rows,
       let err z := \sum_j sqm ((z *m mxof rows cols A) 0 j - nth 0 b j) in
       err (rv rows x) <= err y /\ (err y = err (rv rows x) -> y = rv rows x).
Proof.
move=> t0 tm w h sb; have [L [Q [e wL wQ H]]] := lq_cP t0 tm w h; exists (L, Q) => // hr.
have c0 : (0 < cols)%N by case/andP: h; apply: leq_trans.
have r0 : (0 < rows)%N by case/andP: h.
rewrite /lq_solve_vec_c /lq_flip_c /qr_solve_vec_c /=.
set Qf := flip_layout_and_order _ _ Q; set Lf := flip_layout_and_order _ _ L.
have [wb eb] := mxof_column_c (rowmaj Qf) (junk Qf) sb c0.
have := qr_solve_cP H c0 wb; rewrite mxof_flip // mxrank_tr hr eqxx => -[x ex [wx _ hx]].
have [sx ev] := column_mxof_c wx r0.
exists (to_vector rows 1 x); first by rewrite ex.
split=> // y; rewrite eb in hx; have hn := qr_normal_c H hx.
have [|h1 h2] := normal_min_c _ hn y^T 0; first by rewrite mxof_flip // mxrank_tr.
have er (z : 'rV_rows) : \sum_j sqm ((z *m mxof rows cols A) 0 j - nth 0 b j) =
  \sum_j sqm ((mxof cols rows (flip_layout_and_order rows cols A) *m z^T - \col_i nth 0 b i) j 0).
  rewrite mxof_flip // -trmx_mul; apply: eq_bigr => j _.
  by rewrite [((z *m _)^T - _) j 0]mxE [((z *m _)^T) j 0]mxE [(- \col_i _) j 0]mxE [(\col_i _) j 0]mxE.
have et : (rv rows (to_vector rows 1 x))^T = mxof rows 1 x by rewrite -ev; apply/matrixP => i j; rewrite !mxE.
cbv zeta; rewrite !er et; split=> // /h2 h3; apply: trmx_inj; rewrite et.
by apply/matrixP => i j; rewrite ord1 h3.
Qed.
Print Assumptions C84_lq_solve_vector.

Theorem C84_lq_pseudoinverse (R : rcfType) (tmin tmax : R) (rows cols : nat) (A : mat R[i]) :
  0 < tmin -> tmin <= tmax -> wf rows cols A -> (0 < rows <= cols)%N ->
  exists2 lq, decompose_lq_c tmin tmax rows cols A = Some lq &
  (\rank (mxof rows cols A) = rows ->
     exists2 P, lq_inverse_c rows cols lq = Some P & wf cols rows P /\
     let a := mxof rows cols A in let p := mxof cols rows P in
     [/\ a *m p *m a = a, p *m a *m p = p, hermx (a *m p) = a *m p & hermx (p *m a) = p *m a]) /\
  (\rank (mxof rows cols A) <> rows -> lq_inverse_c rows cols lq = None).
Proof.
move=> t0 tm w h; have [L [Q [e wL wQ H]]] := lq_cP t0 tm w h; exists (L, Q) => //.
have r0 : (0 < rows)%N by case/andP: h.
have rf := qr_rank_c H; have := qr_inverse_cP H r0; rewrite mxof_flip // mxrank_tr /lq_inverse_c /lq_flip_c /=.
case: eqP => [hr|_ -> //] [P -> [wP _ hP]]; split=> // _.
have [wfP _ _ _] := flip_layout_and_orderP wP.
exists (flip_layout_and_order rows cols P) => //; split=> //=; rewrite mxof_flip //.
rewrite (mxof_flip w) mxrank_tr hr eqxx in rf.
case: H => _ _; rewrite !mxof_flip // in hP rf *; set q := mxof rows cols Q; move=> hq hA.
have ap : mxof rows cols A *m (mxof rows cols P)^T = 1%:M.
  apply: trmx_inj; rewrite trmx_mul trmxK trmx1; apply: (can_inj (mulKmx rf)).
  by rewrite mulmxA hP mulmx1 -hA mulmxA hq mul1mx.
have pa : (mxof rows cols P)^T *m mxof rows cols A = hermx q *m q.
  by apply: trmx_inj; rewrite !trmx_mul !trmxK -hA -mulmxA hP hermx_tr.
by split; [rewrite ap mul1mx|rewrite -mulmxA ap mulmx1|rewrite ap hermx1|rewrite pa hermx_mul hermxK].
Qed.
Print Assumptions C84_lq_pseudoinverse.

Example C84_lq_example (R : rcfType) (tmin tmax : R) : 0 < tmin -> tmin <= tmax ->
  decompose_lq_c tmin tmax 1 2 (ctor_elems true 0 1 2 [:: 1; ('i)%C]).
Proof.
move=> h1 h2.
by have [Q [L [-> _]]] := @C84_lq R tmin tmax 1 2 (ctor_elems true 0 1 2 [:: 1; ('i)%C]) h1 h2 isT isT.
Qed.
