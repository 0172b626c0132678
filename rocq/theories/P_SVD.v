(* Givens rotations and the Jacobi loops. *)
From mathcomp Require Import all_ssreflect all_algebra.
From mathcomp Require Import ring.
From Verif Require Import Spec M_Vec P_Vec M_Mat P_Mat P_Mat2 M_LU P_Tri P_LU P_LU2 M_QR P_QR M_SVD P_SVD2.
Set Implicit Arguments. Unset Strict Implicit. Unset Printing Implicit Defensive.
Import Order.Theory GRing.Theory Num.Theory.
Local Open Scope ring_scope.

Section Loops.
Variable S : Type.
Lemma pairs_loopP (P : S -> Prop) n body (s : S) :
  P s -> (forall p q s, (p < q < n)%N -> P s -> exists2 s', body p q s = Some s' & P s') ->
  exists2 s', pairs_loop n body s = Some s' & P s'.
Proof.
move=> h0 h; rewrite /pairs_loop.
have [|h1 h2] := @for_opt_ind0 _ (fun _ => P) False n
  (fun p s => for_opt (iota p.+1 (n - p.+1)) (body p) s) s h0; last first.
  case e: (for_opt _ _ _) h1 h2 => [s'|] h1 h2; first by exists s' => //; apply: h1.
  by case: h2.
move=> p t hp ht; apply: (@for_opt_ind _ (fun _ => P)) => // q u; rewrite subnKC // => /andP [hq1 hq2] hu.
by have [|s' -> ] := h p q u _ hu; rewrite ?hq1 ?hq2.
Qed.

Variable R : rcfType.
Lemma jacobiP (P : S -> Prop) sweep fuel k (prev err : R) (s : S) :
  P s -> (forall k s, P s -> exists s' e, sweep k s = Some (s', e) /\ P s') ->
  exists2 s', P s' & jacobi sweep fuel k prev err s = Done s' \/ jacobi sweep fuel k prev err s = Running s'.
Proof.
move=> h0 h; elim: fuel k prev err s h0 => [|f IH] k prev err s h0 /=; case: ifP => _; try by exists s => //; tauto.
by have [s' [e [-> hs]]] := h k s h0; apply: IH.
Qed.
End Loops.

Section SVD.
Variable R : rcfType.
Implicit Types (A U V X : mat R).

Lemma sum_rot n p q (f g : nat -> R) : (p < q < n)%N ->
  (forall k, (k < n)%N -> k != p -> k != q -> f k = g k) -> f p + f q = g p + g q ->
  \sum_(k < n) f k = \sum_(k < n) g k.
Proof.
move=> /andP [pq qn] h e; have pn := ltn_trans pq qn.
rewrite (bigD1 (Ordinal pn)) //= [RHS](bigD1 (Ordinal pn)) //=.
rewrite (bigD1 (Ordinal qn)) /=; last by rewrite -val_eqE /= (gtn_eqF pq).
rewrite [X in _ = _ + X](bigD1 (Ordinal qn)) /=; last by rewrite -val_eqE /= (gtn_eqF pq).
rewrite !addrA e; congr (_ + _); apply: eq_bigr => k /andP [k1 k2]; exact: h.
Qed.

Lemma givens_rightP r c X p q cv sv det : wf r c X -> (p < q < c)%N ->
  same r c X (givens_right r X p q cv sv det) /\
  forall i j, (i < r)%N -> get (givens_right r X p q cv sv det) i j =
    if j == p then get X i p * cv + get X i q * sv
    else if j == q then det * (get X i q * cv - get X i p * sv) else get X i j.
Proof.
move=> w /andP [pq qc]; have pc := ltn_trans pq qc.
have sp := size_get_col w pc; have sq := size_get_col w qc.
rewrite /givens_right; set cp := vadd _ _; set cq := vscalel _ _.
have s1 : size cp = r by rewrite /cp (size_vadd (n := r)) // size_map.
have s2 : size cq = r by rewrite /cq size_map (size_vsub (n := r)) // size_map.
have [sm1 e1] := set_colP w pc s1; have [w1 r1 j1] := sm1.
have [sm2 e2] := set_colP w1 qc s2.
split; first exact: same_trans sm1 sm2.
move=> i j hi; rewrite e2 e1; case: (j =P q) => [->|jq].
  rewrite (gtn_eqF pq); rewrite (set_nth_default 0) ?s2 // /cq (nth_map 0) ?(size_vsub (n := r)) ?size_map //.
  rewrite (nth_vmap2 _ 0 0) ?size_map ?sp ?sq // !(nth_map 0) ?sp ?sq //.
  by rewrite !(nth_get_col _ w).
case: eqP => // _; rewrite (set_nth_default 0) ?s1 // /cp (nth_vmap2 _ 0 0) ?size_map ?sp ?sq // !(nth_map 0) ?sp ?sq //.
by rewrite !(nth_get_col _ w).
Qed.

Lemma givens_leftP r c X p q cv sv det : wf r c X -> (p < q < r)%N ->
  same r c X (givens_left c X p q cv sv det) /\
  forall i j, (j < c)%N -> get (givens_left c X p q cv sv det) i j =
    if i == p then get X p j * cv - det * get X q j * sv
    else if i == q then det * get X q j * cv + get X p j * sv else get X i j.
Proof.
move=> w /andP [pq qc]; have pc := ltn_trans pq qc.
have sp := size_get_row w pc; have sq := size_get_row w qc.
rewrite /givens_left; set cp := vsub _ _; set cq := vadd _ _.
have s1 : size cp = c by rewrite /cp (size_vsub (n := c)) // !size_map.
have s2 : size cq = c by rewrite /cq (size_vadd (n := c)) // !size_map.
have [sm1 e1] := set_rowP w pc s1; have [w1 r1 j1] := sm1.
have [sm2 e2] := set_rowP w1 qc s2.
split; first exact: same_trans sm1 sm2.
move=> i j hi; rewrite e2 e1; case: (i =P q) => [->|jq].
  rewrite (gtn_eqF pq); rewrite (set_nth_default 0) ?s2 // /cq.
  rewrite (nth_vmap2 _ 0 0) ?size_map ?sp ?sq // !(nth_map 0) ?size_map ?sp ?sq //.
  by rewrite !(nth_get_row _ w).
case: eqP => // _; rewrite (set_nth_default 0) ?s1 // /cp (nth_vmap2 _ 0 0) ?size_map ?sp ?sq // !(nth_map 0) ?size_map ?sp ?sq //.
by rewrite !(nth_get_row _ w).
Qed.

(* sum of the squares of the elements off the diagonal *)
Definition off2 n m (M : 'M[R]_(n, m)) : R :=
  \sum_(i < n) \sum_(j < m) (if i == j :> nat then 0 else M i j ^+ 2).
Definition fro2 n m (M : 'M[R]_(n, m)) : R := \sum_i \sum_j M i j ^+ 2.

Lemma sum_rot2 n p q (f g : nat -> R) e : (p < q < n)%N ->
  (forall k, (k < n)%N -> k != p -> k != q -> f k = g k) -> f p + f q = g p + g q + e ->
  \sum_(k < n) f k = \sum_(k < n) g k + e.
Proof.
move=> pq h he; have /andP [lpq qn] := pq; have pn := ltn_trans lpq qn.
have -> : e = \sum_(k < n) (if k == p :> nat then e else 0).
  rewrite (bigD1 (Ordinal pn)) //= eqxx big1 ?addr0 // => i; rewrite -val_eqE /= => /negPf ->; by [].
rewrite -big_split /=; apply: (sum_rot (g := fun k => g k + (if k == p then e else 0)) pq).
  by move=> k kn k1 k2; rewrite (negPf k1) addr0 h.
by rewrite eqxx (gtn_eqF lpq) addr0 he addrAC.
Qed.

Lemma off2_ge0 n m (M : 'M[R]_(n, m)) : 0 <= off2 M.
Proof. by apply: sumr_ge0 => i _; apply: sumr_ge0 => j _; case: ifP => // _; apply: sqr_ge0. Qed.

Lemma fro2_off n (M : 'M[R]_n) : fro2 M = off2 M + \sum_i M i i ^+ 2.
Proof.
rewrite /fro2 /off2 -big_split /=; apply: eq_bigr => i _.
rewrite (bigD1 i) //= [X in _ = X + _](bigD1 i) //= eqxx add0r addrC; congr (_ + _).
by apply: eq_bigr => j; rewrite val_eqE eq_sym => /negPf ->.
Qed.

Lemma fro2_tr n m (M : 'M[R]_(n, m)) : fro2 M = \tr (M *m M^T).
Proof. by apply: eq_bigr => i _; rewrite mxE; apply: eq_bigr => j _; rewrite mxE expr2. Qed.

Lemma fro2_orth r n m c (U : 'M[R]_(r, n)) (M : 'M[R]_(n, m)) (V : 'M[R]_(m, c)) :
  U^T *m U = 1%:M -> V *m V^T = 1%:M -> fro2 (U *m M *m V) = fro2 M.
Proof.
move=> hU hV; rewrite !fro2_tr; have -> : U *m M *m V *m (U *m M *m V)^T = U *m (M *m M^T *m U^T).
  by rewrite !trmx_mul !mulmxA -[U *m M *m V *m V^T]mulmxA hV mulmx1.
by rewrite mxtrace_mulC -!mulmxA hU mulmx1.
Qed.

Section Two.
Variables (sg : nat -> nat -> nat -> bool * bool) (n cols : nat) (tol : R) (M0 : 'M[R]_n).
Hypothesis tol0 : 0 <= tol.

Definition inv2 (st : mat R * mat R * mat R) : Prop :=
  let: (U, X, V) := st in
  [/\ [/\ wf n n U, wf n n X & wf n n V],
      mxof n n U *m (mxof n n U)^T = 1%:M,
      (mxof n n V)^T *m mxof n n V = 1%:M,
      mxof n n U *m mxof n n X *m mxof n n V = M0 &
      (forall i j, (i < n)%N -> (cols <= j < n)%N -> get X i j = 0) /\
      (forall i j, (i < n)%N -> (j < n)%N -> (cols <= i)%N || (cols <= j)%N -> get V i j = (i == j)%:R)].

(* one rotation *)
Definition rotated (U X V U' X' V' : mat R) (p q : nat) (d : svd22 R) : Prop :=
  [/\ forall i j, (i < n)%N -> (j < n)%N -> get U' i j =
        if j == p then get U i p * cu d + get U i q * su d
        else if j == q then dt d * (get U i q * cu d - get U i p * su d) else get U i j,
      forall i j, (i < n)%N -> (j < n)%N -> get V' i j =
        if i == p then get V p j * cv d - get V q j * sv d
        else if i == q then get V q j * cv d + get V p j * sv d else get V i j &
      exists2 Y, (forall i j, (i < n)%N -> (j < n)%N -> get Y i j =
        if i == p then get X p j * cu d + get X q j * su d
        else if i == q then dt d * (get X q j * cu d - get X p j * su d) else get X i j) &
        forall i j, (i < n)%N -> (j < n)%N -> get X' i j =
        if j == p then get Y i p * cv d - get Y i q * sv d
        else if j == q then get Y i q * cv d + get Y i p * sv d else get Y i j].

Lemma two_sided_stepP k p q U X V e : (p < q < n)%N -> wf n n U -> wf n n X -> wf n n V ->
  exists U' X' V' e', two_sided_step sg n tol k p q (U, X, V, e) = Some (U', X', V', e') /\
  ([/\ (U', X', V', e') = (U, X, V, e), `|get X p q| <= tol & `|get X q p| <= tol] \/
   exists d, [/\ svd2x2 (sg k p q).1 (sg k p q).2 (get X p p) (get X p q) (get X q p) (get X q q) = Some d,
     [/\ wf n n U', wf n n X' & wf n n V'], rotated U X V U' X' V' p q d,
     tol < std_max `|get X p q| `|get X q p| & e' = std_max e (std_max `|get X p q| `|get X q p|)]).
Proof.
move=> pq wU wX wV; rewrite /two_sided_step; case: ltP => ht; last first.
  exists U, X, V, e; split=> //; left; split=> //; apply: le_trans ht; rewrite /std_max; case: ltP => //.
  exact: ltW.
have [d ed [[h1 h2 h3 h4 h5] _ _ _]] := svd2x2P (sg k p q).1 (sg k p q).2 (get X p p) (get X p q) (get X q p) (get X q q).
rewrite ed /=.
have [[wU' _ _] eU] := givens_rightP (cu d) (su d) (dt d) wU pq.
have [[wY _ _] eY] := givens_leftP (cu d) (- dt d * su d) (dt d) wX pq.
have [[wX' _ _] eX] := givens_rightP (cv d) (- sv d) 1 wY pq.
have [[wV' _ _] eV] := givens_leftP (cv d) (sv d) 1 wV pq.
do 4!eexists; split; first by reflexivity.
right; exists d; split=> //; split.
- by move=> i j hi hj; rewrite eU.
- by move=> i j hi hj; rewrite eV // !mul1r.
- exists (givens_left n X p q (cu d) (- dt d * su d) (dt d)); move=> i j hi hj.
    rewrite eY //; move: h3; rewrite expr2 => h3; case: ifP => _; last by case: ifP => _ //; ring.
    by transitivity (get X p j * cu d + dt d * dt d * (get X q j * su d)); [ring|rewrite h3 mul1r].
  by rewrite eX //; move: (get (givens_left _ _ _ _ _ _ _) i p) (get (givens_left _ _ _ _ _ _ _) i q) => x y;
    case: ifP => _; [ring|case: ifP => _ //; ring].
Qed.

Lemma mulmx_get r m c (A B : mat R) i j : (mxof r m A *m mxof m c B) i j = \sum_(k < m) get A i k * get B k j.
Proof. by rewrite mxE; apply: eq_bigr => k _; rewrite !mxE. Qed.

Lemma rotated_inv U X V U' X' V' p q b0 b1 d : (p < q < n)%N ->
  svd2x2 b0 b1 (get X p p) (get X p q) (get X q p) (get X q q) = Some d ->
  tol < std_max `|get X p q| `|get X q p| ->
  wf n n U' -> wf n n X' -> wf n n V' ->
  rotated U X V U' X' V' p q d -> inv2 (U, X, V) -> inv2 (U', X', V').
Proof.
move=> pq hd ht wU' wX' wV' [eU eV [Y eY eX]] [[wU wX wV] oU oV eM [zX dV]].
have [d' ed' [[cs1 cs2 dt2 s1 s2] [a1 a2 a3 a4] cpos sle]] := svd2x2P b0 b1 (get X p p) (get X p q) (get X q p) (get X q q).
have e : d' = d by move: ed'; rewrite hd => -[].
rewrite e in cs1 cs2 dt2 s1 s2 a1 a2 a3 a4 cpos sle; clear d' ed' e.
have /andP [lpq qn] := pq; have pn := ltn_trans lpq qn.
have npq : (q == p) = false := gtn_eqF lpq.
(* the new columns *)
have pc : (p < cols)%N.
  case: (ltnP p cols) => // hp; move: ht; rewrite !zX ?hp //; last by rewrite (leq_trans hp) // ltnW.
  by rewrite normr0 /std_max ltxx ltNge tol0.
have qc : (q < cols)%N \/ cv d = 1 /\ sv d = 0.
  case: (ltnP q cols) => [|hq]; [by left|right].
  have z1 : get X p q = 0 by rewrite zX // hq.
  have z2 : get X q q = 0 by rewrite zX // hq.
  have nz : get X q p != 0.
    apply: contraTneq ht => z; by rewrite z z1 normr0 /std_max ltxx ltNge tol0.
  have : (get X p p ^+ 2 + get X q p ^+ 2) * (cv d * sv d) = 0.
    have b1' : get X p p * cv d + 0 * - sv d = cu d * s11 d.
      rewrite -z1 a1 a2; transitivity ((cv d ^+ 2 + sv d ^+ 2) * (cu d * s11 d)); [ring|by rewrite cs2 mul1r].
    have b2' : get X q p * cv d + 0 * - sv d = su d * s11 d.
      rewrite -z2 a3 a4; transitivity ((cv d ^+ 2 + sv d ^+ 2) * (su d * s11 d)); [ring|by rewrite cs2 mul1r].
    have b3' : get X p p * sv d + 0 * cv d = - (su d * (dt d * s22 d)).
      rewrite -z1 a1 a2; transitivity (- (cv d ^+ 2 + sv d ^+ 2) * (su d * (dt d * s22 d))); [ring|by rewrite cs2 mulN1r].
    have b4' : get X q p * sv d + 0 * cv d = cu d * (dt d * s22 d).
      rewrite -z2 a3 a4; transitivity ((cv d ^+ 2 + sv d ^+ 2) * (cu d * (dt d * s22 d))); [ring|by rewrite cs2 mul1r].
    transitivity ((get X p p * cv d + 0 * - sv d) * (get X p p * sv d + 0 * cv d) +
                  (get X q p * cv d + 0 * - sv d) * (get X q p * sv d + 0 * cv d)); first by ring.
    by rewrite b1' b2' b3' b4'; ring.
  move/eqP; rewrite mulf_eq0 paddr_eq0 ?sqr_ge0 // !sqrf_eq0 (negPf nz) andbF /= mulf_eq0 (gt_eqF cpos) /= => /eqP z.
  split=> //; move: cs2; rewrite z expr0n /= addr0 => /eqP; rewrite sqrf_eq1 => /orP [/eqP //|/eqP n1].
  by move: cpos; rewrite n1 ltr0N1.
split=> //.
- rewrite -oU; apply/matrixP => i j; rewrite !mxE.
  under eq_bigr do rewrite !mxE.
  under [RHS]eq_bigr do rewrite !mxE.
  apply: (sum_rot (f := fun k => get U' i k * get U' j k) (g := fun k => get U i k * get U j k) pq) => [k kn /negPf k1 /negPf k2|].
    by rewrite !eU // k1 k2.
  rewrite !eU // !eqxx npq.
  transitivity ((cu d ^+ 2 + dt d ^+ 2 * su d ^+ 2) * (get U i p * get U j p) +
     (su d ^+ 2 + dt d ^+ 2 * cu d ^+ 2) * (get U i q * get U j q) +
     (1 - dt d ^+ 2) * (cu d * su d) * (get U i p * get U j q + get U i q * get U j p)).
    by move: (cu d) (su d) (dt d) => c s t; ring.
  by rewrite dt2 !mul1r subrr !mul0r addr0 [su d ^+ 2 + _]addrC cs1 !mul1r.
- rewrite -oV; apply/matrixP => i j; rewrite !mxE.
  under eq_bigr do rewrite !mxE.
  under [RHS]eq_bigr do rewrite !mxE.
  apply: (sum_rot (f := fun k => get V' k i * get V' k j) (g := fun k => get V k i * get V k j) pq) => [k kn /negPf k1 /negPf k2|].
    by rewrite !eV // k1 k2.
  rewrite !eV // !eqxx npq.
  transitivity ((cv d ^+ 2 + sv d ^+ 2) * (get V p i * get V p j + get V q i * get V q j)); last by rewrite cs2 mul1r.
  by ring.
- have -> : mxof n n U' *m mxof n n X' *m mxof n n V' = mxof n n U' *m (mxof n n Y *m mxof n n V).
    rewrite -mulmxA; congr (_ *m _); apply/matrixP => i j; rewrite !mulmx_get.
    apply: (sum_rot (f := fun k => get X' i k * get V' k j) (g := fun k => get Y i k * get V k j) pq) => [k kn /negPf k1 /negPf k2|].
      by rewrite eV // eX // k1 k2.
    rewrite !eV // !eX // !eqxx npq.
    transitivity ((cv d ^+ 2 + sv d ^+ 2) * (get Y i p * get V p j + get Y i q * get V q j)); last by rewrite cs2 mul1r.
    by ring.
  rewrite mulmxA -eM; congr (_ *m _); apply/matrixP => i j; rewrite !mulmx_get.
  apply: (sum_rot (f := fun k => get U' i k * get Y k j) (g := fun k => get U i k * get X k j) pq) => [k kn /negPf k1 /negPf k2|].
    by rewrite eU // eY // k1 k2.
  rewrite !eU // !eY // !eqxx npq.
  transitivity ((cu d ^+ 2 + dt d ^+ 2 * su d ^+ 2) * (get U i p * get X p j) +
     (su d ^+ 2 + dt d ^+ 2 * cu d ^+ 2) * (get U i q * get X q j) +
     (1 - dt d ^+ 2) * (cu d * su d) * (get U i p * get X q j + get U i q * get X p j)).
    by move: (cu d) (su d) (dt d) => c s t; ring.
  by rewrite dt2 !mul1r subrr !mul0r addr0 [su d ^+ 2 + _]addrC cs1 !mul1r.
- split.
  + have zY i j : (i < n)%N -> (cols <= j < n)%N -> get Y i j = 0.
      move=> hi hj; have /andP [_ hj'] := hj; rewrite eY // !zX // !mul0r addr0 subr0 mulr0; by case: ifP => //; case: ifP.
    move=> i j hi hj; have /andP [hj1 hj'] := hj; rewrite eX // (zY i j) //.
    case: eqP => [jp|_]; first by move: hj1; rewrite jp leqNgt pc.
    case: eqP => // jq; case: qc => [qc|[-> ->]]; first by move: hj1; rewrite jq leqNgt qc.
    by rewrite zY -?jq // !mulr0 mul0r addr0.
  + move=> i j hi hj hc; rewrite eV //.
    case: (i =P p) => [ip|_].
      have hcj : (cols <= j)%N by move: hc; rewrite ip leqNgt pc.
      rewrite !dV ?hcj ?orbT //; case: qc => [qc|[-> ->]]; last by rewrite mulr1 mulr0 subr0 ip.
      rewrite ip; have /negPf -> : p != j by apply: contraTneq pc => ->; rewrite -leqNgt.
      have /negPf -> : q != j by apply: contraTneq qc => ->; rewrite -leqNgt.
      by rewrite !mul0r subr0.
    case: (i =P q) => [iq|_]; last by rewrite dV.
    case: qc => [qc|[-> ->]]; last by rewrite mulr1 mulr0 addr0 dV ?iq // -iq.
    have hcj : (cols <= j)%N by move: hc; rewrite iq leqNgt qc.
    rewrite !dV ?hcj ?orbT // iq; have /negPf -> : p != j by apply: contraTneq pc => ->; rewrite -leqNgt.
    have /negPf -> : q != j by apply: contraTneq qc => ->; rewrite -leqNgt.
    by rewrite !mul0r addr0.
Qed.

Lemma rotated_off U X V U' X' V' p q b0 b1 d : (p < q < n)%N ->
  svd2x2 b0 b1 (get X p p) (get X p q) (get X q p) (get X q q) = Some d ->
  rotated U X V U' X' V' p q d ->
  [/\ get X' p q = 0, get X' q p = 0, 0 <= get X' p p, 0 <= get X' q q &
      off2 (mxof n n X') = off2 (mxof n n X) - (get X p q ^+ 2 + get X q p ^+ 2)].
Proof.
move=> pq hd [eU eV [Y eY eX]].
have [d' ed' [[cs1 cs2 dt2 s1 s2] [a1 a2 a3 a4] _ _]] := svd2x2P b0 b1 (get X p p) (get X p q) (get X q p) (get X q q).
have e : d' = d by move: ed'; rewrite hd => -[].
rewrite e in cs1 cs2 dt2 s1 s2 a1 a2 a3 a4; clear d' ed' e.
have /andP [lpq qn] := pq; have pn := ltn_trans lpq qn.
have npq : (q == p) = false := gtn_eqF lpq.
have npq' : (p == q) = false := ltn_eqF lpq.
have Ypp : get Y p p = s11 d * cv d.
  rewrite eY // eqxx a1 a3.
  by transitivity ((cu d ^+ 2 + su d ^+ 2) * (s11 d * cv d)); [ring|rewrite cs1 mul1r].
have Ypq : get Y p q = - (s11 d * sv d).
  rewrite eY // eqxx a2 a4.
  by transitivity (- (cu d ^+ 2 + su d ^+ 2) * (s11 d * sv d)); [ring|rewrite cs1 mulN1r].
have Yqp : get Y q p = s22 d * sv d.
  rewrite eY // npq eqxx a1 a3.
  by transitivity (dt d ^+ 2 * (cu d ^+ 2 + su d ^+ 2) * (s22 d * sv d)); [ring|rewrite cs1 dt2 !mul1r].
have Yqq : get Y q q = s22 d * cv d.
  rewrite eY // npq eqxx a2 a4.
  by transitivity (dt d ^+ 2 * (cu d ^+ 2 + su d ^+ 2) * (s22 d * cv d)); [ring|rewrite cs1 dt2 !mul1r].
have Xpp : get X' p p = s11 d.
  rewrite eX // eqxx Ypp Ypq; transitivity ((cv d ^+ 2 + sv d ^+ 2) * s11 d); [ring|by rewrite cs2 mul1r].
have Xqq : get X' q q = s22 d.
  rewrite eX // npq eqxx Yqp Yqq; transitivity ((cv d ^+ 2 + sv d ^+ 2) * s22 d); [ring|by rewrite cs2 mul1r].
have Xpq : get X' p q = 0 by rewrite eX // npq eqxx Ypp Ypq; ring.
have Xqp : get X' q p = 0 by rewrite eX // eqxx Yqp Yqq; ring.
split; rewrite ?Xpp ?Xqq //.
have f1 : fro2 (mxof n n X') = fro2 (mxof n n Y).
  apply: eq_bigr => i _; under eq_bigr do rewrite mxE; under [RHS]eq_bigr do rewrite mxE.
  apply: (sum_rot (f := fun k => get X' i k ^+ 2) (g := fun k => get Y i k ^+ 2) pq) => [k kn /negPf k1 /negPf k2|].
    by rewrite eX // k1 k2.
  rewrite !eX // !eqxx npq; transitivity ((cv d ^+ 2 + sv d ^+ 2) * (get Y i p ^+ 2 + get Y i q ^+ 2)); last by rewrite cs2 mul1r.
  by ring.
have f2 : fro2 (mxof n n Y) = fro2 (mxof n n X).
  rewrite /fro2 exchange_big [RHS]exchange_big /=.
  apply: eq_bigr => i _; under eq_bigr do rewrite mxE; under [RHS]eq_bigr do rewrite mxE.
  apply: (sum_rot (f := fun k => get Y k i ^+ 2) (g := fun k => get X k i ^+ 2) pq) => [k kn /negPf k1 /negPf k2|].
    by rewrite eY // k1 k2.
  rewrite !eY // !eqxx npq.
  transitivity ((cu d ^+ 2 + dt d ^+ 2 * su d ^+ 2) * get X p i ^+ 2 +
     (su d ^+ 2 + dt d ^+ 2 * cu d ^+ 2) * get X q i ^+ 2 +
     (1 - dt d ^+ 2) * (2%:R * cu d * su d) * (get X p i * get X q i)).
    by move: (cu d) (su d) (dt d) => c s t; ring.
  by rewrite dt2 !mul1r subrr !mul0r addr0 [su d ^+ 2 + _]addrC cs1 !mul1r.
have := fro2_off (mxof n n X'); rewrite f1 f2 fro2_off.
have -> : \sum_i mxof n n X' i i ^+ 2 = \sum_i mxof n n X i i ^+ 2 + (get X p q ^+ 2 + get X q p ^+ 2).
  under eq_bigr do rewrite mxE; under [X in _ = X + _]eq_bigr do rewrite mxE.
  apply: (sum_rot2 (f := fun k => get X' k k ^+ 2) (g := fun k => get X k k ^+ 2) pq) => [k kn /negPf k1 /negPf k2|].
    by rewrite eX // k1 k2 eY // k1 k2.
  rewrite Xpp Xqq a1 a2 a3 a4.
  transitivity ((s11 d ^+ 2 * (cu d ^+ 2 + su d ^+ 2) + dt d ^+ 2 * s22 d ^+ 2 * (cu d ^+ 2 + su d ^+ 2)) * (cv d ^+ 2 + sv d ^+ 2)).
    by rewrite cs1 cs2 dt2 !mulr1 mul1r.
  by move: (cu d) (su d) (dt d) (cv d) (sv d) (s11 d) (s22 d) => *; ring.
rewrite [_ + (get X p q ^+ 2 + _)]addrC addrA => /addIr ->; by rewrite addrK.
Qed.

Definition offX (st : mat R * mat R * mat R) : R := off2 (mxof n n st.1.2).
Definition small_before p q X := forall p' q', (p' < q' < n)%N -> (p' < p)%N || ((p' == p) && (q' < q)%N) ->
  `|get X p' q'| <= tol /\ `|get X q' p'| <= tol.

Lemma tol_lt x y : tol < std_max `|x| `|y| -> tol ^+ 2 <= x ^+ 2 + y ^+ 2.
Proof.
have aux z : tol < `|z| -> tol ^+ 2 <= z ^+ 2.
  by move=> h; rewrite -[X in _ <= X]real_normK ?num_real // ler_expn2r ?nnegrE ?normr_ge0 // ltW.
rewrite /std_max; case: ifP => _ /aux h; apply: le_trans h _.
  by rewrite ler_addr sqr_ge0.
by rewrite ler_addl sqr_ge0.
Qed.

Definition swinv (st0 : mat R * mat R * mat R) p q (s : mat R * mat R * mat R * R) : Prop :=
  inv2 s.1 /\ ((s.2 = 0 /\ s.1 = st0 /\ small_before p q st0.1.2) \/ (0 < s.2 /\ offX s.1 + tol ^+ 2 <= offX st0)).

Lemma two_sided_sweepP k st : inv2 st ->
  exists st' e, two_sided_sweep sg n tol k st = Some (st', e) /\ inv2 st' /\
  ((e = 0 /\ st' = st /\ forall p q, (p < n)%N -> (q < n)%N -> p != q -> `|get st.1.2 p q| <= tol) \/
   (0 < e /\ offX st' + tol ^+ 2 <= offX st)).
Proof.
move=> hst; rewrite /two_sided_sweep /pairs_loop.
have [||h1 h2] := @for_opt_ind0 _ (fun p => swinv st p p.+1) False n
  (fun p s => for_opt (iota p.+1 (n - p.+1)) (two_sided_step sg n tol k p) s) (st, 0).
- split=> //; left; split=> //; split=> // p' q' /andP [h _] /=.
  by rewrite ltnS leqn0 => /andP [/eqP h' /eqP h'']; rewrite h' h'' in h.
- move=> p s hp hs.
  have hb : forall q s0, (p.+1 <= q < p.+1 + (n - p.+1))%N -> swinv st p q s0 ->
      if two_sided_step sg n tol k p q s0 is Some s' then swinv st p q.+1 s' else False.
    move=> q [[[U X] V] e]; rewrite subnKC // => /andP [pq qn] [hi hc].
    have [[wU wX wV] _ _ _ _] := hi; have pqn : (p < q < n)%N by rewrite pq.
    have [U' [X' [V' [e' [-> hr]]]]] := two_sided_stepP k e pqn wU wX wV.
    case: hr => [[[-> -> -> ->] t1 t2]|[d [ed [wU' wX' wV'] hr ht ->]]].
      split=> //; case: hc => [[/= e0 [es sb]]|hc]; [left|by right].
      split=> //; split=> // p' q' pq' /orP [lp|/andP [/eqP ep]]; first by apply: sb; rewrite ?lp.
      rewrite ltnS leq_eqVlt => /orP [/eqP eq|lq]; first by rewrite ep eq -es.
      by apply: sb; rewrite // ep eqxx lq orbT.
    split; first exact: (rotated_inv pqn ed ht wU' wX' wV' hr hi).
    right; have [_ _ _ _ ho] := rotated_off pqn ed hr; have := tol_lt ht => ht2.
    have ge0 : 0 <= e by case: hc => [[/= -> _]|[/= /ltW]].
    have r0 := le_lt_trans tol0 ht.
    split; first by rewrite /= {1}/std_max; case: (ltP e) => // ; apply: lt_le_trans r0.
    have : offX (U', X', V') + tol ^+ 2 <= offX (U, X, V).
      by rewrite /offX /= ho addrAC -lter_sub_addr opprK ler_add2l.
    by case: hc => [[/= _ [-> _]] //|[/= _ h]] h'; apply: le_trans h' _; apply: le_trans h; rewrite ler_addl sqr_ge0.
  have := @for_opt_ind _ (fun q => swinv st p q) False p.+1 (n - p.+1) (two_sided_step sg n tol k p) s hs hb.
  rewrite subnKC //.
  case: for_opt => // s' [hi hc]; split=> //; case: hc => [[e0 [es sb]]|hc]; [left|by right].
  split=> //; split=> // p' q' pq' /orP [|/andP [/eqP ep]].
    by rewrite ltnS leq_eqVlt => h; apply: sb => //; case/andP: pq' => _ ->; rewrite andbT orbC.
  by rewrite ltnS -ep => h; case/andP: pq' => h' _; move: (leq_trans h' h); rewrite ltnn.
- case e: (for_opt _ _ _) h1 h2 => [[st' e']|] h1 h2; last by case: h2.
  exists st', e'; split=> //; have [hi hc] := h1 _ erefl; split=> //.
  case: hc => [[/= e0 [es sb]]|hc]; [left|by right].
  split=> //; split=> // p q pn qn; rewrite neq_ltn => /orP [lt|lt].
    by have [] := sb p q; rewrite ?lt ?pn ?qn.
  by have [] := sb q p; rewrite ?lt ?pn ?qn.
Qed.

Lemma two_sided_jacobi_inv fuel k prev err st : inv2 st ->
  exists2 st', inv2 st' /\ offX st' <= offX st &
    jacobi (two_sided_sweep sg n tol) fuel k prev err st = Done st' \/
    jacobi (two_sided_sweep sg n tol) fuel k prev err st = Running st'.
Proof.
move=> h; have [|s' [h1 h2] h3] := @jacobiP _ R (fun s => inv2 s /\ offX s <= offX st) (two_sided_sweep sg n tol) fuel k prev err st (conj h (lexx _)).
  move=> k' s [hs1 hs2]; have [s' [e [-> [hi hc]]]] := two_sided_sweepP k' hs1.
  exists s', e; split=> //; split=> //; case: hc => [[_ [-> _]] //|[_ h']].
  by apply: le_trans hs2; apply: le_trans h'; rewrite ler_addl sqr_ge0.
by exists s'.
Qed.

Lemma two_sided_terminates m fuel k prev err st : 0 < tol -> inv2 st -> offX st <= m%:R * tol ^+ 2 ->
  (m + 2 <= fuel)%N -> exists2 st', inv2 st' & jacobi (two_sided_sweep sg n tol) fuel k prev err st = Done st'.
Proof.
move=> t0; have t2 : 0 < tol ^+ 2 by rewrite exprn_gt0.
have stop fuel' k' prev' err' s : inv2 s -> err' <= 0 -> (0 < fuel')%N ->
    exists2 st', inv2 st' & jacobi (two_sided_sweep sg n tol) fuel' k' prev' err' s = Done st'.
  move=> hs he; case: fuel' => // f _ /=; case: ifP => _; last by exists s.
  have [s' [e [-> [hi hc]]]] := two_sided_sweepP k' hs; exists s' => //.
  have e0 : 0 <= e by case: hc => [[-> _]|[/ltW]].
  by case: f => [|f] /=; rewrite ltNge (le_trans he e0).
elim: fuel m k prev err st => [|f IH] m k prev err st hi hm hf; first by rewrite addn2 in hf.
rewrite /=; case: ifP => _; last by exists st.
have [s' [e [-> [hi' hc]]]] := two_sided_sweepP k hi.
case: hc => [[-> [-> _]]|[_ hd]].
  by apply: stop => //; move: hf; rewrite addn2 ltnS; apply: leq_trans.
case: m hm hf => [|m] hm hf.
  have : offX s' < 0 by rewrite -(ltr_add2r (tol ^+ 2)) add0r (le_lt_trans hd) // (le_lt_trans hm) // mul0r.
  by rewrite ltNge off2_ge0.
apply: (IH m) => //; rewrite -(ler_add2r (tol ^+ 2)); apply: le_trans hd _; apply: le_trans hm _.
by rewrite -addn1 natrD mulrDl mul1r.
Qed.
End Two.
End SVD.
