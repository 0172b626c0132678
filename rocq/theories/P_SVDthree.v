(* The one-sided Jacobi iteration in terms of the scalar products of the columns; three columns. *)
From mathcomp Require Import all_ssreflect all_algebra.
From mathcomp Require Import ring.
From Verif Require Import Spec M_Vec P_Vec M_Mat P_Mat P_Mat2 M_LU P_Tri P_LU P_LU2 M_QR P_QR M_SVD P_SVD2 P_SVD P_SVDres P_SVDone P_SVDstop.
Set Implicit Arguments. Unset Strict Implicit. Unset Printing Implicit Defensive.
Import Order.Theory GRing.Theory Num.Theory.
Local Open Scope ring_scope.

Section Gram.
Variable R : rcfType.
Implicit Types (A U V X : mat R).
Variables (sg : nat -> nat -> nat -> bool * bool) (rows cols : nat) (M0 : 'M[R]_(rows, cols)).
Notation inv1 := (inv1 M0).
Notation gram := (gram rows).

Lemma gramC X p q : gram X p q = gram X q p.
Proof. by apply: eq_bigr => k _; rewrite mulrC. Qed.

(* one step of the sweep; where the columns are orthogonal already, c = 1 and s = 0 *)
Lemma gram_step k p q X V e : (p < q < cols)%N -> inv1 (X, V) -> 0 <= e ->
  exists X' V' c s, [/\ one_sided_step sg rows cols k p q (X, V, e) = Some (X', V', std_max e `|gram X p q|),
    inv1 (X', V'),
    [/\ c ^+ 2 + s ^+ 2 = 1, 0 < c, `|s| <= c, gram X p q = 0 -> c = 1 /\ s = 0 & (gram X p q != 0 -> s != 0)],
    [/\ gram X' p q = 0, offd (gram X p p) (gram X p q) (gram X q q) c s = 0,
        gram X' p p = c ^+ 2 * gram X p p + 2%:R * c * s * gram X p q + s ^+ 2 * gram X q q &
        gram X' q q = c ^+ 2 * gram X q q - 2%:R * c * s * gram X p q + s ^+ 2 * gram X p p] &
    (forall r, r != p -> r != q ->
       [/\ gram X' p r = c * gram X p r + s * gram X q r, gram X' q r = c * gram X q r - s * gram X p r &
           forall r', r' != p -> r' != q -> gram X' r r' = gram X r r'])].
Proof.
move=> pq hi he; have [/= wX wV oV eM] := hi; have /andP [lpq qn] := pq; have pn := ltn_trans lpq qn.
have npq : (q == p) = false := gtn_eqF lpq.
have [X1 [V1 [e1 [es [hi1 [go _]]]]]] := one_sided_stepP sg k e pq hi.
move: es; have [t1 t2 t3] := tmpE wX pn qn; rewrite /one_sided_step /tmp t1 t2 t3 normr_eq0; case: (eqVneq (gram X p q) 0) => [z|nz].
  move=> _; exists X, V, 1, 0; split=> //.
  - by rewrite z normr0 /std_max ltNge he.
  - by rewrite expr1n expr0n /= addr0 ltr01 normr0 ler01; split.
  - by rewrite /offd z; split=> //; ring.
  - by move=> r _ _; split=> //; ring.
have [c [s [-> [cs ho]]]] := diagonalize_hermitianP (sg k p q).1 (gram X p p) (gram X p q) (gram X q q).
rewrite /=; have [cv [sv [-> [hu pos mn [w hw hrot]]]]] := minimize_rotationP cs; rewrite /=.
case=> eX1 eV1 ee; have [[wX' _ _] eX] := givens_rightP cv sv 1 wX pq.
rewrite eX1 eV1; exists X1, V1, cv, sv; rewrite eX1 in eX; split=> //.
- split=> //; first by move=> z; rewrite z eqxx in nz.
  move=> _; apply: contra_neq nz => s0.
  have := offd_min hw hrot ho; rewrite /offd s0 mulr0 mulr0 addr0 expr0n subr0 => /eqP.
  by rewrite mulf_eq0 sqrf_eq0 (gt_eqF pos) orbF => /eqP.
- split=> //; first exact: (offd_min hw hrot ho).
    rewrite /P_SVDone.gram !mulr_sumr -!big_split /=; apply: eq_bigr => l _; rewrite !eX // !eqxx; ring.
  rewrite /P_SVDone.gram !mulr_sumr -sumrB -!big_split /=; apply: eq_bigr => l _; rewrite !eX // !eqxx npq; ring.
- move=> r /negPf r1 /negPf r2; split.
  + rewrite /P_SVDone.gram !mulr_sumr -!big_split /=; apply: eq_bigr => l _; rewrite !eX // !eqxx r1 r2; ring.
  + rewrite /P_SVDone.gram !mulr_sumr -sumrB /=; apply: eq_bigr => l _; rewrite !eX // !eqxx npq r1 r2; ring.
  + by move=> r' /negPf r3 /negPf r4; apply: eq_bigr => l _; rewrite !eX // r1 r2 r3 r4.
Qed.

(* the scalar products are bounded by the sum of squares of the matrix *)
Lemma gram_bound X V p q : inv1 (X, V) -> (p < cols)%N -> (q < cols)%N -> `|gram X p q| <= fro2 M0.
Proof.
case=> /= wX wV oV eM hp hq.
have tr : fro2 M0 = \sum_(i < cols) gram X i i.
  have e1 : fro2 M0 = \tr (M0^T *m M0).
    rewrite /mxtrace /fro2 exchange_big; apply: eq_bigr => i _; rewrite mxE; apply: eq_bigr => j _.
    by rewrite mxE expr2.
  rewrite e1 -eM trmx_mul mxtrace_mulC !mulmxA -[_ *m _ *m (mxof _ _ V)^T]mulmxA (mulmx1C oV) mulmx1 mxtrace_mulC /mxtrace.
  by apply: eq_bigr => i _; rewrite mxE; apply: eq_bigr => j _; rewrite !mxE.
have g0 i : 0 <= gram X i i by apply: sumr_ge0 => j _; rewrite -expr2 sqr_ge0.
have le1 i : (i < cols)%N -> gram X i i <= fro2 M0.
  by move=> hi; rewrite tr (bigD1 (Ordinal hi)) //= ler_addl; apply: sumr_ge0 => j _.
have h2 : 2%:R * `|gram X p q| <= gram X p p + gram X q q.
  apply: (@le_trans _ _ (\sum_(k < rows) 2%:R * (`|get X k p| * `|get X k q|))).
    rewrite -mulr_sumr ler_pmul2l ?ltr0n //; apply: le_trans (ler_norm_sum _ _ _) _.
    by apply: ler_sum => k _; rewrite normrM.
  rewrite /P_SVDone.gram -big_split; apply: ler_sum => k _ /=.
  rewrite -!expr2 -[get X k p ^+ 2]real_normK ?num_real // -[get X k q ^+ 2]real_normK ?num_real //.
  rewrite -subr_ge0; have -> : forall a b : R, a ^+ 2 + b ^+ 2 - 2%:R * (a * b) = (a - b) ^+ 2 by move=> a b; ring.
  exact: sqr_ge0.
have /ler_add := le1 p hp => /(_ _ _ (le1 q hq)) h3.
have : 2%:R * `|gram X p q| <= 2%:R * fro2 M0 by apply: le_trans h2 _; apply: le_trans h3 _; rewrite mulr_natl mulr2n.
by rewrite ler_pmul2l ?ltr0n.
Qed.

Lemma std_max_lt (x y z : R) : x < z -> y < z -> std_max x y < z.
Proof. by rewrite /std_max; case: ifP. Qed.
Lemma std_max0 (x : R) : 0 <= x -> std_max x `|0 : R| = x.
Proof. by move=> h; rewrite normr0 /std_max ltNge h. Qed.
Lemma std_max_ge0 (x y : R) : 0 <= x -> 0 <= std_max x y.
Proof. by move=> h; apply: le_trans h (std_max_ge x y).1. Qed.
End Gram.

Section Three.
Variable R : rcfType.
Implicit Types (A U V X : mat R).
Variables (sg : nat -> nat -> nat -> bool * bool) (rows : nat) (M0 : 'M[R]_(rows, 3)).
Notation inv1 := (inv1 M0).
Notation gram := (gram rows).

(* after a sweep that found the error e *)
Definition shape3 (X : mat R) (e : R) : Prop :=
  gram X 1 2 = 0 /\ ((gram X 0 1 = 0 /\ gram X 0 2 = 0) \/ (`|gram X 0 1| < e /\ `|gram X 0 2| < e)).

Lemma sweep3 k X V : inv1 (X, V) ->
  exists X' V' e', [/\ one_sided_sweep sg rows 3 k (X, V) = Some (X', V', e'), inv1 (X', V'), shape3 X' e',
    0 <= e' <= fro2 M0 & forall e, shape3 X e -> e' < e \/ e' = 0].
Proof.
move=> hi; rewrite /one_sided_sweep /pairs_loop; cbn [iota for_opt subn subn_rec Nat.sub].
have h0 : 0 <= 0 :> R by [].
have [X1 [V1 [c1 [s1 [-> i1 [u1 p1 m1 z1 n1] [o1 _ _ _] r1]]]]] := @gram_step R sg rows 3 M0 k 0%N 1%N X V 0 erefl hi h0.
have [_ a2 _] := r1 2%N erefl erefl; have [a1 _ _] := r1 2%N erefl erefl.
set e1 := std_max 0 _; have e10 : 0 <= e1 by rewrite /e1; exact: std_max_ge0.
have [X2 [V2 [c2 [s2 [-> i2 [u2 p2 m2 z2 n2] [o2 _ _ _] r2]]]]] := @gram_step R sg rows 3 M0 k 0%N 2%N X1 V1 e1 erefl i1 e10.
have [b1 b2 _] := r2 1%N erefl erefl.
set e2 := std_max e1 _; have e20 : 0 <= e2 by rewrite /e2; exact: std_max_ge0.
have [X3 [V3 [c3 [s3 [-> i3 [u3 p3 m3 z3 n3] [o3 _ _ _] r3]]]]] := @gram_step R sg rows 3 M0 k 1%N 2%N X2 V2 e2 erefl i2 e20.
have [d1 d2 _] := r3 0%N erefl erefl.
set e3 := std_max e2 _.
have e3ge : `|gram X2 1 2| <= e3 := (std_max_ge _ _).2.
have B1 : gram X2 0 1 = s2 * gram X1 1 2 by rewrite b1 o1 mulr0 add0r gramC.
have B2 : gram X2 1 2 = c2 * gram X1 1 2 by rewrite gramC b2 o1 mulr0 subr0 gramC.
have D1 : gram X3 0 1 = c3 * gram X2 0 1 by rewrite gramC d1 [gram X2 2 0]gramC o2 mulr0 addr0 gramC.
have D2 : gram X3 0 2 = - (s3 * gram X2 0 1) by rewrite gramC d2 [gram X2 2 0]gramC o2 mulr0 sub0r gramC.
have le12 : `|gram X2 0 1| <= `|gram X2 1 2|.
  by rewrite B1 B2 !normrM (gtr0_norm p2); apply: ler_wpmul2r.
exists X3, V3, e3; split=> //.
- split=> //; case: (eqVneq (gram X2 1 2) 0) => [z|nz].
    have z' : gram X2 0 1 = 0 by apply/eqP; rewrite -normr_eq0 eq_le normr_ge0 andbT (le_trans le12) // z normr0.
    by left; rewrite D1 D2 z' !mulr0 oppr0.
  have sn := n3 nz; have gp : 0 < `|gram X2 1 2| by rewrite normr_gt0.
  have c3l : c3 < 1.
    rewrite -(@ltr_pexpn2r _ 2) ?nnegrE ?ltW // expr1n -u3 ltr_addl lt_def sqrf_eq0 sn /=; exact: sqr_ge0.
  right; split; apply: lt_le_trans e3ge; [rewrite D1|rewrite D2 normrN]; rewrite normrM.
    by rewrite (gtr0_norm p3) (le_lt_trans (ler_wpmul2l (ltW p3) le12)) // gtr_pmull.
  by rewrite (le_lt_trans (ler_wpmul2l (normr_ge0 _) le12)) // gtr_pmull // (le_lt_trans m3).
- rewrite /e3 std_max_ge0 //=.
  have f0 : 0 <= fro2 M0 by apply: sumr_ge0 => i _; apply: sumr_ge0 => j _; apply: sqr_ge0.
  have mx (x y : R) : x <= fro2 M0 -> y <= fro2 M0 -> std_max x y <= fro2 M0 by rewrite /std_max; case: ifP.
  apply: (mx); last exact: (gram_bound i2).
  apply: (mx); last exact: (gram_bound i1).
  by apply: (mx); last exact: (gram_bound hi).
- move=> e [g12 [[g01 g02]|[g01 g02]]].
    right; have [cc ss] := z1 g01.
    have y02 : gram X1 0 2 = 0 by rewrite a1 g02 g12 !mulr0 addr0.
    have y12 : gram X1 1 2 = 0 by rewrite a2 g02 g12 !mulr0 subr0.
    by rewrite /e3 /e2 /e1 g01 y02 B2 y12 mulr0 !std_max0 ?normr0 // /std_max ltxx.
  left; have ep : 0 < e := le_lt_trans (normr_ge0 _) g01.
  have le1 (c s : R) : c ^+ 2 + s ^+ 2 = 1 -> 0 < c -> c <= 1.
    by move=> u p; rewrite -(@ler_pexpn2r _ 2) ?nnegrE ?ler01 ?(ltW p) // expr1n -u ler_addl sqr_ge0.
  have c1le : c1 <= 1 by apply: (le1 _ s1).
  have c2le : c2 <= 1 by apply: (le1 _ s2).
  have y02 : `|gram X1 0 2| < e.
    rewrite a1 g12 mulr0 addr0 normrM (gtr0_norm p1); apply: le_lt_trans g02.
    by apply: ler_pimull.
  have y12 : `|gram X1 1 2| < e.
    rewrite a2 g12 mulr0 sub0r normrN normrM; apply: le_lt_trans g02.
    by apply: ler_pimull => //; apply: le_trans c1le.
  have x12 : `|gram X2 1 2| < e.
    by rewrite B2 normrM (gtr0_norm p2); apply: le_lt_trans y12; apply: ler_pimull.
  by do !apply: std_max_lt.
Qed.
End Three.

(* a stopped loop, if every sweep after the first one finds a smaller error or none *)
Lemma jacobi_strict (R : rcfType) (S : Type) (I : S -> Prop) (shape : S -> R -> Prop) (enext : R) (sweep : nat -> S -> option (S * R)) fuel k prev s st :
  0 < enext -> enext < prev -> I s ->
  (forall k s, I s -> exists s' e', [/\ sweep k s = Some (s', e'), I s', shape s' e', 0 <= e' < enext &
     forall e, shape s e -> e' < e \/ e' = 0]) ->
  jacobi sweep fuel k prev enext s = Done st ->
  exists k' s', [/\ I s', I st & sweep k' s' = Some (st, 0)].
Proof.
move=> en lt hs h.
suff H : forall f k prev err s, I s /\ (err = enext \/ (shape s err /\ 0 <= err)) -> err < prev ->
    jacobi sweep f k prev err s = Done st -> exists k' s', [/\ I s', I st & sweep k' s' = Some (st, 0)].
  by apply: H lt; split=> //; left.
elim=> [|f IH] {hs lt s k prev} k prev err s [hi hp] hl /=; rewrite hl //.
have [s' [e' [es hi' hsh /andP [he1 he2] hd]]] := h k s hi; rewrite es => hj.
have hlt : e' < err \/ e' = 0 by case: hp => [->|[hp _]]; [left|apply: hd].
case: (ltP e' err) => hle; first by apply: (IH _ _ _ _ _ hle hj); split=> //; right.
have z : e' = 0 by case: hlt => // h'; rewrite ltNge hle in h'.
have ej : st = s' by move: hj; case: (f) => [|f'] /=; rewrite ltNge hle /= => -[].
by exists k, s; rewrite ej es z.
Qed.

(* a loop whose first sweep converges *)
Lemma jacobi_once (R : rcfType) (S : Type) (I Q : S -> Prop) (enext : R) (sweep : nat -> S -> option (S * R)) fuel k prev s :
  enext < prev -> I s -> (3 <= fuel)%N ->
  (forall k s, I s -> exists s' e', [/\ sweep k s = Some (s', e'), I s', Q s', 0 <= e' & (Q s -> e' = 0)]) ->
  exists st, [/\ jacobi sweep fuel k prev enext s = Done st, I st & Q st].
Proof.
move=> lt hs hf h; case: fuel hf => [//|[//|[//|f]]] _ /=; rewrite lt.
have [s1 [e1 [-> i1 q1 p1 _]]] := h k s hs; case: ifP => _; last by exists s1.
have [s2 [e2 [-> i2 q2 p2 /(_ q1) ->]]] := h k.+1 s1 i1; case: ifP => _; last by exists s2.
have [s3 [e3 [-> i3 q3 p3 /(_ q2) ->]]] := h k.+2 s2 i2; exists s3; split=> //.
by case: (f) => [|f'] /=; rewrite ltxx.
Qed.

Section Few.
Variable R : rcfType.
Implicit Types (A U V X : mat R).
Variables (sg : nat -> nat -> nat -> bool * bool).

Lemma one_sided_few rows cols (M0 : 'M[R]_(rows, cols)) k st : (cols <= 2)%N -> inv1 M0 st ->
  exists st' e', [/\ one_sided_sweep sg rows cols k st = Some (st', e'), inv1 M0 st',
    forall p q, (p < cols)%N -> (q < cols)%N -> p != q -> gram rows st'.1 p q = 0, 0 <= e' &
    (forall p q, (p < cols)%N -> (q < cols)%N -> p != q -> gram rows st.1 p q = 0) -> e' = 0].
Proof.
case: cols M0 => [|[|[|//]]] M0 _ hi.
- by exists st, 0; split.
- by exists st, 0; split=> // -[|p] [|q].
case: st hi => X V hi; rewrite /one_sided_sweep /pairs_loop; cbn [iota for_opt subn subn_rec Nat.sub].
have [X1 [V1 [c1 [s1 [-> i1 _ [o1 _ _ _] _]]]]] := @gram_step R sg rows 2 M0 k 0%N 1%N X V 0 erefl hi (lexx 0).
do 2!eexists; split; [by reflexivity| exact: i1| | |].
- by move=> [|[|//]] [|[|//]] _ _ //= _; rewrite gramC.
- exact: std_max_ge0.
- by move=> /(_ 0%N 1%N isT isT isT) /= ->; rewrite std_max0.
Qed.

Definition small2 rows (tol : R) (st : mat R * mat R * mat R) : Prop :=
  forall p q, (p < rows)%N -> (q < rows)%N -> p != q -> `|get st.1.2 p q| <= tol.
Lemma two_sided_few tol rows cols (M0 : 'M[R]_rows) k st : (rows <= 2)%N -> 0 <= tol -> inv2 cols M0 st ->
  exists st' e', [/\ two_sided_sweep sg rows tol k st = Some (st', e'), inv2 cols M0 st', small2 rows tol st', 0 <= e' &
    small2 rows tol st -> e' = 0].
Proof.
move=> r2 t0 hi; have [s' [e' [es [hi' hc]]]] := two_sided_sweepP sg t0 k hi.
exists s', e'; split=> //.
- case: hc => [[_ [-> //]]|[p _]].
  case: rows M0 r2 hi es hi' p => [|[|[|//]]] M0 _ hi es _ pe; [by []|by move=> [|p] [|q]|].
  case: st hi es => [[U X] V] [[wU wX wV] _ _ _ _]; rewrite /two_sided_sweep /pairs_loop.
  cbn [iota for_opt subn subn_rec Nat.sub].
  have [U1 [X1 [V1 [e1 [-> hr]]]]] := two_sided_stepP sg tol k 0 (isT : (0 < 1 < 2)%N) wU wX wV.
  case=> <- ee; case: hr => [[[_ _ _ e0] _ _]|[d [ed _ hr _ _]]]; first by move: pe; rewrite -ee e0 ltxx.
  have [z1 z2 _ _ _] := rotated_off (isT : (0 < 1 < 2)%N) ed hr.
  by move=> [|[|//]] [|[|//]] _ _ //= _; rewrite ?z1 ?z2 normr0.
- by case: hc => [[-> _] //|[/ltW]].
- case: hc => [[-> _] //|[pe _]] q.
  case: rows M0 r2 hi es hi' q => [|[|[|//]]] M0 _ hi es _ q; [by case: es| by case: es|].
  case: st hi es q => [[U X] V] [[wU wX wV] _ _ _ _]; rewrite /two_sided_sweep /pairs_loop.
  cbn [iota for_opt subn subn_rec Nat.sub].
  have [U1 [X1 [V1 [e1 [-> hr]]]]] := two_sided_stepP sg tol k 0 (isT : (0 < 1 < 2)%N) wU wX wV.
  case=> _ <- q; case: hr => [[[_ _ _ e0] _ _] //|[d [ed _ hr ht _]]].
  have h01 : `|get X 0 1| <= tol := q 0%N 1%N isT isT isT; have h10 : `|get X 1 0| <= tol := q 1%N 0%N isT isT isT.
  by move: ht; rewrite /std_max ltNge; case: ifP => _; rewrite ?h01 ?h10.
Qed.
End Few.
