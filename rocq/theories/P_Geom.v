(* Lemmas about the geometry model. *)
From mathcomp Require Import all_ssreflect all_algebra.
From mathcomp Require Import ring.
From Verif Require Import Spec M_Vec P_Vec M_Mat P_Mat M_LU M_QR M_SVD P_SVD2 M_Geom.
Set Implicit Arguments. Unset Strict Implicit. Unset Printing Implicit Defensive.
Import Order.Theory GRing.Theory Num.Theory.
Local Open Scope ring_scope.

(* the inner product of row vectors *)
Definition dotp (R : ringType) n (u v : 'rV[R]_n) : R := \sum_i u 0 i * v 0 i.

Section Dotp.
Variables (R : rcfType) (n : nat).
Implicit Types (u v w : 'rV[R]_n) (a b : seq R).
Lemma dotpC u v : dotp u v = dotp v u.
Proof. by apply: eq_bigr => i _; rewrite mulrC. Qed.
Lemma dotpDl u v w : dotp (u + v) w = dotp u w + dotp v w.
Proof. by rewrite -big_split; apply: eq_bigr => i _; rewrite mxE mulrDl. Qed.
Lemma dotpZl s u w : dotp (s *: u) w = s * dotp u w.
Proof. by rewrite /dotp mulr_sumr; apply: eq_bigr => i _; rewrite mxE mulrA. Qed.
Lemma dotpNl u w : dotp (- u) w = - dotp u w.
Proof. by rewrite -scaleN1r dotpZl mulN1r. Qed.
Lemma dotpBl u v w : dotp (u - v) w = dotp u w - dotp v w.
Proof. by rewrite dotpDl dotpNl. Qed.
Lemma dotpDr u v w : dotp w (u + v) = dotp w u + dotp w v.
Proof. by rewrite dotpC dotpDl !(dotpC w). Qed.
Lemma dotpZr s u w : dotp w (s *: u) = s * dotp w u.
Proof. by rewrite dotpC dotpZl (dotpC w). Qed.
Lemma dotpBr u v w : dotp w (u - v) = dotp w u - dotp w v.
Proof. by rewrite dotpC dotpBl !(dotpC w). Qed.
Lemma dotp0l w : dotp 0 w = 0.
Proof. by rewrite -(scale0r 0) dotpZl mul0r. Qed.
Lemma dotp_ge0 u : 0 <= dotp u u.
Proof. by apply: sumr_ge0 => i _; rewrite -expr2 sqr_ge0. Qed.
Lemma dotp_eq0 u : (dotp u u == 0) = (u == 0).
Proof.
apply/eqP/eqP => [h|->]; last exact: dotp0l.
apply/rowP => i; rewrite mxE.
have /eqP : u 0 i * u 0 i = 0 by apply: psumr_eq0P h i isT => j _; rewrite -expr2 sqr_ge0.
by rewrite mulf_eq0 orbb => /eqP.
Qed.
Lemma dotp_gt0 u : u != 0 -> 0 < dotp u u.
Proof. by move=> h; rewrite lt_def dotp_eq0 h dotp_ge0. Qed.
Lemma vdot_rv a b : size a = n -> size b = n -> vdot id a b = dotp (rv n a) (rv n b).
Proof. by move=> sa sb; rewrite (@vdot_idE _ n) //; apply: eq_bigr => i _; rewrite !mxE. Qed.
Lemma rv_add a b : size a = n -> size b = n -> rv n (vadd a b) = rv n a + rv n b.
Proof. by move=> sa sb; apply/rowP => i; rewrite !mxE (nth_vadd _ sa sb). Qed.
Lemma rv_scale a s : rv n (vscale a s) = s *: rv n a.
Proof. by apply/rowP => i; rewrite !mxE nth_vscale mulrC. Qed.
Lemma rv_divs a s : rv n [seq x / s | x <- a] = s^-1 *: rv n a.
Proof. exact: (rv_scale a s^-1). Qed.
Lemma rv_inj a b : size a = n -> size b = n -> rv n a = rv n b -> a = b.
Proof.
move=> sa sb /rowP h; apply: (@eq_from_nth _ 0); rewrite ?sa ?sb // => i hi.
by have := h (Ordinal hi); rewrite !mxE.
Qed.
Lemma rv_surj (u : 'rV[R]_n) : exists2 a, size a = n & rv n a = u.
Proof.
exists (mkseq (fun i => if insub i is Some k then u 0 k else 0) n); rewrite ?size_mkseq //.
by apply/rowP => i; rewrite mxE nth_mkseq // valK.
Qed.
Lemma vlength_rv a : size a = n -> vlength a = Num.sqrt (dotp (rv n a) (rv n a)).
Proof. by move=> sa; rewrite /vlength /length_squared vdot_rv. Qed.
Lemma vlength_sq a : size a = n -> dotp (rv n a) (rv n a) = vlength a ^+ 2.
Proof. by move=> sa; rewrite length_sq vdot_rv. Qed.
End Dotp.

Lemma size_vscalel (R : ringType) (s : R) v : size (vscalel s v) = size v.
Proof. exact: size_map. Qed.
Lemma size_vscale (R : ringType) (s : R) v : size (vscale v s) = size v.
Proof. exact: size_map. Qed.

(** Bezier curves *)
Section Bezier.
Variable R : comRingType.
Implicit Types (cp red : seq (seq R)).
Lemma bezier_rowP n (u t : R) i red : (i < size red)%N -> (forall j, (j < size red)%N -> size (nth [::] red j) = n) ->
  let red' := bezier_row u t i red in
  [/\ size red' = size red, forall j, (j < size red)%N -> size (nth [::] red' j) = n &
   forall j, (j < i)%N -> rv n (nth [::] red' j) = u *: rv n (nth [::] red j) + t *: rv n (nth [::] red j.+1)].
Proof.
move=> hi hs; rewrite /bezier_row.
pose P k (r : seq (seq R)) := [/\ size r = size red, forall j, (j < size red)%N -> size (nth [::] r j) = n,
  forall j, (j.+1 < k)%N -> rv n (nth [::] r j) = u *: rv n (nth [::] red j) + t *: rv n (nth [::] red j.+1) &
  forall j, (k <= j.+1)%N -> nth [::] r j = nth [::] red j].
suff [h1 h2 h3 _] : P i.+1 (for_loop 1 i.+1 (fun j red =>
    set_nth [::] red j.-1 (vadd (vscalel u (nth [::] red j.-1)) (vscalel t (nth [::] red j)))) red) by split.
apply: (@for_loop_ind _ P) => //.
move=> k r /andP [k1 ki] [h1 h2 h3 h4]; case: k k1 ki h3 h4 => // k _ ki h3 h4 /=.
have kr : (k.+1 < size red)%N by exact: leq_trans ki hi.
have s1 := h2 k (ltnW kr); have s2 := h2 k.+1 kr.
split.
- by rewrite size_set_nth h1; apply/maxn_idPr/ltnW.
- move=> j hj; rewrite nth_set_nth /=; case: eqP => [_|_]; last exact: h2.
  by apply: size_vadd; rewrite size_vscalel.
- move=> j jk; rewrite nth_set_nth /=; case: eqP => [->|/eqP nk].
    apply/rowP => x; rewrite !mxE (@nth_vadd _ n) ?size_vscalel // !nth_vscalel.
    by rewrite !h4 // ltnW.
  by apply: h3; rewrite ltnS in jk; rewrite ltn_neqAle eqSS nk.
- move=> j jk; rewrite nth_set_nth /=; case: eqP => [e|_]; last by rewrite h4 // ltnW.
  by move: jk; rewrite e ltnn.
Qed.

Definition bernstein (n : nat) (t : R) (k : nat) : R := t ^+ k * (1 - t) ^+ (n - k) *+ 'C(n, k).

Lemma bernsteinS n t k : bernstein n.+1 t k =
  (1 - t) * (if (k <= n)%N then bernstein n t k else 0) + t * (if k is k'.+1 then bernstein n t k' else 0).
Proof.
rewrite /bernstein; case: k => [|k].
  by rewrite mulr0 addr0 /= !bin0 !mulr1n !expr0 !mul1r !subn0 exprS.
rewrite binS subSS mulrnDr; congr (_ + _); last by rewrite exprS -!mulrA mulrnAr.
case: ifP => h; last by rewrite bin_small ?ltnS 1?leqNgt ?h // mulr0n mulr0.
by rewrite -(subnSK h) [_ ^+ (n - k.+1).+1]exprS mulrCA mulrnAr.
Qed.

Lemma bezierP n cp t : (0 < size cp)%N -> (forall j, (j < size cp)%N -> size (nth [::] cp j) = n) ->
  size (bezier cp t) = n /\
  rv n (bezier cp t) = \sum_(k < size cp) bernstein (size cp).-1 t k *: rv n (nth [::] cp k).
Proof.
move=> h0 hs; rewrite /bezier; set N := (size cp).-1; have eN : size cp = N.+1 by rewrite prednK.
pose P r (red : seq (seq R)) := [/\ size red = size cp, forall j, (j < size cp)%N -> size (nth [::] red j) = n &
  forall j, (j + r <= N)%N -> rv n (nth [::] red j) = \sum_(k < r.+1) bernstein r t k *: rv n (nth [::] cp (j + k))].
have H r : (r <= N)%N -> P r (foldl (fun red i => bezier_row (1 - t) t i red) cp (take r (rev (iota 1 N)))).
  elim: r => [|r IH] hr.
    rewrite take0 /=; split=> // j _.
    by rewrite big_ord1 addn0 /bernstein /= expr0 mul1r mulr1n scale1r.
  rewrite (take_nth 0%N) ?size_rev ?size_iota // -cats1 foldl_cat /=.
  have [h1 h2 h3] := IH (ltnW hr).
  rewrite nth_rev ?size_iota // nth_iota ?subnSK ?leq_subr // add1n.
  have e : (N - r.+1).+1 = (N - r)%N by rewrite subnSK.
  rewrite e; set red := foldl _ _ _ in h1 h2 h3 *.
  have [||g1 g2 g3] := @bezier_rowP n (1 - t) t (N - r) red.
  - by rewrite h1 eN ltnS leq_subr.
  - by rewrite h1.
  split; first by rewrite g1.
    by move=> j hj; apply: g2; rewrite h1.
  move=> j hj; rewrite g3; last by rewrite ltn_subRL addnC -addnS.
  rewrite !h3; last 2 first.
  - by rewrite addSnnS.
  - by rewrite (leq_trans _ hj) // leq_add2l.
  rewrite !scaler_sumr big_ord_recr /= [RHS]big_ord_recl /=.
  rewrite [in RHS](eq_bigr (fun k : 'I_r.+1 => (1 - t) *: ((if (k.+1 <= r)%N then bernstein r t k.+1 else 0) *: rv n (nth [::] cp (j + k.+1)))
      + t *: (bernstein r t k *: rv n (nth [::] cp (j + k.+1))))); last first.
    by move=> k _; rewrite -[bump 0 k]/(k.+1) bernsteinS scalerDl !scalerA.
  rewrite big_split /= !addrA; congr (_ + _); last first.
    by apply: eq_bigr => k _; rewrite addSnnS.
  rewrite bernsteinS leq0n mulr0 addr0 big_ord_recr /= ltnn scale0r scaler0 addr0.
  rewrite -[in LHS](big_ord_recr r (fun k => (1 - t) *: (bernstein r t k *: rv n (nth [::] cp (j + k))))) /=.
  rewrite big_ord_recl /= scalerA addn0; congr (_ + _).
  by apply: eq_bigr => k _; rewrite ltn_ord.
have [h1 h2 h3] := H N (leqnn _); move: h1 h2 h3.
rewrite take_oversize ?size_rev ?size_iota // => h1 h2 h3; split; first exact: h2.
by rewrite h3 ?add0n // eN; apply: eq_bigr => k _; rewrite add0n.
Qed.
End Bezier.
