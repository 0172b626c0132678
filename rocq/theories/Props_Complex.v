(* Property C83: vectors and matrices with complex elements (exact arithmetic over R[i]).
   [tmin], [tmax]: the smallest and largest positive normal numbers of the real type. *)
From mathcomp Require Import all_ssreflect all_algebra.
From mathcomp Require Import ring complex.
From Verif Require Import Spec M_Vec P_Vec M_Mat P_Mat P_Mat2 M_Complex P_Complex.
Set Implicit Arguments. Unset Strict Implicit. Unset Printing Implicit Defensive.
Import Order.Theory GRing.Theory Num.Theory.
Local Open Scope complex_scope.
Local Open Scope ring_scope.

(** * Dot is the Hermitian product, linear in its first and conjugate linear in its second argument *)
Theorem C83_dot (R : rcfType) (n : nat) (a b c : seq R[i]) (s : R[i]) :
  size a = n -> size b = n -> size c = n ->
  [/\ cdot a b = \sum_(i < n) nth 0 a i * conjc (nth 0 b i), cdot b a = conjc (cdot a b),
      cdot (vadd a b) c = cdot a c + cdot b c,
      cdot (vscalel s a) b = s * cdot a b & cdot a (vscalel s b) = conjc s * cdot a b].
Proof.
move=> sa sb sc; split; [exact: cdotE|exact: (@cdot_sym _ n)|exact: (@cdot_addl _ n)| |].
  exact: (@cdot_scalel _ n).
exact: (@cdot_scaler _ n).
Qed.
Print Assumptions C83_dot.

(** * The length is a norm *)
Theorem C83_length (R : rcfType) (v : seq R[i]) (s : R[i]) :
  [/\ cdot v v = (clength v ^+ 2)%:C,
      clength v = Num.sqrt (\sum_(i < size v) (complex.Re (nth 0 v i) ^+ 2 + complex.Im (nth 0 v i) ^+ 2)),
      clength v = 0 <-> (forall i, nth 0 v i = 0) &
      clength (vscalel s v) = Num.sqrt (complex.Re s ^+ 2 + complex.Im s ^+ 2) * clength v].
Proof.
split.
- by rewrite clength_sq cls_rc.
- by rewrite /clength clength_squaredE.
- split=> [/eqP|h].
    rewrite clength_eq0 => /allP h i; case: (ltnP i (size v)) => hi; last by rewrite nth_default.
    by apply/eqP/h/mem_nth.
  by apply/eqP; rewrite clength_eq0; apply/(all_nthP 0) => i _; rewrite h.
- rewrite mulrC -/(cabs s) -clength_mapmul; congr clength; by apply: eq_map => z; rewrite mulrC.
Qed.
Print Assumptions C83_length.

Theorem C83_inequalities (R : rcfType) (n : nat) (a b : seq R[i]) : size a = n -> size b = n ->
  let d := cdot a b in
  Num.sqrt (complex.Re d ^+ 2 + complex.Im d ^+ 2) <= clength a * clength b /\
  clength (vadd a b) <= clength a + clength b.
Proof. by move=> sa sb; split; [exact: (ccauchy sa sb)|exact: (ctriangle sa sb)]. Qed.
Print Assumptions C83_inequalities.

(* the scaling factor is the largest magnitude of a real or imaginary part; the precise length is the length *)
Theorem C83_length_precise (R : rcfType) (tmin tmax : R) (v w : seq R[i]) :
  0 < tmin -> tmin <= tmax ->
  [/\ v != [::] -> exists2 i, (i < size v)%N &
        cscale_elements v = Num.max `|complex.Re (nth 0 v i)| `|complex.Im (nth 0 v i)|,
      forall i, (i < size v)%N ->
        `|complex.Re (nth 0 v i)| <= cscale_elements v /\ `|complex.Im (nth 0 v i)| <= cscale_elements v,
      clength_precise tmin tmax v = Some (clength v) &
      cdistance_precise tmin tmax v w = Some (cdistance v w)].
Proof.
move=> h1 h2; split.
- by move=> /cscaleP [].
- by move=> i hi; have v0 : v != [::] by [case: (v) hi]; have [_] := cscaleP v0; apply.
- exact: clength_preciseE.
- exact: clength_preciseE.
Qed.
Print Assumptions C83_length_precise.

(** * Normalisation: unit length and a positive real multiple of the argument *)
Theorem C83_normalize (R : rcfType) (v : seq R[i]) : (exists i, nth 0 v i != 0) ->
  exists2 w, cnormalize v = Some w & [/\ cnormalize_precise v = w, size w = size v, clength w = 1 &
    exists2 k : R, 0 < k & forall i, nth 0 v i = k%:C * nth 0 w i].
Proof.
case=> k hk; have h : ~~ all (fun z : R[i] => z == 0) v.
  by apply/negP => /(all_nthP 0) h; case: (ltnP k (size v)) => hi; [rewrite h in hk|rewrite nth_default ?eqxx in hk].
have lp := clength_pos h.
exists [seq z / (clength v)%:C | z <- v]; first exact: cnormalizeE.
split; [by rewrite cnormalize_precise0E (negbTE h)|by rewrite size_map|exact: clength_normalized|].
exists (clength v) => // i; case: (ltnP i (size v)) => hi; last by rewrite !nth_default ?size_map // mulr0.
by rewrite (nth_map 0) // mulrC divfK // rc_eq0 gt_eqF.
Qed.
Print Assumptions C83_normalize.

(* a null vector: the fallback, by default the first base vector, a unit vector *)
Theorem C83_normalize_null (R : rcfType) (n : nat) (v d : seq R[i]) : (forall i, nth 0 v i = 0) -> size v = n.+1 ->
  [/\ cnormalize v = None, cnormalize_precise_or v d = d,
      forall i, nth 0 (cnormalize_precise v) i = (i == 0%N)%:R & clength (cnormalize_precise v) = 1].
Proof.
move=> h sv; have hz : all (fun z : R[i] => z == 0) v by apply/(all_nthP 0) => i _; rewrite h.
have lz : clength v == 0 by rewrite clength_eq0.
rewrite /cnormalize /cdivs lz cnormalize_preciseE hz cnormalize_precise0E hz sv; split=> //.
  by case=> [|i] //=; rewrite nth_nseq; case: ifP.
exact: clength_unit0.
Qed.
Print Assumptions C83_normalize_null.

(** * Gram-Schmidt: the outputs are pairwise orthogonal, non-zero, and span the same subspaces *)
Theorem C83_gram_schmidt (R : rcfType) (n : nat) (vs : seq (seq R[i])) :
  all (fun v => size v == n) vs -> free [seq rv n v | v <- vs] ->
  exists2 us, cgram_schmidt vs = Some us &
    [/\ size us = size vs,
        forall i j, (i < size vs)%N -> (j < size vs)%N -> i != j -> cdot (nth [::] us i) (nth [::] us j) = 0,
        forall i, (i < size vs)%N -> clength (nth [::] us i) != 0 &
        forall k, (<<[seq rv n u | u <- take k us]>> = <<[seq rv n v | v <- take k vs]>>)%VS].
Proof.
move=> h1 h2; have [us -> [[g1 g2 g3] su hsp]] := cgs_spec h1 h2; exists us => //; split=> //.
- move=> i j hi hj ij; wlog lt : i j hi hj ij / (i < j)%N => [H|].
    case: (ltngtP i j) => [l|l|e]; [exact: H| |by rewrite e eqxx in ij].
    have s k : (k < size vs)%N -> size (nth [::] us k) = n.
      by move=> hk; apply/eqP/(all_nthP [::] g1); rewrite su.
    by rewrite (cdot_sym (s _ hi) (s _ hj)) (H j i) ?conjc0 // eq_sym.
  by apply/eqP; move/(pairwiseP [::]): g2; apply=> //; rewrite inE su.
- move=> i hi; rewrite clength_eq0; apply: (all_nthP [::] g3); by rewrite su.
Qed.
Print Assumptions C83_gram_schmidt.

(** * Matrices *)
(* NormSquared, Norm and NormPrecise are the Frobenius norm *)
Theorem C83_norm (R : rcfType) (r c : nat) (A : mat R[i]) : wf r c A -> (0 < r)%N -> (0 < c)%N ->
  [/\ cnorm_squared r c A = \sum_(i < r) \sum_(j < c) (complex.Re (get A i j) ^+ 2 + complex.Im (get A i j) ^+ 2),
      cnorm r c A ^+ 2 = cnorm_squared r c A, 0 <= cnorm r c A & cnorm_precise r c A = Some (cnorm r c A)].
Proof.
move=> w r0 c0; split; rewrite ?cnorm_preciseE ?(cnorm_squaredP w) // ?sqrtr_ge0 //.
rewrite /cnorm (cnorm_squaredP w) sqr_sqrtr //.
by apply: sumr_ge0 => i _; apply: sumr_ge0 => j _; rewrite addr_ge0 ?sqr_ge0.
Qed.
Print Assumptions C83_norm.

(* ConjTranspose is the adjoint for the Hermitian product, and an involution *)
Theorem C83_adjoint (R : rcfType) (r c : nat) (A : mat R[i]) (x y : seq R[i]) :
  wf r c A -> size x = c -> size y = r -> (0 < r)%N -> (0 < c)%N ->
  [/\ wf c r (conj_transpose r c A),
      cdot (mat_vec r c A x) y = cdot x (mat_vec c r (conj_transpose r c A) y) &
      forall i j, (i < r)%N -> (j < c)%N -> get (conj_transpose c r (conj_transpose r c A)) i j = get A i j].
Proof.
move=> w sx sy r0 c0; have [w1 _ g1] := conj_transposeP r c A.
have [w2 _ g2] := conj_transposeP c r (conj_transpose r c A); split=> //; last first.
  by move=> i j hi hj; rewrite g2 // g1 // conjcK.
rewrite (mat_vecP w) // (mat_vecP w1) // (@cdotE _ r) ?size_mkseq // (@cdotE _ c) ?size_mkseq //.
transitivity (\sum_(i < r) \sum_(j < c) nth 0 x j * get A i j * conjc (nth 0 y i)).
  by apply: eq_bigr => i _; rewrite nth_mkseq // mulr_suml.
rewrite exchange_big /=; apply: eq_bigr => j _; rewrite nth_mkseq // conjsum mulr_sumr.
by apply: eq_bigr => i _; rewrite conjM g1 // conjcK -mulrA [conjc _ * _]mulrC.
Qed.
Print Assumptions C83_adjoint.

(* (3 + 4i, 0): scale 4, length 5; and two vectors that are orthogonal only with the conjugation *)
Example C83_example (R : rcfType) :
  let v := [:: (3%:R +i* 4%:R)%C; 0] : seq R[i] in
  [/\ cscale_elements v = 4%:R, clength v = 5%:R,
      cdot [:: 1; ('i)%C] [:: 1; (- 'i)%C] = 0 :> R[i] & cdot [:: 1; ('i)%C] [:: 1; ('i)%C] = 2%:R :> R[i]].
Proof.
have h (x : R) : x *+ 2 = x + x by [].
split.
- rewrite /cscale_elements /vmax2 /vmap2 /vmaxelem /= /std_max !normr_nat normr0 ltxx ltr_nat /=.
  by rewrite ltNge ler0n.
- rewrite /clength clength_squaredE /= !big_ord_recr big_ord0 /= expr0n !addr0 add0r.
  have -> : 3%:R ^+ 2 + 4%:R ^+ 2 = 5%:R ^+ 2 :> R by ring.
  by rewrite sqrtr_sqr normr_nat.
- rewrite (@cdotE _ 2) // !big_ord_recr big_ord0 /= add0r; apply/eqP; rewrite eq_complex /=.
  by apply/andP; split; apply/eqP; ring.
- rewrite (@cdotE _ 2) // !big_ord_recr big_ord0 /= add0r; apply/eqP; rewrite eq_complex /=.
  by apply/andP; split; apply/eqP; ring.
Qed.
