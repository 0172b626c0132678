(* Properties C09-C13, C15, C16: vector functions. *)
From mathcomp Require Import all_ssreflect all_algebra.
From mathcomp Require Import ring.
From Verif Require Import Spec M_Vec P_Vec P_Det.
Set Implicit Arguments. Unset Strict Implicit. Unset Printing Implicit Defensive.
Import Order.Theory GRing.Theory Num.Theory.
Local Open Scope ring_scope.

(** * C09 Clamp and Saturate *)
Theorem C09_clamp_bounds (R : realDomainType) (v : seq R) (lo hi : R) (i : nat) :
  lo <= hi -> (i < size v)%N ->
  size (vclamp v lo hi) = size v /\ lo <= nth 0 (vclamp v lo hi) i <= hi.
Proof.
move=> h hi'; rewrite size_vclamp nth_vclamp //; split=> //.
by rewrite le_minr le_maxr lexx orbT h /= le_minl lexx orbT.
Qed.
Print Assumptions C09_clamp_bounds.

Theorem C09_clamp_inside (R : realDomainType) (v : seq R) (lo hi : R) (i : nat) :
  (i < size v)%N -> lo <= nth 0 v i <= hi -> nth 0 (vclamp v lo hi) i = nth 0 v i.
Proof. by move=> hi' /andP [h1 h2]; rewrite nth_vclamp // max_l // min_l. Qed.
Print Assumptions C09_clamp_inside.

Theorem C09_clamp_outside (R : realDomainType) (v : seq R) (lo hi : R) (i : nat) :
  (i < size v)%N -> lo <= hi ->
  (nth 0 v i <= lo -> nth 0 (vclamp v lo hi) i = lo) /\
  (hi <= nth 0 v i -> nth 0 (vclamp v lo hi) i = hi).
Proof.
move=> hi' h; rewrite nth_vclamp //; split=> h1; first by rewrite max_r // min_l.
by rewrite max_l ?min_r // (le_trans h).
Qed.
Print Assumptions C09_clamp_outside.

Theorem C09_clamp_idempotent (R : realDomainType) (v : seq R) (lo hi : R) :
  lo <= hi -> vclamp (vclamp v lo hi) lo hi = vclamp v lo hi.
Proof.
move=> h; apply: (@eq_from_nth _ 0); rewrite ?size_vclamp // => i hi'.
apply: C09_clamp_inside; rewrite ?size_vclamp //.
by have [] := C09_clamp_bounds h hi'.
Qed.
Print Assumptions C09_clamp_idempotent.

Theorem C09_clamp_monotone (R : realDomainType) (v w : seq R) (lo hi : R) (i : nat) :
  (i < size v)%N -> (i < size w)%N -> nth 0 v i <= nth 0 w i ->
  nth 0 (vclamp v lo hi) i <= nth 0 (vclamp w lo hi) i.
Proof.
move=> hv hw h; rewrite !nth_vclamp //.
rewrite le_minr !le_minl lexx orbT andbT; apply/orP; left.
by rewrite le_maxl !le_maxr h lexx orbT.
Qed.
Print Assumptions C09_clamp_monotone.

Theorem C09_saturate (R : realDomainType) (v : seq R) (i : nat) :
  (i < size v)%N ->
  0 <= nth 0 (vsaturate v) i <= 1 /\ (0 <= nth 0 v i <= 1 -> nth 0 (vsaturate v) i = nth 0 v i).
Proof.
move=> h; split; last exact: C09_clamp_inside.
by have [] := C09_clamp_bounds (@ler01 R) h.
Qed.
Print Assumptions C09_saturate.

Example C09_example : vclamp [:: - 5%:Q; 2%:Q; 9%:Q] 0 3%:Q = [:: 0; 2%:Q; 3%:Q].
Proof. by apply/eqP; vm_compute. Qed.

(** * C10 Inner product laws *)
(* The independent definition of Dot *)
Theorem C10_dot (R : rcfType) (n : nat) (a b : seq R) : size a = n -> size b = n ->
  vdot id a b = \sum_(i < n) nth 0 a i * nth 0 b i.
Proof. exact: vdot_idE. Qed.
Print Assumptions C10_dot.

(* with complex elements: conjugate-linear in the second argument and Hermitian for every
   involutive ring automorphism [conj] *)
Theorem C10_dot_hermitian (R : comRingType) (conj : {rmorphism R -> R}) (n : nat) (a b : seq R) :
  involutive conj -> size a = n -> size b = n -> vdot conj a b = conj (vdot conj b a).
Proof.
move=> hc sa sb; rewrite !(@vdotE _ _ n) // rmorph_sum; apply: eq_bigr => i _.
by rewrite rmorphM hc mulrC.
Qed.
Print Assumptions C10_dot_hermitian.

Theorem C10_bilinear (R : rcfType) (n : nat) (a b c : seq R) (s : R) :
  size a = n -> size b = n -> size c = n ->
  [/\ vdot id a b = vdot id b a,
      vdot id (vadd a b) c = vdot id a c + vdot id b c,
      vdot id (vsub a b) c = vdot id a c - vdot id b c,
      vdot id (vscale a s) b = s * vdot id a b &
      vdot id (vscalel s a) b = s * vdot id a b].
Proof.
by move=> sa sb sc; split; [apply: dot_sym sa sb|apply: dot_addl sa sb sc|apply: dot_subl sa sb sc
  |apply: dot_scale sa sb|apply: dot_scalel sa sb].
Qed.
Print Assumptions C10_bilinear.

Theorem C10_positive_definite (R : rcfType) (v : seq R) :
  0 <= vdot id v v /\ (vdot id v v = 0 <-> forall i, (i < size v)%N -> nth 0 v i = 0).
Proof.
split; first exact: dot_ge0.
split=> [/eqP|h]; first by rewrite dot_eq0 => /(all_nthP 0) h i /h /eqP.
by apply/eqP; rewrite dot_eq0; apply/(all_nthP 0) => i /h ->.
Qed.
Print Assumptions C10_positive_definite.

Theorem C10_length (R : rcfType) (v : seq R) (s : R) :
  [/\ 0 <= vlength v, vlength v ^+ 2 = \sum_(x <- v) x ^+ 2,
      vlength v = 0 <-> (forall i, (i < size v)%N -> nth 0 v i = 0) &
      vlength (vscale v s) = `|s| * vlength v].
Proof.
split; first exact: length_ge0.
- by rewrite length_sq (vdot_idE (erefl _) (erefl _)) (big_nth 0) big_mkord.
- split=> [/eqP|h]; first by rewrite length_eq0 => /(all_nthP 0) h i /h /eqP.
  by apply/eqP; rewrite length_eq0; apply/(all_nthP 0) => i /h ->.
- by rewrite length_mapmul mulrC.
Qed.
Print Assumptions C10_length.

Theorem C10_cauchy_schwarz (R : rcfType) (n : nat) (a b : seq R) :
  size a = n -> size b = n -> `|vdot id a b| <= vlength a * vlength b.
Proof.
move=> sa sb; rewrite -(@ler_pexpn2r _ 2) ?nnegrE ?mulr_ge0 ?length_ge0 //.
by rewrite -normrX ger0_norm ?sqr_ge0 // exprMn !length_sq; apply: cauchy sa sb.
Qed.
Print Assumptions C10_cauchy_schwarz.

Theorem C10_triangle (R : rcfType) (n : nat) (a b : seq R) :
  size a = n -> size b = n -> vlength (vadd a b) <= vlength a + vlength b.
Proof. exact: triangle. Qed.
Print Assumptions C10_triangle.

Theorem C10_distance_metric (R : rcfType) (n : nat) (a b c : seq R) :
  size a = n -> size b = n -> size c = n ->
  [/\ 0 <= vdistance a b, vdistance a b = 0 <-> a = b, vdistance a b = vdistance b a &
      vdistance a c <= vdistance a b + vdistance b c].
Proof.
move=> sa sb sc; split.
- exact: length_ge0.
- split=> [/eqP|->].
    rewrite /vdistance length_eq0 => /(all_nthP 0) h.
    apply: (@eq_from_nth _ 0); rewrite ?sa ?sb // => i hi.
    have := h i; rewrite (size_vsub sa sb) => /(_ hi).
    by rewrite (nth_vsub _ sa sb) subr_eq0 => /eqP.
  apply/eqP; rewrite /vdistance length_eq0; apply/(all_nthP 0) => i _.
  by rewrite (nth_vsub _ sb sb) subrr.
- rewrite /vdistance; have -> : vsub a b = [seq x * (-1) | x <- vsub b a].
    apply: (@eq_from_nth _ 0); first by rewrite (size_vsub sa sb) size_map (size_vsub sb sa).
    move=> i; rewrite (size_vsub sa sb) => hi.
    by rewrite -/(vscale _ _) nth_vscale (nth_vsub _ sa sb) (nth_vsub _ sb sa) mulrN1 opprB.
  by rewrite length_mapmul normrN normr1 mulr1.
- rewrite /vdistance; have -> : vsub a c = vadd (vsub a b) (vsub b c).
    have s1 := size_vsub sa sb; have s2 := size_vsub sb sc.
    apply: (@eq_from_nth _ 0); first by rewrite (size_vsub sa sc) (size_vadd s1 s2).
    move=> i _; rewrite (nth_vadd _ s1 s2) (nth_vsub _ sa sb) (nth_vsub _ sb sc) (nth_vsub _ sa sc).
    by rewrite addrA subrK.
  by apply: (@triangle _ n); rewrite (@size_vsub _ n).
Qed.
Print Assumptions C10_distance_metric.

Example C10_example (R : rcfType) : vlength [:: 3%:R; 4%:R : R] = 5%:R.
Proof.
rewrite /vlength /length_squared /vdot /vsum /=.
have -> : 0 + 3%:R * 3%:R + 4%:R * 4%:R = 5%:R ^+ 2 :> R by ring.
by rewrite sqrtr_sqr ger0_norm // ler0n.
Qed.

(** * C11 LengthPrecise: [tmin], [tmax] stand for numeric_limits<T>::min() and max(). *)
Theorem C11_length_precise (R : rcfType) (tmin tmax : R) (v : seq R) :
  0 < tmin -> tmin <= tmax -> length_precise tmin tmax v = Some (vlength v).
Proof. exact: length_preciseE. Qed.
Print Assumptions C11_length_precise.

Theorem C11_distance_precise (R : rcfType) (tmin tmax : R) (a b : seq R) :
  0 < tmin -> tmin <= tmax -> distance_precise tmin tmax a b = Some (vdistance a b).
Proof. exact: length_preciseE. Qed.
Print Assumptions C11_distance_precise.

Example C11_example (R : rcfType) :
  0 < (2%:R)^-1 :> R /\ (2%:R)^-1 <= 2%:R :> R /\
  length_precise (2%:R)^-1 2%:R [:: 0; 0; 0 : R] = Some 0.
Proof.
have h1 : 0 < (2%:R)^-1 :> R by rewrite invr_gt0 ltr0n.
have h2 : (2%:R)^-1 <= 2%:R :> R.
  by apply: (@le_trans _ _ 1); rewrite ?ler1n // invf_le1 ?ltr0n // ler1n.
split=> //; split=> //; rewrite C11_length_precise //; congr Some.
by apply/eqP; rewrite length_eq0 /= eqxx.
Qed.

(** * C12 Normalize *)
Theorem C12_normalize (R : rcfType) (v : seq R) :
  (exists i, (i < size v)%N && (nth 0 v i != 0)) ->
  exists2 u, vnormalize v = Some u &
    vlength u = 1 /\ exists2 s, 0 < s & v = [seq s * x | x <- u].
Proof.
move=> [i /andP [hi hn]].
have h : ~~ all (fun x => x == 0) v by apply/allPn; exists (nth 0 v i); rewrite ?mem_nth.
exists [seq x / vlength v | x <- v]; first exact: normalizeE.
split; first exact: length_normalized.
exists (vlength v); first exact: length_pos.
rewrite -map_comp -[LHS]map_id; apply: eq_map => x /=.
by rewrite mulrC mulfVK // gt_eqF // length_pos.
Qed.
Print Assumptions C12_normalize.

Theorem C12_normalize_precise (R : rcfType) (v degenerate : seq R) :
  (exists i, (i < size v)%N && (nth 0 v i != 0)) ->
  let u := normalize_precise_or v degenerate in
  vnormalize v = Some u /\ vlength u = 1 /\ exists2 s, 0 < s & v = [seq s * x | x <- u].
Proof.
move=> hex u; have [w hw [h1 h2]] := C12_normalize hex.
case: hex => i /andP [hi hn].
have h : ~~ all (fun x => x == 0) v by apply/allPn; exists (nth 0 v i); rewrite ?mem_nth.
have -> : u = w by rewrite /u normalize_preciseE (negbTE h); case: hw; rewrite normalizeE // => [[]].
by [].
Qed.
Print Assumptions C12_normalize_precise.

Theorem C12_normalize_precise_zero (R : rcfType) (v degenerate : seq R) :
  (forall i, (i < size v)%N -> nth 0 v i = 0) -> normalize_precise_or v degenerate = degenerate.
Proof.
move=> h; rewrite normalize_preciseE; have -> // : all (fun x => x == 0) v.
by apply/(all_nthP 0) => i /h ->.
Qed.
Print Assumptions C12_normalize_precise_zero.

Theorem C12_normalize_precise_unit (R : rcfType) (v : seq R) :
  (0 < size v)%N ->
  size (normalize_precise v) = size v /\ vlength (normalize_precise v) = 1 /\
  ((forall i, (i < size v)%N -> nth 0 v i = 0) ->
   normalize_precise v = 1 :: nseq (size v).-1 0).
Proof.
move=> h; split; first exact: size_normalize_precise.
split=> [|h0].
  rewrite normalize_precise0E; case: ifP => hz; first exact: length_unit0.
  by apply: length_normalized; rewrite hz.
rewrite /normalize_precise C12_normalize_precise_zero // /unit0.
by case: (size v) h.
Qed.
Print Assumptions C12_normalize_precise_unit.

Example C12_example (R : rcfType) : vnormalize [:: 3%:R; 4%:R : R] = Some [:: 3%:R / 5%:R; 4%:R / 5%:R].
Proof. by rewrite /vnormalize C10_example /vdivs pnatr_eq0. Qed.

(** * C13 Cross product *)
Theorem C13_cross3 (R : comRingType) (a b c : seq R) :
  size a = 3%N -> size b = 3%N -> size c = 3%N ->
  [/\ vdot id (cross3 a b) a = 0, vdot id (cross3 a b) b = 0,
      cross3 a b = vneg (cross3 b a),
      vdot id (cross3 a b) (cross3 a b) = vdot id a a * vdot id b b - vdot id a b ^+ 2 &
      vdot id (cross3 a b) c =
      \det (\matrix_(i < 3, j < 3) nth 0 (nth [::] [:: a; b; c] i) j)].
Proof.
rewrite (_ : \det _ = detf 3 (fun i j => nth 0 (nth [::] [:: a; b; c] i) j)) // detf3 /=.
move=> /(seq3 0) -> /(seq3 0) -> /(seq3 0) ->; rewrite !cross3E /=.
rewrite /vdot /vsum /vneg /vscale /=; gen_nth; split; [ring|ring| |ring|ring].
by congr [:: _; _; _]; ring.
Qed.
Print Assumptions C13_cross3.

Theorem C13_cross3_bilinear (R : comRingType) (a a' b : seq R) (s : R) :
  size a = 3%N -> size a' = 3%N -> size b = 3%N ->
  [/\ cross3 (vadd a a') b = vadd (cross3 a b) (cross3 a' b),
      cross3 b (vadd a a') = vadd (cross3 b a) (cross3 b a'),
      cross3 (vscale a s) b = vscale (cross3 a b) s &
      cross3 a (vscale b s) = vscale (cross3 a b) s].
Proof.
move=> /(seq3 0) -> /(seq3 0) -> /(seq3 0) ->; rewrite !cross3E /= /vadd /vmap2 /vscale /=.
by gen_nth; split; congr [:: _; _; _]; ring.
Qed.
Print Assumptions C13_cross3_bilinear.

(* right-handed: e_x x e_y = e_z, cyclically *)
Theorem C13_cross3_basis (R : comRingType) :
  [/\ cross3 [:: 1; 0; 0] [:: 0; 1; 0 : R] = [:: 0; 0; 1],
      cross3 [:: 0; 1; 0] [:: 0; 0; 1 : R] = [:: 1; 0; 0] &
      cross3 [:: 0; 0; 1] [:: 1; 0; 0 : R] = [:: 0; 1; 0]].
Proof. by rewrite !cross3E /=; split; congr [:: _; _; _]; ring. Qed.
Print Assumptions C13_cross3_basis.

(* in 2D: (x, y) goes to (-y, x), the rotation by +90 degrees: orthogonal, same length, det >= 0 *)
Theorem C13_cross2 (R : comRingType) (a : seq R) :
  size a = 2%N ->
  [/\ vdot id (cross2 a) a = 0, vdot id (cross2 a) (cross2 a) = vdot id a a &
      \det (\matrix_(i < 2, j < 2) nth 0 (nth [::] [:: a; cross2 a] i) j) = vdot id a a].
Proof.
rewrite (_ : \det _ = detf 2 (fun i j => nth 0 (nth [::] [:: a; cross2 a] i) j)) // detf2 /=.
by move=> /(seq2 0) ->; rewrite /cross2 /= /vdot /vsum /=; gen_nth; split; ring.
Qed.
Print Assumptions C13_cross2.

Example C13_example : cross3 [:: 1%:Z; 2%:Z; 3%:Z] [:: 4%:Z; 5%:Z; 6%:Z] = [:: - 3%:Z; 6%:Z; - 3%:Z].
Proof. by []. Qed.

(** * C15 Gram-Schmidt *)
Theorem C15_gram_schmidt (R : rcfType) (n : nat) (vs : seq (seq R)) :
  (forall v, v \in vs -> size v = n) -> free [seq rv n v | v <- vs] ->
  exists2 us, gram_schmidt vs = Some us &
    [/\ size us = size vs /\ (forall u, u \in us -> size u = n),
        forall i j, (i < j < size vs)%N -> vdot id (nth [::] us i) (nth [::] us j) = 0,
        forall i, (i < size vs)%N -> rv n (nth [::] us i) != 0 &
        forall k, (<<[seq rv n u | u <- take k us]>> = <<[seq rv n v | v <- take k vs]>>)%VS].
Proof.
move=> hs hf; have hs' : all (fun v => size v == n) vs by apply/allP => v /hs ->.
have [us e [[g1 /(pairwiseP [::]) g2 g3] sz h]] := gs_spec hs' hf.
exists us => //; split=> //; first by split=> // u /(allP g1) /eqP.
- move=> i j /andP [hij hj]; apply/eqP; apply: g2 => //; rewrite ?inE ?sz //.
  exact: ltn_trans hij hj.
- move=> i hi; have hm : nth [::] us i \in us by rewrite mem_nth ?sz.
  by rewrite rv_eq0 ?(eqP (allP g1 _ hm)) // (allP g3).
Qed.
Print Assumptions C15_gram_schmidt.

Theorem C15_in_place (R : rcfType) (vs : seq (seq R)) : gram_schmidt_in_place vs = gram_schmidt vs.
Proof. exact: (gs_in_placeE [::] vs). Qed.
Print Assumptions C15_in_place.

Example C15_example (R : rcfType) :
  free [seq rv 2 v | v <- [:: [:: 1; 1 : R]; [:: 1; 0]]].
Proof.
rewrite /= free_cons seq1_free span_seq1; apply/andP; split; last first.
  by apply/eqP => /rowP /(_ ord0); rewrite !mxE /= => /eqP; rewrite oner_eq0.
apply/negP => /vlineP [k] /rowP h.
have := h (lift ord0 ord0); rewrite !mxE /= mulr0 => /eqP; by rewrite oner_eq0.
Qed.

(** * C16 Gram-Schmidt on arbitrary input *)
(* The code divides by zero exactly when a proper prefix of the input is linearly dependent. *)
Theorem C16_gram_schmidt_safe_iff_partial (R : rcfType) (n : nat) (vs : seq (seq R)) :
  (forall v, v \in vs -> size v = n) ->
  (gram_schmidt vs <> None <-> free [seq rv n v | v <- take (size vs).-1 vs]).
Proof.
move=> hs; have hs' : all (fun v => size v == n) vs by apply/allP => v /hs ->.
rewrite -(gs_safe hs'); by case: (gram_schmidt vs).
Qed.
Print Assumptions C16_gram_schmidt_safe_iff_partial.

Theorem C16_gram_schmidt_safe_refuted (R : rcfType) :
  exists vs : seq (seq R), (forall v, v \in vs -> size v = 2%N) /\ gram_schmidt vs = None.
Proof.
exists [:: [:: 0; 0]; [:: 1; 0]]; split; first by move=> v; rewrite !inE => /orP [] /eqP ->.
by rewrite /gram_schmidt /= (@gs_proj_zero _ 2) //= eqxx.
Qed.
Print Assumptions C16_gram_schmidt_safe_refuted.

(** * C74, exact arithmetic: FMA and FMTA element by element *)
Theorem C74_exact (R : comRingType) n (a b c d : seq R) i :
  size a = n -> size b = n -> size c = n -> size d = n -> (i < n)%N ->
  nth 0 (vfma a b c) i = nth 0 a i * nth 0 b i + nth 0 c i /\
  nth 0 (vfmta a b c d) i = nth 0 a i * nth 0 b i + nth 0 c i * nth 0 d i.
Proof.
have F x y z k : size x = n -> size y = n -> size z = n -> (k < n)%N ->
    size (vfma x y z) = n /\ nth 0 (vfma x y z) k = nth 0 x k * nth 0 y k + nth 0 z k :> R.
  move=> sx sy sz hk; have s2 : size (zip x y) = n by rewrite size1_zip sx ?sy.
  have s3 : size (zip (zip x y) z) = n by rewrite size1_zip s2 ?sz.
  by rewrite size_map s3 (nth_map ((0, 0), 0)) ?s3 // nth_zip ?s2 ?sz // nth_zip ?sx ?sy.
move=> sa sb sc sd hi; split; first by have [] := F a b c i sa sb sc hi.
have sw := size_vmul sd sc; have sn : size (vneg (vmul d c)) = n by rewrite size_map sw.
have [s1 e1] := F d c (vneg (vmul d c)) i sd sc sn hi; have [s2 e2] := F a b (vmul d c) i sa sb sw hi.
rewrite /vfmta (nth_vadd _ s2 s1) e1 e2 nth_vscale (nth_vmul _ sd sc).
move: (nth 0 a i) (nth 0 b i) (nth 0 c i) (nth 0 d i) => x y z w; ring.
Qed.
Print Assumptions C74_exact.
Example C74_exact_ex : vfmta [:: 2; -1] [:: 3; 4] [:: 5; 6] [:: 7; -2] = [:: 41; -16] :> seq int.
Proof. by []. Qed.
