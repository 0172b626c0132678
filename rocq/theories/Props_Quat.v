(* Properties C61 - C66: quaternions *)
From mathcomp Require Import all_ssreflect all_algebra.
From mathcomp Require Import ring.
From Verif Require Import M_Vec M_Mat M_Quat M_Transform Spec SpecQuat P_Vec P_Mat P_Transform P_Quat P_Rot.
Set Implicit Arguments. Unset Strict Implicit. Unset Printing Implicit Defensive.
Import Order.Theory GRing.Theory Num.Theory.
Local Open Scope ring_scope.

(* turn well-formed quaternions into (layout, meaning) pairs *)
Ltac open_quat q w sf x :=
  let e := fresh in
  have e := wfqE w; move: e; move: (sfirst q) (absq q) => sf x e; subst q; clear w.

(** * C61 The Hamilton product *)
Theorem C61_hamilton (R : comRingType) (jk : R) (p q : quat R) : wfq p -> wfq q ->
  [/\ wfq (qmul jk p q), sfirst (qmul jk p q) = sfirst p, absq (qmul jk p q) = hmul (absq p) (absq q) &
      absq (qmul_assign jk p q) = hmul (absq p) (absq q)].
Proof.
move=> wp wq; open_quat p wp s1 x; open_quat q wq s2 y.
rewrite /qmul_assign !qmul_mkq qconvert_mkq !absq_mkq !sfirst_mkq; split=> //; exact: wfq_mkq.
Qed.
Print Assumptions C61_hamilton.

(* the defining relations, for every combination of layouts *)
Theorem C61_relations (R : comRingType) (jk : R) (sf1 sf2 : bool) :
  let I sf := of_elements jk sf 0 1 0 0 in
  let J sf := of_elements jk sf 0 0 1 0 in
  let K sf := of_elements jk sf 0 0 0 1 in
  let neg1 : hq R := (-1, 0, 0, 0) in
  [/\ absq (qmul jk (I sf1) (I sf2)) = neg1, absq (qmul jk (J sf1) (J sf2)) = neg1,
      absq (qmul jk (K sf1) (K sf2)) = neg1 & absq (qmul jk (qmul jk (I sf1) (J sf2)) (K sf1)) = neg1].
Proof.
move=> I J K neg1; rewrite /I /J /K /of_elements !of_canonicalE.
by split; rewrite !qmul_mkq absq_mkq /=; congr (_, _, _, _); ring.
Qed.
Print Assumptions C61_relations.

Theorem C61_algebra (R : comRingType) (jk : R) (p q r : quat R) : wfq p -> wfq q -> wfq r ->
  [/\ absq (qmul jk (qmul jk p q) r) = absq (qmul jk p (qmul jk q r)),
      absq (qmul jk p (qadd jk q r)) = absq (qadd jk (qmul jk p q) (qmul jk p r)),
      absq (qmul jk (qadd jk p q) r) = absq (qadd jk (qmul jk p r) (qmul jk q r)),
      (forall sf, absq (qmul jk (of_scalar jk sf 1) p) = absq p /\ absq (qmul jk p (of_scalar jk sf 1)) = absq p) &
      qlength_squared (qmul jk p q) = qlength_squared p * qlength_squared q].
Proof.
move=> wp wq wr; open_quat p wp s1 x; open_quat q wq s2 y; open_quat r wr s3 z.
split=> [||| sf |]; rewrite ?of_scalarE ?qadd_mkq !qmul_mkq ?qadd_mkq ?absq_mkq ?qlength_squared_mkq.
- exact: hmulA.
- by move: x y z => [[[? ?] ?] ?] [[[? ?] ?] ?] [[[? ?] ?] ?]; congr (_, _, _, _); ring.
- by move: x y z => [[[? ?] ?] ?] [[[? ?] ?] ?] [[[? ?] ?] ?]; congr (_, _, _, _); ring.
- by rewrite hmul1 hmulx1.
- exact: hnormM.
Qed.
Print Assumptions C61_algebra.

Example C61_example :
  let p := of_elements 99%:Q true 1 2%:Q 3%:Q 4%:Q in let q := of_elements 99%:Q false 5%:Q 6%:Q 7%:Q 8%:Q in
  wfq p /\ absq (qmul 99%:Q p q) = (- 60%:Q, 12%:Q, 30%:Q, 24%:Q).
Proof. by split; apply/eqP; vm_compute. Qed.

(** * C62 The layout is unobservable *)
(* construction and element access *)
Theorem C62_construction (R : comRingType) (jk : R) (sf : bool) (s i j k : R) (v : seq R) : size v = 3%N ->
  [/\ [/\ absq (of_elements jk sf s i j k) = (s, i, j, k), absq (of_canonical jk sf [:: s; i; j; k]) = (s, i, j, k),
          absq (of_scalar_vector jk sf s v) = (s, nth 0 v 0, nth 0 v 1, nth 0 v 2),
          absq (of_vector3 jk sf v) = (0, nth 0 v 0, nth 0 v 1, nth 0 v 2) & absq (of_scalar jk sf s) = (s, 0, 0, 0)],
      absq (lit_i jk s) = (0, s, 0, 0) /\ absq (lit_j jk s) = (0, 0, s, 0) /\ absq (lit_k jk s) = (0, 0, 0, s) &
      [/\ wfq (of_elements jk sf s i j k), wfq (of_scalar_vector jk sf s v), wfq (of_vector3 jk sf v) &
          wfq (of_scalar jk sf s)]].
Proof.
move=> sv; rewrite (seq3 0 sv) /of_scalar_vector /of_vector3 /of_scalar /lit_i /lit_j /lit_k /of_elements !of_canonicalE.
by rewrite !absq_mkq !wfq_mkq.
Qed.
Print Assumptions C62_construction.

Theorem C62_access (R : comRingType) (q : quat R) : wfq q ->
  let: (s, i, j, k) := absq q in
  [/\ qs q = s, qi q = i, qj q = j, qk q = k & qvector q = [:: i; j; k] /\ canonical q = [:: s; i; j; k]].
Proof. by move=> wq; open_quat q wq sf x; case: x => [[[s i] j] k]; case: sf. Qed.
Print Assumptions C62_access.

Theorem C62_conversion (R : comRingType) (jk jk' : R) (sf : bool) (q : quat R) : wfq q ->
  [/\ sfirst (qconvert jk sf q) = sf, wfq (qconvert jk sf q), absq (qconvert jk sf q) = absq q &
      qconvert jk' (sfirst q) (qconvert jk sf q) = q].
Proof.
move=> wq; open_quat q wq sf0 x; rewrite !qconvert_mkq !absq_mkq !sfirst_mkq; split=> //.
by rewrite wfq_mkq.
Qed.
Print Assumptions C62_conversion.

(* operations give the same parts whatever the layouts of the operands *)
Theorem C62_operations (R : rcfType) (jk jk' s : R) (p p' q q' : quat R) :
  wfq p -> wfq p' -> wfq q -> wfq q' -> absq p = absq p' -> absq q = absq q' ->
  [/\ [/\ absq (qadd jk p q) = absq (qadd jk' p' q'), absq (qsub jk p q) = absq (qsub jk' p' q'),
          absq (qmul jk p q) = absq (qmul jk' p' q') & qeq p q = qeq p' q' /\ qneq p q = qneq p' q'],
      [/\ absq (qadds jk p s) = absq (qadds jk' p' s), absq (qsubs jk p s) = absq (qsubs jk' p' s),
          absq (qmuls p s) = absq (qmuls p' s) & omap (@absq R) (qdivs p s) = omap (@absq R) (qdivs p' s)],
      [/\ absq (sqadd jk s p) = absq (sqadd jk' s p'), absq (sqsub jk s p) = absq (sqsub jk' s p') &
          absq (sqmul s p) = absq (sqmul s p')] &
      [/\ absq (qconj jk p) = absq (qconj jk' p'), omap (@absq R) (qinverse jk p) = omap (@absq R) (qinverse jk' p'),
          qlength_squared p = qlength_squared p' /\ qlength p = qlength p',
          omap (@absq R) (qnormalize p) = omap (@absq R) (qnormalize p') &
          absq (qnormalize_precise jk p) = absq (qnormalize_precise jk' p')]].
Proof.
move=> wp wp' wq wq'; open_quat p wp s1 x; open_quat p' wp' s2 x'; open_quat q wq s3 y; open_quat q' wq' s4 y'.
move=> ex ey; subst x' y'.
rewrite /qneq /qadds /qsubs /sqadd /sqsub !of_scalarE !sfirst_mkq !qadd_mkq !qsub_mkq !qmul_mkq !qeq_mkq !qmuls_mkq !sqmul_mkq
  !qconj_mkq !qlength_squared_mkq !qlength_mkq !qnormalize_precise_mkq !absq_mkq.
split; split=> //.
- case: (s =P 0) => [->|/eqP s0]; last by rewrite !qdivs_mkq //= !absq_mkq.
  by rewrite /qdivs /vdivs eqxx.
- case: (hnorm x =P 0) => [h|/eqP h]; last by rewrite !qinverse_mkq //= !absq_mkq.
  by rewrite !qinverse0.
- by rewrite !qnormalize_mkq; case: ifP => //= _; rewrite !absq_mkq.
Qed.
Print Assumptions C62_operations.

(* what the operations with scalars and the comparison are *)
Theorem C62_meaning (R : rcfType) (jk s : R) (p q : quat R) : wfq p -> wfq q ->
  [/\ [/\ absq (qadd jk p q) = hadd (absq p) (absq q), absq (qsub jk p q) = hadd (absq p) (hopp (absq q)) &
          absq (qadd_assign jk p q) = hadd (absq p) (absq q) /\ absq (qsub_assign jk p q) = hadd (absq p) (hopp (absq q))],
      [/\ absq (qmuls p s) = hscale s (absq p), absq (sqmul s p) = hscale s (absq p),
          absq (qadds jk p s) = hadd (absq p) (s, 0, 0, 0) /\ absq (qsubs jk p s) = hadd (absq p) (hopp (s, 0, 0, 0)) &
          absq (sqadd jk s p) = hadd (s, 0, 0, 0) (absq p) /\ absq (sqsub jk s p) = hadd (s, 0, 0, 0) (hopp (absq p))],
      s != 0 -> omap (@absq R) (qdivs p s) = Some (hscale s^-1 (absq p)),
      qeq p q = (absq p == absq q) &
      [/\ qlength_squared p = hnorm (absq p), 0 <= qlength p & qlength p ^+ 2 = hnorm (absq p)]].
Proof.
move=> wp wq; open_quat p wp s1 x; open_quat q wq s2 y.
rewrite /qneq /qadds /qsubs /sqadd /sqsub /qadd_assign /qsub_assign !of_scalarE !sfirst_mkq !qadd_mkq !qsub_mkq !qconvert_mkq !qeq_mkq !qmuls_mkq !sqmul_mkq
  !qlength_squared_mkq !qlength_mkq !absq_mkq sqrtr_ge0 sqr_sqrtr ?hnorm_ge0 //.
by split=> // s0; rewrite qdivs_mkq //= absq_mkq.
Qed.
Print Assumptions C62_meaning.

Theorem C62_normalize (R : rcfType) (jk : R) (q : quat R) : wfq q -> absq q <> hzero R ->
  [/\ exists2 n, qnormalize q = Some n & absq n = absq (qnormalize_precise jk q),
      hnorm (absq (qnormalize_precise jk q)) = 1 &
      hscale (qlength q) (absq (qnormalize_precise jk q)) = absq q].
Proof.
move=> wq; open_quat q wq sf x => /eqP x0.
have n0 : hnorm x != 0 by rewrite hnorm_eq0.
have r0 : Num.sqrt (hnorm x) != 0 by rewrite sqrtr_eq0 -ltNge lt_def n0 hnorm_ge0.
rewrite qnormalize_precise_mkq qnormalize_mkq (negbTE n0) (negbTE x0) qlength_mkq absq_mkq.
have e : Num.sqrt (hnorm x) ^+ 2 = hnorm x by rewrite sqr_sqrtr // hnorm_ge0.
split.
- by exists (mkq sf (hscale (Num.sqrt (hnorm x))^-1 x)); rewrite ?absq_mkq.
- move: (Num.sqrt _) r0 e => r r0; case: x x0 n0 => [[[a b] c] d] _ /= n0 e.
  have <- : r ^+ 2 / r ^+ 2 = 1 by rewrite divff // expf_neq0.
  by rewrite {1}e; field.
- by case: x {x0 n0 e} r0 => [[[a b] c] d] /= r0; rewrite !mulVKf.
Qed.
Print Assumptions C62_normalize.

Example C62_example : let p := of_elements 99%:Q true 1 2%:Q 3%:Q 4%:Q in let p' := of_elements 77%:Q false 1 2%:Q 3%:Q 4%:Q in
  absq p = absq p' /\ elems p <> elems p'.
Proof. by split; [apply/eqP; vm_compute|case; vm_compute]. Qed.

(** * C63 Conjugate and inverse *)
Theorem C63_inverse (R : rcfType) (jk : R) (q : quat R) : wfq q -> absq q <> hzero R ->
  exists2 r, qinverse jk q = Some r & [/\ wfq r, absq (qmul jk q r) = hone R & absq (qmul jk r q) = hone R].
Proof.
move=> wq; open_quat q wq sf x => /eqP x0.
have n0 : hnorm x != 0 by rewrite hnorm_eq0.
rewrite qinverse_mkq //; eexists; first by []; rewrite !qmul_mkq wfq_mkq !absq_mkq.
by case: x x0 n0 => [[[a b] c] d] _ /= n0; split=> //; congr (_, _, _, _); field.
Qed.
Print Assumptions C63_inverse.

(* the zero quaternion: the division is by zero *)
Theorem C63_inverse_zero (R : rcfType) (jk : R) (q : quat R) : wfq q -> absq q = hzero R -> qinverse jk q = None.
Proof.
by move=> wq; open_quat q wq sf x => ->; rewrite qinverse0 //=; ring.
Qed.
Print Assumptions C63_inverse_zero.

Theorem C63_conjugate (R : rcfType) (jk : R) (p q : quat R) : wfq p -> wfq q ->
  [/\ absq (qconj jk p) = hconj (absq p), absq (qconj jk (qmul jk p q)) = absq (qmul jk (qconj jk q) (qconj jk p)),
      absq (qmul jk p (qconj jk p)) = (hnorm (absq p), 0, 0, 0) /\ absq (qmul jk (qconj jk p) p) = (hnorm (absq p), 0, 0, 0),
      absq (qconj jk (qconj jk p)) = absq p &
      hnorm (absq p) = 1 -> omap (@absq R) (qinverse jk p) = Some (absq (qconj jk p))].
Proof.
move=> wp wq; open_quat p wp s1 x; open_quat q wq s2 y.
rewrite !qmul_mkq !qconj_mkq !qmul_mkq !absq_mkq.
split=> [||| |h].
- by [].
- by case: x y => [[[a b] c] d] [[[a' b'] c'] d'] /=; congr (_, _, _, _); ring.
- by case: x => [[[a b] c] d] /=; split; congr (_, _, _, _); ring.
- by case: x => [[[a b] c] d] /=; rewrite !opprK.
- rewrite qinverse_mkq h ?oner_eq0 //= absq_mkq invr1; congr Some.
  by case: x {h} => [[[a b] c] d] /=; rewrite !mul1r.
Qed.
Print Assumptions C63_conjugate.

Example C63_example : let q := of_elements 99%:Q false 1 2%:Q 3%:Q 4%:Q in
  [/\ wfq q, absq q <> hzero rat_Ring & absq (qmul 99%:Q q (qconj 99%:Q q)) = (30%:Q, 0, 0, 0)].
Proof. by split; [|case=> //|]; apply/eqP; vm_compute. Qed.

(** * C64 Rotation of vectors *)
Definition dot3 (R : ringType) (a b : seq R) : R := \sum_(i < 3) nth 0 a i * nth 0 b i.
Definition cross3 (R : ringType) (a b : seq R) : seq R :=
  mkseq (fun i => nth 0 a (i.+1 %% 3) * nth 0 b (i.+2 %% 3) - nth 0 a (i.+2 %% 3) * nth 0 b (i.+1 %% 3)) 3.
Definition lincomb3 (R : ringType) (s : R) (a : seq R) (t : R) (b : seq R) : seq R :=
  mkseq (fun i => s * nth 0 a i + t * nth 0 b i) 3.

(* q(v) is the vector part of q v q^-1, and the scalar part of that product is zero *)
Theorem C64_sandwich (R : rcfType) (jk : R) (q r : quat R) (v : seq R) : wfq q -> qinverse jk q = Some r -> size v = 3%N ->
  exists2 w, qrotate jk q v = Some w & size w = 3%N /\
    hmul (hmul (absq q) (0, nth 0 v 0, nth 0 v 1, nth 0 v 2)) (absq r) = (0, nth 0 w 0, nth 0 w 1, nth 0 w 2).
Proof.
move=> wq; open_quat q wq sf x; case: (hnorm x =P 0) => [h|/eqP h]; first by rewrite qinverse0.
rewrite qinverse_mkq // => -[<-] sv; rewrite qrotateE // absq_mkq; eexists; first by []; split; first by case: x {h} => [[[]]].
case: x h => [[[s i] j] k]; rewrite /rot3; move: (nth 0 v 0) (nth 0 v 1) (nth 0 v 2) => a b c /= h.
by congr (_, _, _, _); field.
Qed.
Print Assumptions C64_sandwich.

Theorem C64_isometry (R : rcfType) (jk s t : R) (q : quat R) (a b : seq R) : wfq q -> absq q <> hzero R ->
  size a = 3%N -> size b = 3%N -> exists ra, exists rb,
  [/\ [/\ qrotate jk q a = Some ra, qrotate jk q b = Some rb & size ra = 3%N /\ size rb = 3%N],
      qrotate jk q (lincomb3 s a t b) = Some (lincomb3 s ra t rb),
      dot3 ra rb = dot3 a b & qrotate jk q (cross3 a b) = Some (cross3 ra rb)].
Proof.
move=> wq; open_quat q wq sf x => /eqP; rewrite -hnorm_eq0 => h sa sb.
exists (rot3 x a), (rot3 x b); rewrite !qrotateE // ?size_mkseq //.
case: x h => [[[w i] j] k] /=; rewrite /dot3 !big_ord_recl !big_ord0 /lincomb3 /cross3 /mkseq /=.
move: (nth 0 a 0) (nth 0 a 1) (nth 0 a 2) (nth 0 b 0) (nth 0 b 1) (nth 0 b 2) => a0 a1 a2 b0 b1 b2 h.
split; [by []|congr Some; congr [:: _; _; _]; field| |congr Some; congr [:: _; _; _]; field] => //.
by field.
Qed.
Print Assumptions C64_isometry.

Theorem C64_scale_invariant (R : rcfType) (jk jk' t : R) (q q' : quat R) (v : seq R) : wfq q -> wfq q' ->
  t != 0 -> absq q' = hscale t (absq q) -> absq q <> hzero R -> size v = 3%N -> qrotate jk' q' v = qrotate jk q v.
Proof.
move=> wq wq'; open_quat q wq sf x; open_quat q' wq' sf' x' => t0 -> /eqP; rewrite -hnorm_eq0 => h sv.
have e : hnorm (hscale t x) = t ^+ 2 * hnorm x by case: x {h} => [[[a b] c] d] /=; ring.
rewrite !qrotateE // ?e ?mulf_neq0 ?expf_neq0 //; congr Some.
case: x h e => [[[a b] c] d] /=; move: (nth 0 v 0) (nth 0 v 1) (nth 0 v 2) => v0 v1 v2 h e.
by congr [:: _; _; _]; rewrite e; field; rewrite h t0.
Qed.
Print Assumptions C64_scale_invariant.

Theorem C64_compose (R : rcfType) (jk : R) (p q : quat R) (v : seq R) : wfq p -> wfq q ->
  absq p <> hzero R -> absq q <> hzero R -> size v = 3%N ->
  exists2 w, qrotate jk q v = Some w & qrotate jk (qmul jk p q) v = qrotate jk p w.
Proof.
move=> wp wq; open_quat p wp s1 x; open_quat q wq s2 y => /eqP; rewrite -hnorm_eq0 => hx /eqP; rewrite -hnorm_eq0 => hy sv.
exists (rot3 y v); first by rewrite qrotateE.
rewrite qmul_mkq !qrotateE ?hnormM ?mulf_neq0 //; last by case: y {hy} => [[[]]].
have := hnormM x y.
case: x hx => [[[a b] c] d]; case: y hy => [[[a' b'] c'] d'] /=; move: (nth 0 v 0) (nth 0 v 1) (nth 0 v 2) => v0 v1 v2 hx hy e.
by congr (Some [:: _; _; _]); rewrite e; field; rewrite hx hy.
Qed.
Print Assumptions C64_compose.

(* a zero quaternion does not rotate: the inverse divides by zero *)
Theorem C64_zero (R : rcfType) (jk : R) (q : quat R) (v : seq R) : wfq q -> absq q = hzero R -> qrotate jk q v = None.
Proof. by move=> wq e; rewrite /qrotate C63_inverse_zero. Qed.
Print Assumptions C64_zero.

(** * C65 Conversion to a matrix *)
Theorem C65_rotates (R : rcfType) (follow rm : bool) (jk jk' : R) (r c : nat) (q : quat R) (v : seq R) :
  wfq q -> hnorm (absq q) = 1 -> shape follow 3 r c -> size v = 3%N ->
  transform follow 3 r c (quat_to_matrix follow rm jk r c q) v = qrotate jk' q v.
Proof.
move=> wq; open_quat q wq sf x => n1 hs sv.
rewrite (affine_transform (quat_to_matrix_affine rm jk sf x hs)) // qrotateE ?n1 ?oner_eq0 //; congr Some.
rewrite if_same; case: x n1 => [[[s i] j] k] /= n1; rewrite /mkseq /= !big_ord_recl !big_ord0 /= n1.
have es : s * s = 1 - i * i - j * j - k * k by rewrite -n1; ring.
move: (nth 0 v 0) (nth 0 v 1) (nth 0 v 2) => v0 v1 v2.
by congr [:: _; _; _]; rewrite es; field.
Qed.
Print Assumptions C65_rotates.

(* the 3x3, 3x4, 4x3 and 4x4 conversions: the same rotation block, identity elsewhere *)
Theorem C65_shapes (R : comRingType) (follow rm rm' : bool) (jk jk' : R) (r c : nat) (q : quat R) :
  wfq q -> (3 <= r)%N -> (3 <= c)%N ->
  let m := quat_to_matrix follow rm jk r c q in let m3 := quat_to_matrix follow rm' jk' 3 3 q in
  [/\ wf r c m, wf 3 3 m3, forall i j, (i < 3)%N -> (j < 3)%N -> get m i j = get m3 i j &
      forall i j, (i < r)%N -> (j < c)%N -> ~~ ((i < 3) && (j < 3))%N -> get m i j = (i == j)%:R].
Proof.
move=> wq; open_quat q wq sf x => hr hc m m3.
have [w h] := quat_to_matrixP follow rm jk sf x hr hc.
have [w3 h3] := quat_to_matrixP follow rm' jk' sf x (leqnn 3) (leqnn 3).
split=> // i j hi hj; last by move=> ne; rewrite h // (negbTE ne).
by rewrite h ?h3 ?hi ?hj //; [apply: leq_trans hi _|apply: leq_trans hj _].
Qed.
Print Assumptions C65_shapes.

Lemma quat_matrixE (R : comRingType) (follow rm : bool) (jk : R) sf (x : hq R) : hnorm x = 1 ->
  mxof 3 3 (quat_to_matrix follow rm jk 3 3 (mkq sf x)) = if follow then (fmx 3 (roth x))^T else fmx 3 (roth x).
Proof.
move=> n1; have [_ h] := quat_to_matrixP follow rm jk sf x (leqnn 3) (leqnn 3).
by rewrite -rotm_roth //; apply/matrixP => i j; rewrite mxE h // !ltn_ord /=; case: ifP => _; rewrite !mxE.
Qed.

Theorem C65_special_orthogonal (R : comRingType) (follow rm : bool) (jk : R) (q : quat R) :
  wfq q -> hnorm (absq q) = 1 ->
  let M := mxof 3 3 (quat_to_matrix follow rm jk 3 3 q) in
  [/\ M *m M^T = 1%:M, M^T *m M = 1%:M & \det M = 1].
Proof.
move=> wq; open_quat q wq sf x => n1 M.
suff [o d] : so M by split=> //; apply: mulmx1C.
by rewrite /M quat_matrixE //; case: ifP => _; [apply: so_tr|]; apply: roth_so.
Qed.
Print Assumptions C65_special_orthogonal.

Theorem C65_product (R : comRingType) (follow rm : bool) (jk : R) (p q : quat R) :
  wfq p -> wfq q -> hnorm (absq p) = 1 -> hnorm (absq q) = 1 ->
  let M x := mxof 3 3 (quat_to_matrix follow rm jk 3 3 x) in
  M (qmul jk p q) = if follow then M q *m M p else M p *m M q.
Proof.
move=> wp wq; open_quat p wp s1 x; open_quat q wq s2 y => hx hy M.
rewrite /M qmul_mkq !quat_matrixE ?hnormM ?hx ?hy ?mulr1 // roth_mul.
by case: ifP => _ //; rewrite trmx_mul.
Qed.
Print Assumptions C65_product.

(* without the unit-length condition the matrix does not rotate *)
Example C65_example : let q := of_elements 99%:Q true (3%:Q / 5%:Q) 0 0 (4%:Q / 5%:Q) in
  [/\ wfq q, hnorm (absq q) = 1 & transform true 3 4 3 (quat_to_matrix true false 7%:Q 4 3 q) [:: 25%:Q; 0; 3%:Q] = Some [:: - 7%:Q; 24%:Q; 3%:Q]].
Proof. by split; apply/eqP; vm_compute. Qed.

(** * C66 Conversion from a matrix *)
(* The conversion divides by the scalar part: it is correct for rotations whose trace exceeds -1 ... *)
Theorem C66_rotation_partial (R : rcfType) (follow rm sf : bool) (jk : R) (m : mat R) :
  let A := mxof 3 3 m in
  A *m A^T = 1%:M -> \det A = 1 -> -1 < \tr A ->
  exists2 q, matrix_to_quat follow jk sf m = Some q &
  [/\ wfq q, sfirst q = sf, hnorm (absq q) = 1 & mxof 3 3 (quat_to_matrix follow rm jk 3 3 q) = A].
Proof.
move=> A oA dA tA.
pose e i j := if follow then get m j i else get m i j.
have eA : fmx 3 e = if follow then A^T else A.
  by rewrite /e; case: (follow); apply/matrixP => i j; rewrite !mxE.
have se : so (fmx 3 e) by rewrite eA; case: (follow); [apply: so_tr|].
have [[] ] := so3_quat se.
rewrite /matrix_to_quat -/e; set w := 1 + e _ _ + _ + _ => k0 k1 k2 k01 k02 k12.
have w0 : 0 < w.
  have -> : w = 1 + \tr A by rewrite /w /mxtrace !big_ord_recl big_ord0 !mxE /e /= addr0 !addrA; case: (follow).
  by rewrite -(subrr 1) ltr_add2l.
rewrite ltNge (ltW w0) /=.
set u := Num.sqrt w; have u2 : u ^+ 2 = w by rewrite sqr_sqrtr // ltW.
have u0 : u != 0 by rewrite sqrtr_eq0 -ltNge.
have [n2 n4] : 2%:R != 0 :> R /\ 4%:R != 0 :> R by rewrite !pnatr_eq0.
have d0 : 4%:R * (u * 2%:R^-1) != 0 by rewrite !mulf_neq0 ?invr_eq0.
rewrite /sdiv (negbTE d0) of_canonicalE; eexists; first by [].
have -> : 1 / (4%:R * (u * 2%:R^-1)) = (2%:R * u)^-1 by field; rewrite u0.
have [] := quat_scalars u0 u2 k0 k1 k2 k01 k02 k12.
set x := (_, _, _, _); rewrite wfq_mkq sfirst_mkq absq_mkq => n1 rx; split=> //.
rewrite quat_matrixE // -rotm_roth //.
have -> : fmx 3 (rotm x) = fmx 3 e.
  by apply/matrixP => -[[|[|[|i]]] hi] // [[|[|[|j]]] hj] //; rewrite !mxE rx.
by rewrite eA; case: (follow); rewrite ?trmxK.
Qed.
Print Assumptions C66_rotation_partial.

(* ... and fails for half turns, where it divides by zero *)
Theorem C66_refuted (R : rcfType) : exists m : mat R, let A := mxof 3 3 m in
  [/\ wf 3 3 m, A *m A^T = 1%:M, \det A = 1 & forall follow sf jk, matrix_to_quat follow jk sf m = None].
Proof.
pose f (i j : nat) : R := if i == j then (if i == 0%N then 1 else -1) else 0.
exists (Mat true 0 [:: [:: 1; 0; 0]; [:: 0; -1; 0]; [:: 0; 0; -1]]) => A.
have eA : A = fmx 3 f.
  by apply/matrixP => -[[|[|[|i]]] hi] // [[|[|[|j]]] hj] //; rewrite !mxE /get /f.
split=> //.
- rewrite eA tr_fmx mul_fmx3 one_fmx; apply/matrixP => -[[|[|[|i]]] hi] // [[|[|[|j]]] hj] //; rewrite !mxE /f /=; ring.
- by rewrite eA det_fmx3 /f /=; ring.
move=> follow sf jk; rewrite /matrix_to_quat.
set w := 1 + _ + _ + _; have -> : w = 0 by rewrite /w; case: (follow); rewrite /get /=; ring.
by rewrite ltxx sqrtr0 mul0r mulr0 /sdiv eqxx.
Qed.
Print Assumptions C66_refuted.

Example C66_example : exists m : mat rat, [/\ mxof 3 3 m *m (mxof 3 3 m)^T = 1%:M, \det (mxof 3 3 m) = 1, -1 < \tr (mxof 3 3 m) & mxof 3 3 m <> 1%:M].
Proof.
pose m := quat_to_matrix false false 7%:Q 3 3 (of_elements 99%:Q true (3%:Q / 5%:Q) 0 0 (4%:Q / 5%:Q)).
have [|//|o _ d] := @C65_special_orthogonal _ false false 7%:Q (of_elements 99%:Q true (3%:Q / 5%:Q) 0 0 (4%:Q / 5%:Q)).
  by apply/eqP; vm_compute.
exists m; split=> //.
  by rewrite /mxtrace !big_ord_recl big_ord0 !mxE; vm_compute.
by move/matrixP => /(_ ord0 ord0); rewrite !mxE => /eqP; vm_compute.
Qed.
