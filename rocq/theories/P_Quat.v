(* Lemmas about the quaternion model *)
From mathcomp Require Import all_ssreflect all_algebra.
From mathcomp Require Import ring.
From Verif Require Import M_Vec M_Mat M_Quat Spec SpecQuat P_Mat P_Vec.
Set Implicit Arguments. Unset Strict Implicit. Unset Printing Implicit Defensive.
Import Order.Theory GRing.Theory Num.Theory.
Local Open Scope ring_scope.

Section Ring.
Variable R : comRingType.
Implicit Types (p q : quat R).

Definition mkq (sf : bool) (x : hq R) : quat R :=
  let: (a, b, c, d) := x in Quat sf (if sf then [:: a; b; c; d] else [:: b; c; d; a]).
Lemma absq_mkq sf x : absq (mkq sf x) = x.
Proof. by case: x => [[[a b] c] d]; case: sf. Qed.
Lemma sfirst_mkq sf x : sfirst (mkq sf x) = sf.
Proof. by case: x => [[[a b] c] d]. Qed.
Lemma wfq_mkq sf x : wfq (mkq sf x).
Proof. by case: x => [[[a b] c] d]; case: sf. Qed.
Lemma wfqE q : wfq q -> q = mkq (sfirst q) (absq q).
Proof. by case: q => -[] [|a [|b [|c [|d [|? ?]]]]]. Qed.

Lemma canonical_mkq sf a b c d : canonical (mkq sf (a, b, c, d)) = [:: a; b; c; d].
Proof. by case: sf. Qed.
Lemma of_canonicalE jk sf a b c d : of_canonical jk sf [:: a; b; c; d] = mkq sf (a, b, c, d).
Proof. by case: sf. Qed.
Lemma qvector_mkq sf a b c d : qvector (mkq sf (a, b, c, d)) = [:: b; c; d].
Proof. by case: sf. Qed.

Lemma qmul_mkq jk sf sf' x y : qmul jk (mkq sf x) (mkq sf' y) = mkq sf (hmul x y).
Proof.
case: x y => [[[a b] c] d] [[[a' b'] c'] d']; rewrite /qmul !canonical_mkq sfirst_mkq /= of_canonicalE.
by congr (mkq _ (_, _, _, _)) => /=; ring.
Qed.
Lemma qadd_mkq jk sf sf' x y : qadd jk (mkq sf x) (mkq sf' y) = mkq sf (hadd x y).
Proof.
by case: x y => [[[a b] c] d] [[[a' b'] c'] d']; rewrite /qadd !canonical_mkq sfirst_mkq /= of_canonicalE.
Qed.
Lemma qsub_mkq jk sf sf' x y : qsub jk (mkq sf x) (mkq sf' y) = mkq sf (hadd x (hopp y)).
Proof.
by case: x y => [[[a b] c] d] [[[a' b'] c'] d']; rewrite /qsub !canonical_mkq sfirst_mkq /= of_canonicalE.
Qed.
Lemma qconj_mkq jk sf x : qconj jk (mkq sf x) = mkq sf (hconj x).
Proof.
case: x => [[[a b] c] d]; rewrite /qconj !canonical_mkq sfirst_mkq /= of_canonicalE.
by rewrite mulr1 !mulrN1.
Qed.
Lemma qconvert_mkq jk sf sf' x : qconvert jk sf (mkq sf' x) = mkq sf x.
Proof. by case: x => [[[a b] c] d]; rewrite /qconvert canonical_mkq of_canonicalE. Qed.
Lemma of_scalarE jk sf (s : R) : of_scalar jk sf s = mkq sf (s, 0, 0, 0).
Proof. by rewrite /of_scalar /of_elements of_canonicalE. Qed.
Lemma qmuls_mkq sf x s : qmuls (mkq sf x) s = mkq sf (hscale s x).
Proof. by case: x => [[[a b] c] d]; case: sf; rewrite /qmuls /of_vector4 /vscale /= ![_ * s]mulrC. Qed.
Lemma sqmul_mkq sf x s : sqmul s (mkq sf x) = mkq sf (hscale s x).
Proof. by case: x => [[[a b] c] d]; case: sf. Qed.
Lemma qlength_squared_mkq sf x : qlength_squared (mkq sf x) = hnorm x.
Proof. by case: x => [[[a b] c] d]; case: sf; rewrite /qlength_squared /vdot /vsum /=; ring. Qed.
Lemma qeq_mkq sf sf' x y : qeq (mkq sf x) (mkq sf' y) = (x == y).
Proof.
case: x y => [[[a b] c] d] [[[a' b'] c'] d']; rewrite /qeq !canonical_mkq.
by rewrite !xpair_eqE !eqseq_cons eqxx andbT -!andbA.
Qed.
Lemma hmulA x y z : hmul (hmul x y) z = hmul x (hmul y z) :> hq R.
Proof. by case: x y z => [[[a b] c] d] [[[a' b'] c'] d'] [[[e f] g] h]; congr (_, _, _, _); ring. Qed.
Lemma hnormM x y : hnorm (hmul x y) = hnorm x * hnorm y :> R.
Proof. by case: x y => [[[a b] c] d] [[[a' b'] c'] d'] /=; ring. Qed.
Lemma hmul1 x : hmul (hone R) x = x.
Proof. by case: x => [[[a b] c] d]; congr (_, _, _, _); ring. Qed.
Lemma hmulx1 x : hmul x (hone R) = x.
Proof. by case: x => [[[a b] c] d]; congr (_, _, _, _); ring. Qed.
End Ring.

Section Field.
Variable R : rcfType.
Implicit Types (p q : quat R).

Lemma hnorm_ge0 (x : hq R) : 0 <= hnorm x.
Proof. by case: x => [[[a b] c] d] /=; rewrite !addr_ge0 // -expr2 sqr_ge0. Qed.
Lemma hnorm_eq0 (x : hq R) : (hnorm x == 0) = (x == hzero R).
Proof.
case: x => [[[a b] c] d] /=; rewrite /hzero !xpair_eqE -!expr2.
by rewrite !paddr_eq0 ?addr_ge0 ?sqr_ge0 // !sqrf_eq0.
Qed.
Lemma qdivs_mkq sf (x : hq R) s : s != 0 -> qdivs (mkq sf x) s = Some (mkq sf (hscale s^-1 x)).
Proof.
move=> s0; case: x => [[[a b] c] d]; rewrite /qdivs /vdivs (negbTE s0).
by case: sf; rewrite /of_vector4 /= ![s^-1 * _]mulrC.
Qed.
Lemma qinverse_mkq jk sf (x : hq R) : hnorm x != 0 -> qinverse jk (mkq sf x) = Some (mkq sf (hscale (hnorm x)^-1 (hconj x))).
Proof. by move=> n0; rewrite /qinverse qconj_mkq qlength_squared_mkq qdivs_mkq. Qed.
Lemma qinverse0 jk sf (x : hq R) : hnorm x = 0 -> qinverse jk (mkq sf x) = None.
Proof. by move=> n0; rewrite /qinverse /qdivs /vdivs qlength_squared_mkq n0 eqxx. Qed.

Lemma qlength_mkq sf (x : hq R) : qlength (mkq sf x) = Num.sqrt (hnorm x).
Proof. by rewrite /qlength /vlength -(qlength_squared_mkq sf x). Qed.
Lemma qnormalize_mkq sf (x : hq R) : qnormalize (mkq sf x) =
  if hnorm x == 0 then None else Some (mkq sf (hscale (Num.sqrt (hnorm x))^-1 x)).
Proof.
rewrite /qnormalize /vnormalize.
have e : qdivs (mkq sf x) (qlength (mkq sf x)) = if vdivs (to_vector4 (mkq sf x)) (vlength (to_vector4 (mkq sf x))) is Some v
   then Some (of_vector4 sf v) else None by rewrite /qdivs sfirst_mkq.
rewrite sfirst_mkq -e qlength_mkq.
have e0 : (Num.sqrt (hnorm x) == 0) = (hnorm x == 0).
  by rewrite sqrtr_eq0; apply/idP/idP => [h|/eqP ->//]; rewrite eq_le h hnorm_ge0.
case: ifP => h; first by rewrite /qdivs /vdivs e0 h.
by rewrite qdivs_mkq // e0 h.
Qed.
Lemma qnormalize_precise_mkq jk sf (x : hq R) : qnormalize_precise jk (mkq sf x) =
  mkq sf (if x == hzero R then hone R else hscale (Num.sqrt (hnorm x))^-1 x).
Proof.
rewrite /qnormalize_precise normalize_preciseE sfirst_mkq -/(qlength (mkq sf x)) qlength_mkq /of_elements of_canonicalE.
have -> : all (fun y => y == 0) (to_vector4 (mkq sf x)) = (x == hzero R).
  case: x => [[[a b] c] d]; rewrite /hzero !xpair_eqE.
  by case: sf; rewrite /= andbT ?andbA //; case: (a == 0); rewrite ?andbF ?andbT // andbA.
case: ifP => _; first by case: sf.
by case: x => [[[a b] c] d]; case: sf; rewrite /= /of_vector4 /= ![_^-1 * _]mulrC.
Qed.

(* the rotated vector *)
Definition rot3 (x : hq R) (v : seq R) : seq R :=
  let: (s, i, j, k) := x in
  let x := nth 0 v 0 in let y := nth 0 v 1 in let z := nth 0 v 2 in
  let n := s * s + i * i + j * j + k * k in
  [:: ((s * s + i * i - j * j - k * k) * x + 2%:R * (i * j - k * s) * y + 2%:R * (i * k + j * s) * z) / n;
      (2%:R * (i * j + k * s) * x + (s * s - i * i + j * j - k * k) * y + 2%:R * (j * k - i * s) * z) / n;
      (2%:R * (i * k - j * s) * x + 2%:R * (j * k + i * s) * y + (s * s - i * i - j * j + k * k) * z) / n].
Lemma of_vector3E jk sf (v : seq R) : size v = 3%N -> of_vector3 jk sf v = mkq sf (0, nth 0 v 0, nth 0 v 1, nth 0 v 2).
Proof. by move=> /(seq3 0) ->; rewrite /of_vector3 of_canonicalE. Qed.
Lemma qrotateE jk sf x (v : seq R) : hnorm x != 0 -> size v = 3%N -> qrotate jk (mkq sf x) v = Some (rot3 x v).
Proof.
move=> n0 sv; rewrite /qrotate qinverse_mkq // sfirst_mkq of_vector3E // !qmul_mkq.
case: x n0 => [[[s i] j] k] n0; rewrite qvector_mkq /rot3; congr Some.
move: (nth 0 v 0) (nth 0 v 1) (nth 0 v 2) n0 => x y z /= n0.
by congr [:: _; _; _]; field.
Qed.
End Field.

From Verif Require Import M_Transform P_Transform.

Section ToMatrix.
Variable R : comRingType.

(* the rotation matrix of a quaternion, acting on column vectors *)
Definition rotm (x : hq R) : nat -> nat -> R :=
  let: (s, i, j, k) := x in fun a b => nth 0 (nth [::] [::
   [:: 1 - 2%:R * (j * j + k * k); 2%:R * (i * j - k * s); 2%:R * (i * k + j * s)];
   [:: 2%:R * (i * j + k * s); 1 - 2%:R * (i * i + k * k); 2%:R * (j * k - i * s)];
   [:: 2%:R * (i * k - j * s); 2%:R * (j * k + i * s); 1 - 2%:R * (i * i + j * j)]] a) b.

Lemma elem_setE follow (m : mat R) i j x : elem_set follow m i j x = if follow then set m j i x else set m i j x.
Proof. by []. Qed.
Lemma fget_elem_set follow (m : mat R) i j x a b :
  fget (~~ follow) (elem_set follow m i j x) a b = if (a == i) && (b == j) then x else fget (~~ follow) m a b.
Proof. by rewrite /elem_set /fget; case: follow => /=; rewrite get_set // andbC. Qed.
Lemma wf_elem_set follow r c (m : mat R) i j x : wf r c m -> (i < 3)%N -> (j < 3)%N -> (2 < r)%N -> (2 < c)%N ->
  wf r c (elem_set follow m i j x).
Proof.
by move=> w hi hj hr hc; rewrite /elem_set; case: follow; apply: wf_set => //; apply: leq_trans hr || apply: leq_trans hc.
Qed.

(* the loops that fill the rest of the matrix *)
Lemma fill_restP r c (m : mat R) : wf r c m ->
  let m' := for_loop 0 c (fun jj m => for_loop (if jj < 3 then 3 else 0)%N r (fun ii m => set m ii jj (jj == ii)%:R) m) m in
  wf r c m' /\ forall i j, (i < r)%N -> (j < c)%N -> get m' i j = if (i < 3)%N && (j < 3)%N then get m i j else (i == j)%:R.
Proof.
move=> w.
pose P k D := wf r c D /\ forall i j, (i < r)%N -> get D i j =
   if (j < k)%N && ~~ ((i < 3)%N && (j < 3)%N) then (i == j)%:R else get m i j.
suff [w' h] : P c (for_loop 0 c (fun jj m => for_loop (if jj < 3 then 3 else 0)%N r (fun ii m => set m ii jj (jj == ii)%:R) m) m).
  by split=> // i j hi hj; rewrite h // hj /=; case: (_ && _).
apply: (@for_loop_ind _ P) => // jj D /andP [_ hjj] [wD hD].
set lo := (if (jj < 3)%N then 3 else 0)%N.
pose Q k E := wf r c E /\ forall i j, (i < r)%N -> get E i j =
   if (j == jj) && (lo <= i < k)%N then (i == j)%:R else get D i j.
case: (leqP lo r) => hlo; last first.
  rewrite for_loop_nil 1?ltnW //; split=> // i j hi; rewrite hD //.
  have i3 : (i < 3)%N by move: hlo; rewrite /lo; case: ifP => // _ /(ltn_trans hi).
  have jj3 : (jj < 3)%N by move: hlo; rewrite /lo; case: ifP.
  rewrite i3 /= [(j < jj.+1)%N]ltnS [(j <= jj)%N]leq_eqVlt; case: (j =P jj) => [->|_] //=; by rewrite jj3 ltnn.
suff [wE hE] : Q r (for_loop lo r (fun ii m => set m ii jj (jj == ii)%:R) D).
  split=> // i j hi; rewrite hE // hD // hi andbT [(j < jj.+1)%N]ltnS [(j <= jj)%N]leq_eqVlt.
  case: (j =P jj) => [->|_] //=; rewrite ltnn /= /lo; case: ltnP => hj3 /=; last by rewrite andbF.
  by rewrite andbT -leqNgt.
apply: (@for_loop_ind _ Q) => //.
  split=> // i j hi; case: andP => // -[_ /andP [h1 h2]].
  by have := leq_ltn_trans h1 h2; rewrite ltnn.
move=> k E /andP [hk1 hk2] [wE hE]; split; first exact: wf_set.
move=> i j hi; rewrite get_set hE // [(i < k.+1)%N]ltnS [(i <= k)%N]leq_eqVlt; case: (i =P k) => [->|_] //=.
by case: (j =P jj) => [->|_] //=; rewrite hk1 eq_sym.
Qed.

Lemma quat_to_matrixP follow rm jk r c sf x : (2 < r)%N -> (2 < c)%N ->
  let m := quat_to_matrix follow rm jk r c (mkq sf x) in
  wf r c m /\ forall i j, (i < r)%N -> (j < c)%N ->
    get m i j = if (i < 3)%N && (j < 3)%N then (if follow then rotm x j i else rotm x i j) else (i == j)%:R.
Proof.
move=> hr hc; case: x => [[[s i] j] k]; rewrite /quat_to_matrix.
have -> : qs (mkq sf (s, i, j, k)) = s by case: sf.
have -> : qi (mkq sf (s, i, j, k)) = i by case: sf.
have -> : qj (mkq sf (s, i, j, k)) = j by case: sf.
have -> : qk (mkq sf (s, i, j, k)) = k by case: sf.
cbv zeta; set m9 := elem_set _ _ 2 2 _.
have w9 : wf r c m9 by rewrite /m9; do 9! (apply: wf_elem_set => //); exact: wf_uninit.
have [w h] := fill_restP w9; split=> // a b ha hb; rewrite h //; case: ifP => // /andP [a3 b3].
have e a' b' : (a' < 3)%N -> (b' < 3)%N -> fget (~~ follow) m9 a' b' = rotm (s, i, j, k) a' b'.
  rewrite /m9 !fget_elem_set /rotm.
  by case: a' => [|[|[|a']]] // _; case: b' => [|[|[|b']]].
by move: (e a b a3 b3) (e b a b3 a3); rewrite /fget; case: (follow).
Qed.

Lemma quat_to_matrix_affine follow rm jk r c sf x : shape follow 3 r c ->
  affine_mat follow 3 r c (quat_to_matrix follow rm jk r c (mkq sf x)) (fun i j => rotm x j i) (fun=> 0).
Proof.
move=> hs; have [/andP [a1 a2] /andP [b1 b2]] := shape_dims hs.
have hr : (2 < r)%N by case: follow a1 b1 {a2 b2 hs}.
have hc : (2 < c)%N by case: follow a1 b1 {a2 b2 hs}.
have [w h] := quat_to_matrixP follow rm jk sf x hr hc; split=> // i j hi hj.
have -> : fget follow (quat_to_matrix follow rm jk r c (mkq sf x)) i j =
  if (i < 3)%N && (j < 3)%N then rotm x j i else (i == j)%:R.
  by rewrite /fget; case: follow hi hj w h {hs a1 a2 b1 b2} => /= hi hj w h; rewrite h // ?[_ == i]eq_sym // andbC.
case: (ltnP j 3) => hj3; rewrite ?andbT ?andbF //; case: (ltnP i 3) => // hi3.
by rewrite (gtn_eqF (leq_trans hj3 hi3)).
Qed.
End ToMatrix.
