(* Lemmas about the rotation builders, for any functions standing for sine and cosine *)
From mathcomp Require Import all_ssreflect all_algebra.
From mathcomp Require Import ring.
From Verif Require Import M_Vec M_Mat M_Quat M_Transform Spec SpecQuat P_Vec P_Mat P_Transform P_Quat P_Rot.
Set Implicit Arguments. Unset Strict Implicit. Unset Printing Implicit Defensive.
Import Order.Theory GRing.Theory Num.Theory.
Local Open Scope ring_scope.

Section Ring.
Variable R : comRingType.
Implicit Types (m : mat R) (L : nat -> nat -> R).

Definition lit (l : seq (seq R)) (i j : nat) : R := nth 0 (nth [::] l i) j.

Lemma felem_affine follow d r c m L t i j x : affine_mat follow d r c m L t -> shape follow d r c -> (i < d)%N -> (j < d)%N ->
  affine_mat follow d r c (felem_set follow m i j x) (fun i' j' => if (i' == i) && (j' == j) then x else L i' j') t.
Proof.
move=> [w h] hs hi hj; have [/andP [a1 _] /andP [b1 _]] := shape_dims hs.
have hi' := leq_trans hi a1; have hj' := leq_trans hj b1; rewrite /felem_set; split; first exact: wf_fset.
move=> i' j' hi2 hj2; rewrite fget_set_same h //.
by case: (i' =P i) => [->|_] //=; case: (j' =P j) => [->|_] //=; rewrite hi hj.
Qed.
Lemma affine_ext follow d r c m L L' t t' : affine_mat follow d r c m L t ->
  (forall i j, (i < d)%N -> (j < d)%N -> L i j = L' i j) -> (forall j, (j < d)%N -> t j = t' j) ->
  affine_mat follow d r c m L' t'.
Proof.
move=> [w h] e e'; split=> // i j hi hj; rewrite h //; case: ltnP => // hj'; case: ltnP => // hi'; by [rewrite e|rewrite e'].
Qed.

Section Trig.
Variables cosf sinf : R -> R.
Lemma rotation2d_affine follow rm jk r c a : shape follow 2 r c ->
  affine_mat follow 2 r c (rotation2d cosf sinf follow rm jk r c a)
    (lit [:: [:: cosf a; sinf a]; [:: - sinf a; cosf a]]) (fun=> 0).
Proof.
move=> hs; rewrite /rotation2d; apply: affine_ext.
- by do 4! (apply: felem_affine => //); apply: identity_affine.
- by move=> [|[|i]] // [|[|j]].
- by [].
Qed.

Definition axis_lit (C S : R) (axis : nat) : seq (seq R) :=
  if axis == 0%N then [:: [:: 1; 0; 0]; [:: 0; C; S]; [:: 0; - S; C]]
  else if axis == 1%N then [:: [:: C; 0; - S]; [:: 0; 1; 0]; [:: S; 0; C]]
  else [:: [:: C; S; 0]; [:: - S; C; 0]; [:: 0; 0; 1]].
Lemma rotation_axis_affine follow rm jk r c a axis : shape follow 3 r c ->
  affine_mat follow 3 r c (rotation_axis cosf sinf follow rm jk r c a axis) (lit (axis_lit (cosf a) (sinf a) axis)) (fun=> 0).
Proof.
move=> hs; rewrite /rotation_axis /axis_lit; case: (axis == 0%N); last case: (axis == 1%N); apply: affine_ext.
all: try by (do 4! (apply: felem_affine => //); apply: identity_affine).
all: by [move=> [|[|[|i]]] // [|[|[|j]]]|].
Qed.

(* row-vector convention: entry (i, j) is the j-th coordinate of the image of the i-th basis vector *)
Definition rodrigues (C S : R) (u : seq R) (i j : nat) : R :=
  let x := nth 0 u 0 in let y := nth 0 u 1 in let z := nth 0 u 2 in
  C * (i == j)%:R + S * lit [:: [:: 0; z; - y]; [:: - z; 0; x]; [:: y; - x; 0]] i j + (1 - C) * (nth 0 u i * nth 0 u j).
Lemma rotation_axis_angle_affine follow rm jk r c u a : shape follow 3 r c -> size u = 3%N ->
  affine_mat follow 3 r c (rotation_axis_angle cosf sinf follow rm jk r c u a) (rodrigues (cosf a) (sinf a) u) (fun=> 0).
Proof.
move=> hs su.
have [w1 _ h1] := @ctor_vectorP R rm jk 3 1 u erefl su.
have [w2 _ h2] := @ctor_vectorP R rm jk 1 3 u erefl su.
have [w3 _ h3] := @scalar_opP R (fun v => vscalel (1 - cosf a) v) (fun x => (1 - cosf a) * x) 3 1 _ w1 (fun v => erefl).
have [w4 _ h4] := mat_mulP w3 w2 (ltnSn 0).
have [w5 _ h5] := identityP rm jk 3 3.
have [w6 _ h6] := @scalar_opP R (fun v => vscalel (cosf a) v) (fun x => cosf a * x) 3 3 _ w5 (fun v => erefl).
set x := nth 0 u 0; set y := nth 0 u 1; set z := nth 0 u 2.
have [w7 _ h7] := @ctor_elemsP R rm jk 3 3 [:: 0; - z; y; z; 0; - x; - y; x; 0] erefl.
have [w8 _ h8] := @scalar_opP R (fun v => vscalel (sinf a) v) (fun x => sinf a * x) 3 3 _ w7 (fun v => erefl).
have [w9 _ h9] := @elementwiseP R (@vadd R) +%R 3 3 _ _ w6 w8 (@vmap2_pw R +%R).
have [wA _ hA] := @elementwiseP R (@vadd R) +%R 3 3 _ _ w9 w4 (@vmap2_pw R +%R).
have [_ _ hB] := from_precedeP follow rm wA.
have hk : forall i j, (i < 3)%N -> (j < 3)%N ->
  fget follow (from_precede follow rm 3 (mat_add 3 3 (mat_add 3 3 (mat_scalel 3 3 (cosf a) (identity rm jk 3 3))
     (mat_scalel 3 3 (sinf a) (ctor_elems rm jk 3 3 [:: 0; - z; y; z; 0; - x; - y; x; 0])))
    (mat_mul 3 1 3 (mat_scalel 3 1 (1 - cosf a) (ctor_vector rm jk 3 1 u)) (ctor_vector rm jk 1 3 u)))) i j =
  rodrigues (cosf a) (sinf a) u i j.
  move=> i j hi hj; rewrite hB // hA // h9 // h6 // h8 // h5 // h7 // h4 // big_ord1 h3 // h1 // h2 // addn0 add0n eq_sym.
  rewrite /rodrigues !(set_nth_default 0 jk) ?su //; last by case: i j hi hj => [|[|[|i]]] // [|[|[|j]]].
  by congr (_ + _ + _); [case: i j hi hj => [|[|[|i]]] // [|[|[|j]]]|rewrite -mulrA; congr (_ * _); rewrite mulrC].
have aff := insert_affine rm jk hs (leqnn 3) hk; apply: affine_ext aff _ _ => // i j hi hj.
by rewrite hi hj.
Qed.

Definition mul3 L L' (i j : nat) : R := \sum_(l < 3) L i l * L' l j.
Lemma rotation_tri_affine follow rm jk r c a0 a1 a2 x0 x1 x2 : shape follow 3 r c ->
  affine_mat follow 3 r c (rotation_tri cosf sinf follow rm jk r c a0 a1 a2 x0 x1 x2)
   (mul3 (mul3 (lit (axis_lit (cosf a0) (sinf a0) x0)) (lit (axis_lit (cosf a1) (sinf a1) x1)))
         (lit (axis_lit (cosf a2) (sinf a2) x2))) (fun=> 0).
Proof.
move=> hs; have h3 : shape follow 3 3 3 by case: (follow).
have [w0 g0] := rotation_axis_affine rm jk a0 x0 h3.
have [w1 g1] := rotation_axis_affine rm jk a1 x1 h3.
have [w2 g2] := rotation_axis_affine rm jk a2 x2 h3.
have {}g0 i j (hi : (i < 3)%N) (hj : (j < 3)%N) : fget follow (rotation_axis cosf sinf follow rm jk 3 3 a0 x0) i j = lit (axis_lit (cosf a0) (sinf a0) x0) i j.
  by rewrite g0 ?hi ?hj // /frows /fcols if_same.
have {}g1 i j (hi : (i < 3)%N) (hj : (j < 3)%N) : fget follow (rotation_axis cosf sinf follow rm jk 3 3 a1 x1) i j = lit (axis_lit (cosf a1) (sinf a1) x1) i j.
  by rewrite g1 ?hi ?hj // /frows /fcols if_same.
have {}g2 i j (hi : (i < 3)%N) (hj : (j < 3)%N) : fget follow (rotation_axis cosf sinf follow rm jk 3 3 a2 x2) i j = lit (axis_lit (cosf a2) (sinf a2) x2) i j.
  by rewrite g2 ?hi ?hj // /frows /fcols if_same.
rewrite /rotation_tri.
set ro := if follow then _ else _.
have hk : forall i j, (i < 3)%N -> (j < 3)%N -> fget follow ro i j =
   mul3 (mul3 (lit (axis_lit (cosf a0) (sinf a0) x0)) (lit (axis_lit (cosf a1) (sinf a1) x1)))
         (lit (axis_lit (cosf a2) (sinf a2) x2)) i j.
  move: g0 g1 g2 w0 w1 w2; rewrite /ro; case: (follow); rewrite /fget => g0 g1 g2 w0 w1 w2 i j hi hj.
    have [w01 _ h01] := mat_mulP w0 w1 (ltn0Sn 2); have [_ _ ->] // := mat_mulP w01 w2 (ltn0Sn 2).
    apply: eq_bigr => l _; rewrite h01 // g2 //; congr (_ * _); apply: eq_bigr => k _; by rewrite g0 ?g1.
  have [w21 _ h21] := mat_mulP w2 w1 (ltn0Sn 2); have [_ _ ->] // := mat_mulP w21 w0 (ltn0Sn 2).
  rewrite /mul3; under eq_bigr => l _ do rewrite h21 // mulr_suml; rewrite exchange_big /=.
  apply: eq_bigr => l _; rewrite mulr_suml; apply: eq_bigr => k _; rewrite g0 // g1 // g2 //.
  by rewrite -mulrA mulrC [X in X * _]mulrC.
have aff := insert_affine rm jk hs (leqnn 3) hk; apply: affine_ext aff _ _ => // i j hi hj.
by rewrite hi hj.
Qed.
End Trig.

(* action of a linear transform on a point *)
Definition app (d : nat) L (v : seq R) : seq R := mkseq (fun j => \sum_(l < d) nth 0 v l * L l j) d.
Lemma size_app d L v : size (app d L v) = d.
Proof. exact: size_mkseq. Qed.
Lemma app_mul3 L L' v : app 3 (mul3 L L') v = app 3 L' (app 3 L v).
Proof.
apply/eq_in_map => j _; rewrite /mul3; under eq_bigr => l _ do rewrite mulr_sumr.
rewrite exchange_big; apply: eq_bigr => k _; rewrite nth_mkseq // mulr_suml; apply: eq_bigr => l _.
by rewrite mulrA.
Qed.
End Ring.

Section Field.
Variable F : fieldType.
Lemma affine_app follow d r c (m : mat F) L v : affine_mat follow d r c m L (fun=> 0) -> shape follow d r c -> (0 < d)%N ->
  size v = d -> transform follow d r c m v = Some (app d L v).
Proof.
move=> h hs d0 sv; rewrite (affine_transform h) //; congr Some; apply/eq_in_map => j _.
by rewrite if_same addr0.
Qed.
End Field.
