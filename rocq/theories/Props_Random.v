(* Property C81: random matrices, vectors and quaternions *)
From mathcomp Require Import all_ssreflect all_algebra.
From Verif Require Import M_Vec M_Mat M_Quat M_Random Spec SpecQuat P_Mat P_Quat.
Set Implicit Arguments. Unset Strict Implicit. Unset Printing Implicit Defensive.

Section C81.
Variables (D E : Type) (draw : E -> D * E).
(* the sequence of numbers that the engine produces, and its state after k of them *)
Definition state_after (e : E) (k : nat) : E := iter k (fun e => (draw e).2) e.
Definition number (e : E) (k : nat) : D := (draw (state_after e k)).1.

Lemma drawE e k : draw (state_after e k) = (number e k, state_after e k.+1).
Proof. by rewrite /number /state_after /= -surjective_pairing. Qed.

(* element (i, j) is the number i * Columns + j in both memory layouts, every number is used exactly once *)
Theorem C81_matrix (T : Type) (cast : D -> T) rm jk r c e :
  let: (m, e') := random_matrix draw cast rm jk r c e in
  [/\ wf r c m, rowmaj m = rm, e' = state_after e (r * c) &
      forall i j, i < r -> j < c -> get m i j = cast (number e (i * c + j))].
Proof.
pose P i j (s : mat T * E) := [/\ wf r c s.1, rowmaj s.1 = rm, s.2 = state_after e (i * c + j) &
  forall i' j', i' < r -> j' < c -> i' * c + j' < i * c + j -> get s.1 i' j' = cast (number e (i' * c + j'))].
suff: P r 0 (random_matrix draw cast rm jk r c e).
  case: (random_matrix _ _ _ _ _ _ _) => m e' [/= h1 h2 h3 h4]; split=> //; first by rewrite h3 addn0.
  move=> i j hi hj; apply: h4 => //; rewrite addn0; apply: (@leq_trans (i.+1 * c)); last by rewrite leq_mul2r hi orbT.
  by rewrite mulSn addnC ltn_add2r.
apply: (@for_loop_ind _ (fun i => P i 0)) => //; first by split=> //=; rewrite ?wf_uninit.
move=> i s /andP[_ hi] h0.
suff: P i c (for_loop 0 c (fun j (s0 : mat T * E) => let (m, e0) := s0 in let (x, e1) := draw e0 in (set m i j (cast x), e1)) s).
  by rewrite /P mulSn addn0 addnC.
apply: (@for_loop_ind _ (P i)) => // j [m e0] /andP[_ hj] [/= h1 h2 h3 h4].
rewrite h3 drawE; split=> /=; rewrite ?addnS ?rowmaj_set //; first exact: wf_set.
move=> i' j' hi' hj'; rewrite ltnS get_set leq_eqVlt => /orP[/eqP E0|lt].
- have hc : 0 < c by apply: leq_ltn_trans hj.
  have ei : i' = i by move/(congr1 (divn^~ c)): E0; rewrite !divnMDl // !divn_small // !addn0.
  by move: E0; rewrite ei => /addnI ->; rewrite !eqxx.
- case: ifP => [/andP[/eqP ei /eqP ej]|_]; last exact: h4.
  by rewrite ei ej ltnn in lt.
Qed.
Corollary C81_layout (T : Type) (cast : D -> T) jk jk' r c e i j : i < r -> j < c ->
  get (random_matrix draw cast true jk r c e).1 i j = get (random_matrix draw cast false jk' r c e).1 i j.
Proof.
move=> hi hj; have := C81_matrix cast true jk r c e; have := C81_matrix cast false jk' r c e.
case: (random_matrix _ _ false _ _ _ _) => ? ? [_ _ _ h]; case: (random_matrix _ _ true _ _ _ _) => ? ? [_ _ _ h'].
by rewrite /= h // h'.
Qed.

Theorem C81_vector (T : Type) (cast : D -> T) jk n e :
  random_vector draw cast jk n e = (mkseq (fun k => cast (number e k)) n, state_after e n).
Proof.
pose P i (s : seq T * E) := [/\ size s.1 = n, s.2 = state_after e i & forall k, k < i -> nth jk s.1 k = cast (number e k)].
have: P n (random_vector draw cast jk n e).
  apply: (@for_loop_ind _ P) => //; first by split=> //=; rewrite size_nseq.
  move=> i [v e0] /andP[_ hi] [/= h1 h2 h3]; rewrite h2 drawE; split=> //=; first by rewrite size_set_nth h1; apply/maxn_idPr.
  by move=> k; rewrite ltnS nth_set_nth /= leq_eqVlt; case: eqP => [->|_] //= /h3.
case: (random_vector _ _ _ _ _) => v e' [/= h1 h2 h3]; rewrite h2; congr pair.
apply: (@eq_from_nth _ jk) => [|k]; first by rewrite size_mkseq.
by rewrite h1 => hk; rewrite nth_mkseq // h3.
Qed.

Theorem C81_quaternion (R : rcfType) (cast : D -> R) jk sf e :
  let: (q, e') := random_quat draw cast jk sf e in
  e' = state_after e 4 /\
  [/\ wfq q, qs q = cast (number e 0), qi q = cast (number e 1), qj q = cast (number e 2) & qk q = cast (number e 3)].
Proof.
rewrite /random_quat -[e]/(state_after e 0) !drawE; split=> //.
by case: sf.
Qed.
End C81.
Print Assumptions C81_matrix.
Print Assumptions C81_layout.
Print Assumptions C81_vector.
Print Assumptions C81_quaternion.

(* an engine that counts: a column major 2 x 3 matrix *)
Example C81_example : let: (m, e) := random_matrix (fun e => (e, e.+1)) id false 99 2 3 10 in
  stripes m = [:: [:: 10; 13]; [:: 11; 14]; [:: 12; 15]] /\ e = 16.
Proof. by []. Qed.
