(* Properties C29 and C14: determinant of larger matrices, generalized cross product. *)
From mathcomp Require Import all_ssreflect all_algebra.
From mathcomp Require Import ring.
From Verif Require Import Spec M_Vec P_Vec P_Det M_Mat P_Mat P_Mat2 Props_Mat P_Bareiss M_Cross P_Cross.
Set Implicit Arguments. Unset Strict Implicit. Unset Printing Implicit Defensive.
Import GRing.Theory.
Local Open Scope ring_scope.

(** * C29 Determinant of larger matrices *)
(* Partial: the result is the determinant exactly when no leading principal minor of order 1 .. n - 2 is
   zero; in all other cases the function returns 0, whatever the determinant is. *)
Theorem C29_determinant_partial (F : fieldType) (n : nat) (A : mat F) :
  (4 < n)%N -> wf n n A ->
  ((forall k, (0 < k)%N -> (k + 2 <= n)%N -> \det (mxof k k A) != 0) ->
     determinant n A = \det (mxof n n A)) /\
  ((exists k, [/\ (0 < k)%N, (k + 2 <= n)%N & \det (mxof k k A) = 0]) -> determinant n A = 0).
Proof.
move=> n4 w; have -> : determinant n A = bareiss n A by case: n n4 w => [|[|[|[|[|n]]]]].
case: n n4 w => // n n4 w; rewrite bareissE //; split=> [h|[k [k0 hk e]]].
  case: forallP => // [[]] j; case: eqP => //= /eqP j0.
  by apply: h; rewrite ?lt0n // addn2 ltnS.
case: forallP => // h; have hk' : (k < n)%N by rewrite addn2 ltnS in hk.
by have := h (Ordinal hk'); rewrite /= (gtn_eqF k0) /lead /detf e eqxx.
Qed.
Print Assumptions C29_determinant_partial.

(* the 5 x 5 permutation matrix exchanging the first two coordinates *)
Definition swap5 rm : mat rat := ctor_elems rm 77%:Q 5 5
  [:: 0; 1; 0; 0; 0;  1; 0; 0; 0; 0;  0; 0; 1; 0; 0;  0; 0; 0; 1; 0;  0; 0; 0; 0; 1].

Theorem C29_determinant_refuted : exists A : mat rat,
  [/\ wf 5 5 A, \det (mxof 5 5 A) != 0 & determinant 5 A = 0].
Proof.
exists (swap5 true); split; [by []| |by apply/eqP; vm_compute].
have [_ e] := C21_product (isT : wf 5 5 (swap5 true)) (isT : wf 5 5 (swap5 true)) isT.
have h : mxof 5 5 (mat_mul 5 5 5 (swap5 true) (swap5 true)) = 1%:M.
  by apply/matrixP; do 5?case=> [[|[|[|[|[|?]]]]] ?] //; rewrite !mxE; apply/eqP; vm_compute.
have := det_mulmx (mxof 5 5 (swap5 true)) (mxof 5 5 (swap5 true)); rewrite -e h det1 => d.
by apply/eqP => z; move: d; rewrite z mul0r => /eqP; rewrite oner_eq0.
Qed.
Print Assumptions C29_determinant_refuted.

(* a matrix meeting the hypotheses of the first half: 2 on the diagonal, 1 next to it *)
Definition tri5 : mat rat := ctor_elems false 77%:Q 5 5
  [:: 2%:Q; 1; 0; 0; 0;  1; 2%:Q; 1; 0; 0;  0; 1; 2%:Q; 1; 0;  0; 0; 1; 2%:Q; 1;  0; 0; 0; 1; 2%:Q].
Example C29_example : wf 5 5 tri5 /\ determinant 5 tri5 = 6%:Q /\
  forall k, (0 < k)%N -> (k + 2 <= 5)%N -> \det (mxof k k tri5) != 0.
Proof.
split=> //; split; first by apply/eqP; vm_compute.
case=> [|[|[|[|k]]]] // _; rewrite addn2 // => _.
- by rewrite [\det _](detf1 (get tri5)); vm_compute.
- by rewrite [\det _](detf2 (get tri5)); vm_compute.
by rewrite [\det _](detf3 (get tri5)); vm_compute.
Qed.

(** * C14 N-dimensional cross product *)
(* Partial: for dimension up to 5 without restriction; from dimension 6 on under the hypothesis that the
   leading minors of the reduced matrices, orders 1 .. n - 2, are nonzero (n = dimension - 1). *)
Theorem C14_cross_partial (F : fieldType) (jk : F) (n : nat) (args : seq (seq F)) :
  (0 < n)%N -> size args = n -> (forall v, v \in args -> size v = n.+1) ->
  ((n <= 4)%N \/ forall (idx : 'I_n.+1) k, (0 < k)%N -> (k + 2 <= n)%N ->
     \det (\matrix_(i < k, j < k) nth 0 (nth [::] args i) (bump idx j)) != 0) ->
  exists2 c, cross jk n.+1 args = Some c & size c = n.+1 /\
    forall x, size x = n.+1 ->
      vdot id c x = \det (\matrix_(i < n.+1, j < n.+1) nth 0 (nth [::] (rcons args x) i) j).
Proof.
move=> n0 hs hv hg; case: (n =P 1%N) => [n1|/eqP n1].
  move: hs hv; rewrite n1; case: args {hg} => [|a []] //= _ h; have sa := h a (mem_head _ _).
  exists (cross2 a) => //; split=> // x sx.
  rewrite (_ : \det _ = detf 2 (fun i j => nth 0 (nth [::] [:: a; x] i) j)) // detf2 /=.
  by rewrite (seq2 0 sa) (seq2 0 sx) /cross2 /vdot /vsum /=; gen_nth; ring.
case: (n =P 2%N) => [n2|/eqP n2].
  move: hs hv; rewrite n2; case: args {hg} => [|a [|b []]] //= _ h.
  have [sa sb] : size a = 3%N /\ size b = 3%N by split; apply: h; rewrite !inE eqxx ?orbT.
  exists (cross3 a b) => //; split=> [|x sx]; first by rewrite (seq3 0 sa) (seq3 0 sb).
  rewrite (_ : \det _ = detf 3 (fun i j => nth 0 (nth [::] [:: a; b; x] i) j)) // detf3 /=.
  by rewrite (seq3 0 sa) (seq3 0 sb) (seq3 0 sx) !cross3E /= /vdot /vsum /=; gen_nth; ring.
rewrite /cross !eqSS (negPf n1) (negPf n2).
have [|c -> [sc hc]] := @crossNDP _ jk n args; first by rewrite hs.
exists c => //; split=> // x sx; rewrite (@vdot_idE _ n.+1) // (expand_det_row _ ord_max).
apply: eq_bigr => idx _; rewrite !mxE nth_rcons hs ltnn eqxx mulrC; congr (_ * _).
have [|D [wD hD ->]] := hc idx; first by rewrite -ltnS.
have gd : good n (get D).
  case: hg => [n4|h]; [left|right=> k k0 hk].
    by rewrite n4 andbT ltn_neqAle eq_sym n1.
  have := h idx k k0 hk; congr (_ != _); congr (\det _); apply/matrixP => i j.
  have kn : (k <= n)%N by apply: leq_trans hk; apply: leq_addr.
  by rewrite !mxE hD ?(leq_trans _ kn) // /cminor bumpE.
rewrite determinant_good // /cofactor /=; congr (_ * \det _); apply/matrixP => i j.
have eb : bump n i = i by rewrite /bump leqNgt ltn_ord.
by rewrite !mxE hD // /cminor nth_rcons hs /= eb ltn_ord bumpE.
Qed.
Print Assumptions C14_cross_partial.

(* orthogonality follows: the determinant has two equal rows *)
Theorem C14_orthogonal_partial (F : fieldType) (jk : F) (n : nat) (args : seq (seq F)) :
  (0 < n)%N -> size args = n -> (forall v, v \in args -> size v = n.+1) ->
  ((n <= 4)%N \/ forall (idx : 'I_n.+1) k, (0 < k)%N -> (k + 2 <= n)%N ->
     \det (\matrix_(i < k, j < k) nth 0 (nth [::] args i) (bump idx j)) != 0) ->
  exists2 c, cross jk n.+1 args = Some c & forall v, v \in args -> vdot id c v = 0.
Proof.
move=> n0 hs hv hg; have [c e [sc hc]] := C14_cross_partial jk n0 hs hv hg; exists c => // v vin.
rewrite hc ?hv //; have hi : (index v args < n)%N by rewrite -hs index_mem.
apply: (@determinant_alternate _ _ _ (widen_ord (leqnSn n) (Ordinal hi)) ord_max).
  by rewrite -val_eqE /= (ltn_eqF hi).
by move=> j; rewrite !mxE /= !nth_rcons hs ltnn eqxx hi nth_index.
Qed.
Print Assumptions C14_orthogonal_partial.

(* too few arguments: the call throws *)
Theorem C14_too_few (F : fieldType) (jk : F) (dim : nat) (args : seq (seq F)) :
  (1 < dim)%N -> (size args < dim.-1)%N -> cross jk dim args = None.
Proof.
rewrite /cross => d1 h; case: eqP => [d|_]; first by move: h; rewrite d; case: args.
case: eqP => [d|_]; first by move: h; rewrite d; case: args => [|? []].
by rewrite /crossND h.
Qed.
Print Assumptions C14_too_few.

Definition unit6 (i : nat) : seq rat := mkseq (fun j => (j == i)%:R) 6.
Definition args6 : seq (seq rat) :=
  [:: unit6 1%N; vadd (unit6 0%N) (unit6 2%N); unit6 3%N; unit6 4%N; unit6 5%N].
(* in dimension 6 the result need not be orthogonal to the arguments *)
Theorem C14_orthogonal_refuted : exists (args : seq (seq rat)) (v c : seq rat),
  [/\ size args = 5%N, all (fun v => size v == 6%N) args, v \in args,
      cross 0 6 args = Some c & vdot id c v != 0].
Proof.
have h : omap (fun c => vdot id c (nth [::] args6 1) != 0) (cross 0 6 args6) = Some true by vm_compute.
exists args6, (nth [::] args6 1); move: h; case: (cross _ _ _) => // c [h].
by exists c; split=> //; rewrite mem_nth.
Qed.
Print Assumptions C14_orthogonal_refuted.

Example C14_example :
  cross 0 4 [:: [:: 1; 2%:Q; 0; 0]; [:: 0; 1; 3%:Q; 0]; [:: 1; 0; 1; 1]] =
  Some [:: - 6%:Q; 3%:Q; - 1; 7%:Q].
Proof. by apply/eqP; vm_compute. Qed.
(* dimension 6 with all leading minors nonzero *)
Example C14_example6 :
  let args := [:: [:: 2%:Q; 1; 1; 0; 0; 0]; [:: 1; 3%:Q; 1; 1; 0; 0]; [:: 0; 1; 3%:Q; 0; 1; 0];
                  [:: 1; 0; 0; 2%:Q; 0; 1]; [:: 0; 0; 1; 0; 2%:Q; 3%:Q]] in
  forall (idx : 'I_6) k, (0 < k)%N -> (k + 2 <= 5)%N ->
     \det (\matrix_(i < k, j < k) nth 0 (nth [::] args i) (bump idx j)) != 0.
Proof.
move=> args idx; pose f i j := nth 0 (nth [::] args i) (bump idx j).
case=> [|[|[|[|k]]]] // _; rewrite addn2 // => _;
  [rewrite [\det _](detf1 f)|rewrite [\det _](detf2 f)|rewrite [\det _](detf3 f)];
  by rewrite /f; case: idx {f} => [[|[|[|[|[|[|?]]]]]] ?] //; vm_compute.
Qed.
