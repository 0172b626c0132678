(* C88, continued: the one-sided iteration may stop before it has converged. *)
From Coq Require Import ZArith Lia.
From mathcomp Require Import all_ssreflect all_algebra.
From mathcomp Require Import ring.
From Verif Require Import Spec M_Vec P_Vec M_Mat P_Mat P_Mat2 M_LU P_Tri P_LU P_LU2 M_QR P_QR Props_QR.
From Verif Require Import M_SVD P_SVD2 P_SVD P_SVDres P_SVDone Props_SVD P_SVDstop P_SVDthree P_SVDfour P_Box P_SVDbox Props_Stop.
Set Implicit Arguments. Unset Strict Implicit. Unset Printing Implicit Defensive.
Import Order.Theory GRing.Theory Num.Theory.
Local Open Scope ring_scope.
Delimit Scope Z_scope with BZ.

(* the matrix of the counterexample *)
Definition badZ : seq (seq Z) :=
  [:: [:: -2; -3; 0; 0]; [:: 2; 2; -3; 0]; [:: 2; -3; 0; 3]; [:: 0; -2; 1; 3]]%BZ.
Definition bad4 (R : rcfType) : mat R :=
  Mat true 0 [:: [:: - 2%:R; - 3%:R; 0; 0]; [:: 2%:R; 2%:R; - 3%:R; 0]; [:: 2%:R; - 3%:R; 0; 3%:R]; [:: 0; - 2%:R; 1; 3%:R]].

Definition gramZ (i j : nat) : Z :=
  foldr (fun r acc => (nth 0%BZ r i * nth 0%BZ r j + acc)%BZ) 0%BZ badZ.
Definition start4 (u : Z) : seq (seq iv) :=
  mkseq (fun i => mkseq (fun j => (gramZ i j * u / 9, gramZ i j * u / 9 + 1)%BZ) 4) 4.

(* the run in interval arithmetic: two sweeps; the error of the second is larger; then columns 0 and 2 are far from
   orthogonal, and all columns have lengths between sqrt(1/10) and sqrt(5) *)
Definition run4 (u : Z) : option (seq (seq iv) * iv * (seq (seq iv) * iv)) :=
  if sweep_box u 4 (start4 u) is Some (G1, e1) then
    if sweep_box u 4 G1 is Some (G2, e2) then Some (G1, e1, (G2, e2)) else None
  else None.
Definition ok4 (u : Z) (G1 : seq (seq iv)) (e1 : iv) (G2 : seq (seq iv)) (e2 : iv) : bool :=
  [&& (e1.2 <=? e2.1)%BZ, (e1.2 <=? u)%BZ,
      all (fun i => (u <=? 10 * (gget G2 i i).1)%BZ && ((gget G2 i i).2 <=? 5 * u)%BZ) (iota 0 4) &
      (81 * (imul u (gget G2 0 0) (gget G2 2 2)).2 <=? 400 * (imul u (gget G2 0 2) (gget G2 0 2)).1)%BZ].
(* with 60 binary digits *)
Lemma run4_ok : exists u : Z, (0 < u)%BZ /\ if run4 u is Some (G1, e1, (G2, e2)) then ok4 u G1 e1 G2 e2 else false.
Proof. by exists (2 ^ 60)%BZ; split; [reflexivity|vm_cast_no_check (erefl true)]. Qed.

Lemma in_le (R : rcfType) S (x y : R) a b : (0 < S)%BZ -> inI S x a -> inI S y b -> (a.2 <= b.1)%BZ -> x <= y.
Proof.
move=> S0' [_ h1] [h2 _] h; rewrite -(ler_pmul2r (S0 R S0')); apply: le_trans h1 _; apply: le_trans h2; exact: zr_le.
Qed.
Lemma in_lo (R : rcfType) S (x : R) a (n d : Z) : (0 < S)%BZ -> (0 <= d)%BZ -> inI S x a -> (n * S <= d * a.1)%BZ -> zr R n <= zr R d * x.
Proof.
move=> S0' d0 [h1 _] h; rewrite -(ler_pmul2r (S0 R S0')) -mulrA -zrM; apply: (@le_trans _ _ (zr R (d * a.1)%BZ)); first exact: zr_le.
by rewrite zrM; apply: ler_wpmul2l => //; rewrite -(zr0 R); apply: zr_le.
Qed.
Lemma in_hi (R : rcfType) S (x : R) a (n d : Z) : (0 < S)%BZ -> (0 <= d)%BZ -> inI S x a -> (d * a.2 <= n * S)%BZ -> zr R d * x <= zr R n.
Proof.
move=> S0' d0 [_ h1] h; rewrite -(ler_pmul2r (S0 R S0')) -mulrA -[X in _ <= X]zrM; apply: (@le_trans _ _ (zr R (d * a.2)%BZ)); last exact: zr_le.
by rewrite zrM; apply: ler_wpmul2l => //; rewrite -(zr0 R); apply: zr_le.
Qed.

Lemma scale4 (R : rcfType) : mat_scale_elements 4 4 (bad4 R) = 3%:R.
Proof.
rewrite /mat_scale_elements /for_loop /= /scale_elements /vmaxelem /= !normrN !normr0 !normr1 !normr_nat !ltr0n /= !ltr_nat /= ?ltxx.
have l30 : (3%:R < 0 :> R) = false by rewrite ltNge ler0n.
have l03 : 0 < 3%:R :> R by rewrite ltr0n.
have l21 : (2%:R < 1 :> R) = false by rewrite ltNge ler1n.
have l23 : 2%:R < 3%:R :> R by rewrite ltr_nat.
by rewrite /std_max l30 l21 l23 l30 ltxx l03 !ltxx.
Qed.

(** * C88: two columns of U are far from orthogonal, although the iteration has stopped *)
Theorem C88_one_sided_refuted (R : rcfType) sg std_sort (tmin tmax emax enext sqrteps : R) sg0 (fuel : nat) :
  (forall l : seq (R * nat), perm_eq (std_sort l) l /\ sorted (fun a b => b.1 <= a.1) (std_sort l)) ->
  0 <= sqrteps -> sqrteps <= 10%:R^-1 -> 1 < enext -> enext < emax -> (2 <= fuel)%N ->
  wf 4 4 (bad4 R) /\
  exists2 d, svd_one_sided sg std_sort tmin tmax emax enext sqrteps sg0 fuel 4 4 (bad4 R) = Done d &
    exists i j : 'I_4, i != j /\ 9%:R / 20%:R <= `|((mxof 4 4 (svdU d))^T *m mxof 4 4 (svdU d)) i j|.
Proof.
move=> hsort ep0 ep1 en em hf; have w : wf 4 4 (bad4 R) by [].
split=> //; rewrite /svd_one_sided scale4; have nz : 3%:R != 0 :> R by rewrite pnatr_eq0.
have [As eAs [wAs _ hAs]] := mat_divP w nz; rewrite eAs.
have hi := one_sided_start wAs hAs; have [wC _ _ gC] := convertP false wAs.
set st0 := (_, _) in hi *; set M := _ *: _ in hi.
have [u [up]] := run4_ok; rewrite /run4.
have hb : boxed u M st0 (start4 u).
  split=> // i j h1 h2; rewrite /gget nth_mkseq // nth_mkseq //.
  have -> : gram 4 st0.1 i j = zr R (gramZ i j) / zr R 9.
    transitivity ((\sum_(k < 4) get (bad4 R) k i * get (bad4 R) k j) / 9%:R).
      rewrite /gram mulr_suml; apply: eq_bigr => k _; rewrite /= !gC // !hAs //.
      by rewrite mulrACA -invfM -natrM.
    congr (_ / _); rewrite /gramZ /= !zrD !zrM zr0 !big_ord_recr big_ord0 /=.
    have e k l : (k < 4)%N -> (l < 4)%N -> get (bad4 R) k l = zr R (nth 0%BZ (nth [::] badZ k) l).
      by case: k => [|[|[|[|//]]]]; case: l => [|[|[|[|//]]]].
    by rewrite !e // /=; ring.
  exact: iconst.
case e1: sweep_box => [[G1 i1]|] //; case e2: sweep_box => [[G2 i2]|] //.
case/and4P => /Z.leb_le h12 /Z.leb_le h1 hall /Z.leb_le hc.
have [[st1 x1] s1 [b1 p1 q1]] := sweep_boxP up sg 0%N hb e1.
have [[st2 x2] s2 [b2 p2 q2]] := sweep_boxP up sg 1%N b1 e2.
have lt1 : x1 < enext.
  by apply: le_lt_trans en; have := @in_le R u x1 1 _ _ up q1 (in1 R u) h1.
have le12 : x1 <= x2 := in_le up q1 q2 h12.
have -> : jacobi (one_sided_sweep sg 4 4) fuel 0 emax enext st0 = Done st2.
  case: fuel hf => [//|[//|f]] _ /=; rewrite em s1 lt1 s2.
  by case: f => [|f] /=; rewrite ltNge le12.
have [hi2 g2] := b2.
have dg i : (i < 4)%N -> 10%:R^-1 <= gram 4 st2.1 i i /\ gram 4 st2.1 i i <= 5%:R.
  move=> h; have /allP /(_ i) := hall; rewrite mem_iota => /(_ h) /andP [/Z.leb_le k1 /Z.leb_le k2].
  have t0 : (0 <= 10)%BZ by []. have t1 : (0 <= 1)%BZ by [].
  have l1 := @in_lo R u _ _ 1 10 up t0 (g2 i i h h); have l2 := @in_hi R u _ _ 5 1 up t1 (g2 i i h h).
  split.
    by rewrite -[X in X <= _]mul1r ler_pdivr_mulr ?ltr0n // mulrC; apply: l1; rewrite Z.mul_1_l.
  by rewrite -[X in X <= _]mul1r; apply: l2; rewrite Z.mul_1_l.
have lo0 : 0 < 10%:R^-1 :> R by rewrite invr_gt0 ltr0n.
have hle : 5%:R * sqrteps ^+ 2 <= 10%:R^-1.
  apply: (@le_trans _ _ (5%:R * 10%:R^-1 ^+ 2)).
    by apply: ler_wpmul2l; rewrite ?ler0n // ler_expn2r ?nnegrE // ltW.
  by rewrite exprVn -(ler_pmul2r (_ : 0 < 10%:R ^+ 2)) ?exprn_gt0 ?ltr0n // mulfVK ?expf_neq0 ?pnatr_eq0 // expr2 mulKf ?pnatr_eq0 // ler_nat.
have [d -> [from [pf hU]]] := one_sided_result_plain hsort tmin tmax (rowmaj (bad4 R)) sg0 3%:R (isT : (0 < 4)%N) hi2 lo0 (ler0n _ 5) ep0 hle dg.
exists d => //.
have mem k : (k < 4)%N -> exists i : 'I_4, from i = k.
  move=> h; have : k \in [seq from i | i <- iota 0 4] by rewrite (perm_mem pf) mem_iota.
  by case/mapP => i; rewrite mem_iota => /andP [_ hi'] ->; exists (Ordinal hi').
have [i fi] := mem 0%N isT; have [j fj] := mem 2%N isT; exists i, j; split.
  by apply/eqP => ij; move: fj; rewrite -ij fi.
have [l [l0 l2] ->] := hU i j; rewrite fi fj in l2 *.
rewrite normrM normfV (gtr0_norm l0) ler_pdivl_mulr // mulrAC ler_pdivr_mulr ?ltr0n //.
rewrite -(@ler_pexpn2r _ 2) ?nnegrE ?mulr_ge0 ?ler0n ?(ltW l0) // !exprMn l2 -normrX ger0_norm ?sqr_ge0 // -!natrX.
set g02 := gram 4 st2.1 0 2.
have x02 : inI u (g02 ^+ 2) (imul u (gget G2 0 2) (gget G2 0 2)) by rewrite expr2; apply: imulP => //; apply: g2.
have x00 : inI u (gram 4 st2.1 0 0 * gram 4 st2.1 2 2) (imul u (gget G2 0 0) (gget G2 2 2)) by apply: imulP => //; apply: g2.
case: x02 => y1 _; case: x00 => _ y2; rewrite -(ler_pmul2r (S0 R up)) -mulrA.
apply: (@le_trans _ _ (zr R (81 * (imul u (gget G2 0 0) (gget G2 2 2)).2)%BZ)).
  rewrite zrM; have -> : zr R 81 = (9 ^ 2)%:R by [].
  by apply: ler_wpmul2l => //; rewrite ler0n.
apply: le_trans (zr_le _ hc) _; rewrite zrM.
have -> : zr R 400 = (20 ^ 2)%:R by [].
have -> : g02 ^+ 2 * (20 ^ 2)%:R * zr R u = (20 ^ 2)%:R * (g02 ^+ 2 * zr R u).
  by rewrite [RHS]mulrA [(20 ^ 2)%:R * _]mulrC.
by apply: ler_wpmul2l => //; rewrite ler0n.
Qed.
Print Assumptions C88_one_sided_refuted.

Example C88_one_ex (R : rcfType) : exists (std_sort : seq (R * nat) -> seq (R * nat)) (emax enext sqrteps : R),
  (forall l, perm_eq (std_sort l) l /\ sorted (fun a b => b.1 <= a.1) (std_sort l)) /\
  [/\ 0 <= sqrteps, sqrteps <= 10%:R^-1, 1 < enext & enext < emax].
Proof.
exists (sort (fun a b => b.1 <= a.1)), 3%:R, 2%:R, 20%:R^-1; split.
  move=> l; split; first by rewrite perm_sort.
  by apply: sort_sorted => a b; apply: le_total.
split; rewrite ?ltr_nat ?ltr1n //; first by rewrite invr_ge0 ler0n.
by rewrite lef_pinv ?posrE ?ltr0n // ler_nat.
Qed.
