(* The handedness of the look-at builder *)
From mathcomp Require Import all_ssreflect all_algebra.
From mathcomp Require Import ring.
From Verif Require Import M_Vec M_Mat M_Cross M_Quat M_Transform Spec P_Vec P_Mat P_Transform P_Rot2 P_Proj Props_Det Props_Vec P_View.
Set Implicit Arguments. Unset Strict Implicit. Unset Printing Implicit Defensive.
Import Order.Theory GRing.Theory Num.Theory.
Local Open Scope ring_scope.

Section Orientation.
Variable R : rcfType.
Lemma det_last_row (n : nat) (g : nat -> nat -> R) : (forall j, (j < n)%N -> g n j = 0) ->
  \det (\matrix_(i < n.+1, j < n.+1) g i j) = g n n * \det (\matrix_(i < n, j < n) g i j).
Proof.
move=> h; rewrite (expand_det_row _ ord_max) (bigD1 ord_max) //= big1 ?addr0 => [|j ne]; last first.
  by rewrite mxE h ?mul0r // ltn_neqAle -ltnS ltn_ord andbT.
rewrite mxE /cofactor /= -signr_odd addnn odd_double mul1r; congr (_ * \det _).
by apply/matrixP => i j; rewrite !mxE /= /bump !(leqNgt n) !ltn_ord !add0n.
Qed.
Lemma det_cycle (n : nat) (g : nat -> nat -> R) :
  \det (\matrix_(i < n.+1, j < n.+1) g (if i == n :> nat then 0%N else i.+1) j) =
  (-1) ^+ n * \det (\matrix_(i < n.+1, j < n.+1) g i j).
Proof.
rewrite (expand_det_row _ ord_max) (expand_det_row (\matrix_(i < n.+1, j < n.+1) g i j) ord0) mulr_sumr.
apply: eq_bigr => j _; rewrite !mxE /= eqxx /cofactor /= add0n exprD -[in LHS]mulrA [LHS]mulrCA.
congr (_ * (_ * (_ * \det _))); apply/matrixP => i k; rewrite !mxE /= /bump (leqNgt n) ltn_ord add0n.
by rewrite (ltn_eqF (ltn_ord i)).
Qed.
Lemma sign_count (flips : seq bool) :
  \prod_(j < size flips) (if nth false flips j then -1 else 1) = (-1) ^+ count id flips :> R.
Proof.
elim: flips => [|b l IH]; first by rewrite big_ord0.
by rewrite /= big_ord_recl /= IH exprD; case: b; rewrite ?expr1 ?expr0.
Qed.

Lemma view_orientation n jk (eye target : seq R) bases flips cols : (0 < n)%N ->
  size eye = n.+1 -> size target = n.+1 -> size bases = n.-1 ->
  (forall v, v \in bases -> size v = n.+1) -> free [seq rv n.+1 v | v <- vsub eye target :: bases] ->
  minors_ok n (rcons bases (vsub eye target)) -> size flips = n.+1 ->
  view_rotation jk eye target bases flips = Some (Mat false jk cols) ->
  \det (\matrix_(i < n.+1, j < n.+1) nth 0 (nth [::] cols i) j) = (-1) ^+ (n + count id flips).
Proof.
move=> n0 se st sb hb hf hm sf e.
have [cols' e' [[sc scj [side [ss hdet hs0 hsp]]] ho hl hbz hbp]] := view_rotation_spec n0 jk flips se st sb hb hf hm.
move: e'; rewrite e => -[ec]; subst cols'; set look := vsub eye target in hf hm hdet hl *.
have sl : size look = n.+1 by rewrite (size_vsub se st).
set C := \matrix_(i, j) _.
have lo (i : 'I_n.+1) : (i <= n)%N by rewrite -ltnS.
have C1 : \det C ^+ 2 = 1.
  have CC : C *m C^T = 1%:M.
    apply/matrixP => i j; rewrite !mxE -(ho i j) ?lo // (@vdot_idE _ n.+1) ?scj ?lo //.
    by apply: eq_bigr => k _; rewrite !mxE.
  by rewrite expr2 -{2}det_tr -det_mulmx CC det1.
pose nx k : nat := if k == n then 0%N else k.+1.
pose W := rcons (rcons bases look) side.
have sW k : (k <= n)%N -> size (nth [::] W k) = n.+1.
  move=> hk; have : nth [::] W k \in W by rewrite mem_nth // !size_rcons sb prednK.
  by move: (nth _ W k) => x; rewrite /W mem_rcons inE mem_rcons inE => /orP [/eqP ->|/orP [/eqP ->|/hb]].
have nxl k : (k <= n)%N -> (nx k <= n)%N.
  by rewrite /nx; case: eqP => // /eqP ne hk; rewrite ltn_neqAle ne.
pose g k l := vdot id (nth [::] W k) (nth [::] cols (nx l)).
have WB k : (k < n.-1)%N -> nth [::] W k = nth [::] bases k.
  by move=> hk; rewrite /W !nth_rcons size_rcons sb prednK // hk (leq_trans hk (leq_pred _)).
have WL : nth [::] W n.-1 = look.
  by rewrite /W nth_rcons size_rcons sb ltnSn nth_rcons sb ltnn eqxx.
have WS : nth [::] W n = side by rewrite /W nth_rcons size_rcons sb prednK // ltnn eqxx.
have dWC : \det (rowsmx n.+1 W) * ((-1) ^+ n * \det C) = \det (\matrix_(k < n.+1, l < n.+1) g k l).
  rewrite -(det_cycle n (fun i j => nth 0 (nth [::] cols i) j)) -[X in _ * X]det_tr -det_mulmx; congr (\det _); apply/matrixP => k l.
  rewrite !mxE /g (@vdot_idE _ n.+1) ?sW ?scj ?nxl ?lo //.
  by apply: eq_bigr => i _; rewrite !mxE.
have e1 : \det (\matrix_(k < n.+1, l < n.+1) g k l) = g n n * (g n.-1 n.-1 * \prod_(i < n.-1) g i i).
  rewrite det_last_row => [|j hj]; last by rewrite /g WS /nx (ltn_eqF hj) hs0.
  have DL (m : nat) (h : nat -> nat -> R) : (forall j, (j < m)%N -> h m j = 0) -> m.+1 = n ->
      \det (\matrix_(i < n, j < n) h i j) = h m m * \det (\matrix_(i < m, j < m) h i j).
    by move=> h1 <-; apply: det_last_row.
  congr (_ * _); rewrite (DL n.-1) ?prednK // => [|j hj]; last first.
    have hj' : (j.+1 < n)%N by rewrite -(prednK n0) ltnS.
    by rewrite /g WL /nx (ltn_eqF (ltnW hj')) hl ?(ltnW hj') // (ltn_eqF hj').
  congr (_ * _); rewrite det_trig; first by apply: eq_bigr => i _; rewrite !mxE.
  apply/is_trig_mxP => i j hij; rewrite mxE /g.
  have hj : (j.+1 < n)%N by have := ltn_ord j; rewrite ltn_predRL.
  by rewrite WB // /nx (ltn_eqF (ltnW hj)) (proj2 (hbz i (ltn_ord i))) // ltnS hij.
have gp : 0 < (\prod_(j < n.+1) flip_sign R flips j) * \det (\matrix_(k < n.+1, l < n.+1) g k l).
  have -> : \prod_(j < n.+1) flip_sign R flips j =
      flip_sign R flips 0 * (flip_sign R flips n * \prod_(i < n.-1) flip_sign R flips i.+1).
    by rewrite big_ord_recl; congr (_ * _); case: (n) n0 => // m _; rewrite big_ord_recr mulrC.
  rewrite e1; have -> : forall a b c x y z : R, a * (b * c) * (x * (y * z)) = (a * x) * (b * y) * (c * z) by move=> *; ring.
  rewrite -big_split /=; apply: mulr_gt0; first apply: mulr_gt0.
  - by rewrite /g WS /nx eqxx.
  - have ne : (n.-1 == n) = false by rewrite ltn_eqF // prednK.
    rewrite /g WL /nx ne prednK // hl // eqxx mulrA.
    have -> : flip_sign R flips n * flip_sign R flips n = 1 by rewrite /flip_sign; case: ifP => _; rewrite ?mulrNN mulr1.
    rewrite mul1r; apply: length_pos; rewrite -(@rv_eq0 _ n.+1) //; move: hf; rewrite /= free_cons => /andP [h _].
    by apply: contraNneq h => ->; rewrite mem0v.
  apply: prodr_gt0 => i _; have hi : (i.+1 < n)%N by have := ltn_ord i; rewrite ltn_predRL.
  by rewrite /g WB // /nx (ltn_eqF (ltnW hi)); apply: hbp.
rewrite -dWC in gp; have {}gp : 0 < (-1) ^+ (n + count id flips) * \det C.
  move: gp; have -> : \prod_(j < n.+1) flip_sign R flips j = (-1) ^+ count id flips.
    by rewrite -sf -sign_count.
  have -> : forall a b x y : R, a * (x * (b * y)) = x * (b * a * y) by move=> *; ring.
  by rewrite pmulr_rgt0 // exprD.
move: gp (C1); rewrite -signr_odd => gp /eqP; rewrite sqrf_eq1 => /orP [] /eqP h; move: gp; rewrite h.
  by case: (odd _) => //; rewrite mulr1 oppr_gt0 ltr10.
by case: (odd _) => //; rewrite mul1r oppr_gt0 ltr10.
Qed.
End Orientation.
