(* The result of the one-sided iteration where all singular values reach the threshold, orthogonal columns or not. *)
From mathcomp Require Import all_ssreflect all_algebra.
From mathcomp Require Import ring.
From Verif Require Import Spec M_Vec P_Vec M_Mat P_Mat P_Mat2 M_LU P_Tri P_LU P_LU2 M_QR P_QR M_SVD P_SVD2 P_SVD P_SVDres P_SVDone P_SVDstop P_SVDthree.
Set Implicit Arguments. Unset Strict Implicit. Unset Printing Implicit Defensive.
Import Order.Theory GRing.Theory Num.Theory.
Local Open Scope ring_scope.

Section Result.
Variable R : rcfType.
Variable std_sort : seq (R * nat) -> seq (R * nat).
Hypothesis sortP : forall l, perm_eq (std_sort l) l /\ sorted (fun a b => b.1 <= a.1) (std_sort l).
Variables (tmin tmax sqrteps : R).

Lemma one_sided_result_plain rows cols rm sg0 s (M0 : 'M[R]_(rows, cols)) (st : mat R * mat R) (lo up : R) : (0 < cols)%N ->
  inv1 M0 st -> 0 < lo -> 0 <= up -> 0 <= sqrteps ->
  up * sqrteps ^+ 2 <= lo ->
  (forall i, (i < cols)%N -> lo <= gram rows st.1 i i /\ gram rows st.1 i i <= up) ->
  exists2 d, one_sided_result std_sort tmin tmax rows cols rm sg0 sqrteps s st = Some d &
  exists from : nat -> nat, perm_eq [seq from i | i <- iota 0 cols] (iota 0 cols) /\
  forall (i j : 'I_cols), exists2 l : R, 0 < l /\ l ^+ 2 = gram rows st.1 (from i) (from i) * gram rows st.1 (from j) (from j) &
    ((mxof rows cols (svdU d))^T *m mxof rows cols (svdU d)) i j = gram rows st.1 (from i) (from j) / l.
Proof.
move=> c0; case: st => X V [/= wX wV oV eM] lo0 up0 ep hle hg; rewrite /one_sided_result.
set len := fun i => vlength (get_col rows X i).
have [sl pi me inj mono] := @std_sort_idx _ std_sort sortP rows cols len.
set l := std_sort _ in sl pi me inj mono *; set from := fun i => (nth (0, 0%N) l i).2 in pi me inj mono *.
have lenE i : (i < cols)%N -> len i ^+ 2 = gram rows X i i.
  move=> hi; rewrite /len (@length_sum _ rows) ?(size_get_col wX) //; apply: eq_bigr => k _.
  by rewrite (nth_get_col _ wX) // expr2.
have len0 i : 0 <= len i by apply: length_ge0.
have SE i : (i < cols)%N -> nth 0 [seq x.1 | x <- l] i = len (from i).
  by move=> hi; rewrite (nth_map (0, 0%N)) ?sl // (me i hi).2.
set S := [seq x.1 | x <- l] in SE *.
have sS : size S = cols by rewrite size_map.
(* the sorted columns *)
set X1 := for_loop 0 cols _ (uninit false _ _ _).
have [wX1 gX1] : wf rows cols X1 /\ forall i j, (i < rows)%N -> (j < cols)%N -> get X1 i j = get X i (from j).
  pose P k (Y : mat R) := wf rows cols Y /\ forall i j, (i < rows)%N -> (j < k)%N -> get Y i j = get X i (from j).
  have : P cols X1; last by [].
  apply: (@for_loop_ind _ P) => //; first by split=> //; apply: wf_uninit.
  move=> k Y /andP [_ kc] [wY gY]; have [fk _] := me k kc.
  have [[w' _ _] g'] := set_colP wY kc (size_get_col wX fk).
  split=> // i j hi; rewrite ltnS leq_eqVlt g' => /orP [/eqP ->|jk]; first by rewrite eqxx (nth_get_col _ wX).
  by rewrite (ltn_eqF jk) gY.
set V1 := for_loop 0 cols _ (uninit true _ _ _).
set X2 := for_loop 0 cols _ X1.
have [wX2 gX2] : wf rows cols X2 /\ forall i j, (i < rows)%N -> (j < cols)%N ->
    get X2 i j = if len (from j) != 0 then get X i (from j) / len (from j) else get X i (from j).
  pose P k (Y : mat R) := wf rows cols Y /\ forall i j, (i < rows)%N -> (j < cols)%N ->
    get Y i j = if (j < k)%N && (len (from j) != 0) then get X i (from j) / len (from j) else get X i (from j).
  have : P cols X2.
    apply: (@for_loop_ind _ P) => //.
    move=> k Y /andP [_ kc] [wY gY]; rewrite SE //.
    case: (eqVneq (len (from k)) 0) => [z|nz] /=.
      split=> // i j hi hj; rewrite gY // ltnS [(j <= k)%N]leq_eqVlt.
      by case: (j =P k) => [->|_] //=; rewrite ltnn z eqxx.
    have sc : size [seq x / len (from k) | x <- get_col rows Y k] = rows by rewrite size_map (size_get_col wY).
    have [[w' _ _] g'] := set_colP wY kc sc.
    split=> // i j hi hj; rewrite g' ltnS [(j <= k)%N]leq_eqVlt.
    case: (j =P k) => [->|_] /=; last by rewrite gY.
    by rewrite nz (set_nth_default 0) ?sc // (nth_map 0) ?(size_get_col wY) // (nth_get_col _ wY) // gY // ltnn.
  by case=> wX2 gX2; split=> // i j hi hj; rewrite gX2 // hj.

have lenp i : (i < cols)%N -> 0 < len i.
  move=> hi'; rewrite lt_def len0 andbT -sqrf_eq0 lenE // gt_eqF //; have [h _] := hg i hi'; exact: lt_le_trans h.
have over : count (fun x => nth 0 S 0 * sqrteps <= x) S = cols.
  apply/eqP; rewrite -[X in _ == X]sS -all_count; apply/(all_nthP 0) => i; rewrite sS => hi'.
  have [f0 _] := me 0%N c0; have [fi _] := me i hi'; rewrite !SE //.
  rewrite -(@ler_pexpn2r _ 2) ?nnegrE ?mulr_ge0 // exprMn !lenE //.
  have [h1 _] := hg _ fi; have [_ h2] := hg _ f0; apply: le_trans h1; apply: le_trans hle.
  by apply: ler_wpmul2r => //; apply: sqr_ge0.
rewrite over eqxx /=; eexists; first by reflexivity.
exists from; split=> // i j; have [fi _] := me i (ltn_ord i); have [fj _] := me j (ltn_ord j).
exists (len (from i) * len (from j)).
  by split; [rewrite mulr_gt0 // lenp|rewrite exprMn !lenE].
have [wcQ _ _ gcQ] := convertP rm wX2.
rewrite mxE /gram mulr_suml; apply: eq_bigr => k _; rewrite !mxE /= !gcQ // !gX2 // !gt_eqF ?lenp //= invfM.
by rewrite mulrACA.
Qed.

End Result.
