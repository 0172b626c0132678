From mathcomp Require Import all_ssreflect all_algebra.
From mathcomp Require Import ring.
From Verif Require Import M_Vec P_Vec M_Mat Spec P_Det P_Mat P_Mat2 P_Bareiss M_Cross.
Set Implicit Arguments. Unset Strict Implicit. Unset Printing Implicit Defensive.
Import GRing.Theory.
Local Open Scope ring_scope.

Lemma set_nth_mid (T : Type) (x0 y x : T) s t : set_nth x0 (s ++ y :: t) (size s) x = rcons s x ++ t.
Proof. by elim: s => //= z s ->. Qed.

Section Cross.
Variable F : fieldType.

Lemma cross_fillP n idx (vs : seq (seq F)) D : (idx <= n)%N -> wf n n D ->
  wf n n (cross_fill n.+1 idx vs D) /\
  forall i j, (i < n)%N -> (j < n)%N ->
    get (cross_fill n.+1 idx vs D) i j = nth 0 (nth [::] vs i) (skip idx j).
Proof.
move=> hidx w; rewrite /cross_fill /=.
pose e i j := nth 0 (nth [::] vs i) j.
(* one column written by the inner loop *)
have col D' j j' : wf n n D' -> (j' < n)%N ->
  same n n D' (for_loop 0 n (fun i D => set D i j' (e i j)) D') /\
  forall x y, (x < n)%N -> get (for_loop 0 n (fun i D => set D i j' (e i j)) D') x y =
    if y == j' then e x j else get D' x y.
  move=> w' hj'; pose P k B := same n n D' B /\ forall x y,
    get B x y = if (y == j') && (x < k)%N then e x j else get D' x y.
  suff [s h] : P n (for_loop 0 n (fun i D => set D i j' (e i j)) D').
    by split=> // x y hx; rewrite h hx andbT.
  apply: (@for_loop_ind _ P) => //; first by split=> // x y; rewrite ltn0 andbF.
  move=> i B /andP [_ hi] [sB h]; have [wB _ _] := sB; split.
    by apply: same_trans sB (same_set _ wB hi hj').
  move=> x y; rewrite get_set h ltnS [(x <= i)%N]leq_eqVlt andbC.
  by case: (y == j') => //=; case: (x =P i) => [->|].
set D1 := for_loop 0 idx _ D.
have [w1 h1] : wf n n D1 /\ forall x y, (x < n)%N -> (y < idx)%N -> get D1 x y = e x y.
  pose P k B := wf n n B /\ forall x y, (x < n)%N -> (y < k)%N -> get B x y = e x y.
  apply: (@for_loop_ind _ P) => // j B /andP [_ hj] [wB hB].
  have [[w2 _ _] h2] := col B j j wB (leq_trans hj hidx); split=> // x y hx.
  by rewrite ltnS h2 //; case: eqP => [->|/eqP ne] // hy; apply: hB; rewrite // ltn_neqAle ne.
pose P k B := wf n n B /\ forall x y, (x < n)%N -> (y < k.-1)%N -> get B x y = e x (skip idx y).
suff : P n.+1 (for_loop idx.+1 n.+1 (fun j D => for_loop 0 n (fun i D => set D i j.-1 (e i j)) D) D1) by [].
apply: (@for_loop_ind _ P) => //.
  by split=> // x y hx /= hy; rewrite h1 // /skip hy.
move=> j B /andP [hj1 hj2] [wB hB].
have hj0 : (0 < j)%N by apply: leq_ltn_trans hj1.
have hj' : (j.-1 < n)%N by rewrite -ltnS prednK.
have [[w2 _ _] h2] := col B j j.-1 wB hj'; split=> // x y hx /= hy; rewrite h2 //.
case: eqP => [->|/eqP ne].
  have -> : skip idx j.-1 = j by rewrite /skip ltnNge -(ltnS idx) prednK // hj1.
  by [].
by apply: hB; rewrite // ltn_neqAle ne -ltnS prednK.
Qed.

(* the minor obtained by dropping column idx *)
Definition cminor (vs : seq (seq F)) idx : nat -> nat -> F := fun i j => nth 0 (nth [::] vs i) (skip idx j).

(* the determinant algorithm gives the determinant of an n x n matrix of elements f *)
Definition good n (f : nat -> nat -> F) : Prop :=
  (2 <= n <= 4)%N \/ forall k, (0 < k)%N -> (k + 2 <= n)%N -> detf k f != 0.

Lemma determinant_good n (A : mat F) : (0 < n)%N -> wf n n A -> good n (get A) -> determinant n A = detf n (get A).
Proof.
move=> n0 w [hn|hk].
  case: n hn w {n0} => [|[|[|[|[|n]]]]] //= _ w; rewrite ?det2P //.
    by rewrite det3S // -det_smx.
  by rewrite det4S // -det_smx.
have [h|h] := boolP (2 <= n <= 4)%N; last first.
  have -> : determinant n A = bareiss n A by case: n h {n0 w hk} => [|[|[|[|[|n]]]]].
  case: n n0 w hk {h} => // n _ w hk; rewrite bareissE //; case: forallP => // [[]] j.
  by case: eqP => //= /eqP j0; apply: hk; rewrite ?lt0n // addn2 ltnS.
case: n h w {n0 hk} => [|[|[|[|[|n]]]]] //= _ w; rewrite ?det2P //.
  by rewrite det3S // -det_smx.
by rewrite det4S // -det_smx.
Qed.

Lemma eq_good n f g : (forall i j, (i < n)%N -> (j < n)%N -> f i j = g i j) -> good n f -> good n g.
Proof.
move=> h [hn|hk]; [by left|right=> k k0 hkn]; rewrite -(@eq_detf _ k f); first exact: hk.
by move=> i j hi hj; apply: h; rewrite (leq_trans _ (leq_trans (leq_addr 2 k) hkn)).
Qed.

Lemma crossNDP (jk : F) n args : (n <= size args)%N ->
  exists2 c, crossND jk n.+1 args = Some c & size c = n.+1 /\ forall idx, (idx <= n)%N ->
    exists D, [/\ wf n n D, forall i j, (i < n)%N -> (j < n)%N -> get D i j = cminor args idx i j &
       nth 0 c idx = (-1) ^+ (n + idx) * determinant n D].
Proof.
move=> hs; rewrite /crossND /= ltnNge hs /=; set vs := take n args.
pose D idx := iteri idx (fun k => cross_fill n.+1 k vs) (uninit false jk n n).
have wD idx : (idx <= n.+1)%N -> wf n n (D idx).
  elim: idx => [|k IH] hk; first exact: wf_uninit.
  by rewrite /D iteriS; have [] := cross_fillP vs (ltnSE hk) (IH (ltnW hk)).
pose v idx := (-1) ^+ (n + idx) * determinant n (cross_fill n.+1 idx vs (D idx)).
pose P k (st : seq F * mat F * F) := [/\ st.1.1 = mkseq v k ++ nseq (n.+1 - k) jk, st.1.2 = D k & st.2 = (-1) ^+ (n + k)].
set body := (X in for_loop 0 n.+1 X); set st0 := (X in for_loop 0 n.+1 body X).
have : P n.+1 (for_loop 0 n.+1 body st0).
  apply: (@for_loop_ind _ P) => //.
    split=> //=; rewrite addn0 -signr_odd modn2 /=.
    by case: (odd n) => /=; rewrite ?mul0rn ?sub0r ?expr1 // expr0 mulr2n addrK.
  move=> k [[res B] sg] /andP [_ hk] [/= -> -> ->]; split=> //.
    have -> : (n.+1 - k = (n.+1 - k.+1).+1)%N by rewrite -subSn.
    rewrite (mkseqS v) [X in X = _]/= -/(v k).
    by have := set_nth_mid 0 jk (v k) (mkseq v k) (nseq (n.+1 - k.+1) jk); rewrite size_mkseq.
  by rewrite [X in X = _]/= addnS exprSr.
case: (for_loop 0 n.+1 body st0) => [[res B] sg] [/= -> _ _]; rewrite subnn cats0.
exists (mkseq v n.+1) => //; rewrite size_mkseq; split=> // idx hidx.
have [w1 h1] := cross_fillP vs hidx (wD _ (leqW hidx)).
exists (cross_fill n.+1 idx vs (D idx)); split=> //; last by rewrite nth_mkseq.
by move=> i j hi hj; rewrite h1 // /cminor nth_take.
Qed.
End Cross.
