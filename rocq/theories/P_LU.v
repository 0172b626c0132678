(* Lemmas about the LU and LUP decompositions. *)
From mathcomp Require Import all_ssreflect all_algebra.
From mathcomp Require Import ring.
From Verif Require Import M_Vec P_Vec M_Mat Spec P_Mat M_LU P_Tri.
Set Implicit Arguments. Unset Strict Implicit. Unset Printing Implicit Defensive.
Import Order.Theory GRing.Theory Num.Theory.
Local Open Scope ring_scope.

Lemma for_opt_ind (S : Type) (P : nat -> S -> Prop) (Q : Prop) lo m body (s : S) :
  P lo s -> (forall i s, (lo <= i < lo + m)%N -> P i s -> if body i s is Some s' then P i.+1 s' else Q) ->
  if for_opt (iota lo m) body s is Some s' then P (lo + m)%N s' else Q.
Proof.
elim: m lo s => [|m IH] lo s h0 h /=; first by rewrite addn0.
have := h lo s; rewrite leqnn -[X in (X < _)%N]addn0 ltn_add2l ltn0Sn => /(_ isT h0).
case: (body lo s) => // s' h1; rewrite -addSnnS; apply: IH => // i t /andP [h2 h3]; apply: h.
by rewrite (ltnW h2) -addSnnS.
Qed.

Lemma for_opt_ind0 (S : Type) (P : nat -> S -> Prop) (Q : Prop) m body (s : S) :
  P 0%N s -> (forall i s, (i < m)%N -> P i s -> if body i s is Some s' then P i.+1 s' else Q) ->
  (forall s', for_opt (iota 0 m) body s = Some s' -> P m s') /\ (for_opt (iota 0 m) body s = None -> Q).
Proof.
move=> h0 h; have := @for_opt_ind _ P Q 0 m body s h0 h.
by case: for_opt => [st|] h'; split=> // s' [<-].
Qed.

Section LU.
Variable F : fieldType.
Implicit Types (A L U : mat F).

Lemma det_lower n (f : nat -> nat -> F) : (forall i j, (i < j < n)%N -> f i j = 0) ->
  \det (\matrix_(i < n, j < n) f i j) = \prod_(i < n) f i i.
Proof.
move=> h; rewrite det_trig; first by apply: eq_bigr => i _; rewrite mxE.
by apply/is_trig_mxP => i j ij; rewrite mxE h // ij ltn_ord.
Qed.

Lemma det_upper n (f : nat -> nat -> F) : (forall i j, (j < i < n)%N -> f i j = 0) ->
  \det (\matrix_(i < n, j < n) f i j) = \prod_(i < n) f i i.
Proof.
move=> h; rewrite -det_tr -(@det_lower n (fun i j => f j i)); last by move=> i j; apply: h.
by congr (\det _); apply/matrixP => i j; rewrite !mxE.
Qed.

Lemma prod_neq0 n (f : nat -> F) : (\prod_(i < n) f i != 0) = [forall i : 'I_n, f i != 0].
Proof.
apply/idP/forallP => [h i|h]; first by apply: contraNneq h => z; rewrite (bigD1 i) //= z mul0r.
by rewrite prodf_seq_neq0; apply/allP => i _; apply/implyP => _.
Qed.

Lemma lu_innerP n k pr L U : (k < n)%N -> wf n n L -> wf n n U -> size pr = n -> nth 0 pr k != 0 ->
  (forall j, (j < n)%N -> nth 0 pr j = get U k j) ->
  let st := for_loop k.+1 n (lu_row n k pr) (L, U) in
  [/\ same n n L st.1, same n n U st.2,
      forall i j, (i < n)%N -> (j < n)%N ->
        get st.1 i j = if (k < i)%N && (j == k) then get U i k / get U k k else get L i j &
      forall i j, (i < n)%N -> (j < n)%N ->
        get st.2 i j = if (k < i)%N then get U i j - get U k j * (get U i k / get U k k) else get U i j].
Proof.
move=> hk wL wU spr nz hpr.
pose P m (st : mat F * mat F) := [/\ same n n L st.1, same n n U st.2,
  forall i j, (i < n)%N -> (j < n)%N ->
    get st.1 i j = if (k < i < m)%N && (j == k) then get U i k / get U k k else get L i j &
  forall i j, (i < n)%N -> (j < n)%N ->
    get st.2 i j = if (k < i < m)%N then get U i j - get U k j * (get U i k / get U k k) else get U i j].
set st := for_loop _ _ _ _.
suff [s1 s2 h1 h2] : P n st.
  by split=> // i j hi hj; [rewrite h1 //|rewrite h2 //]; rewrite hi andbT.
rewrite /st; apply: (@for_loop_ind _ P) => //.
  by split=> // i j hi hj; rewrite ltnS; case: (ltnP k i).
move=> i [L' U'] /andP [ki hi] [/= s1 s2 h1 h2]; rewrite /lu_row.
have [w1 _ _] := s1; have [w2 _ _] := s2.
set s := get U' i k / nth 0 pr k.
have es : s = get U i k / get U k k by rewrite /s h2 // ltnn andbF hpr.
have ev : vsub (get_row n U' i) (vscale pr s) = vsub (get_row n U' i) (vscalel s pr).
  by congr vsub; apply: eq_map => x; rewrite mulrC.
rewrite ev; have [s3 h3] := axpyP s w2 hi spr; have [w3 _ _] := s3.
split=> /=.
- exact: same_trans s1 (same_set _ w1 hi hk).
- exact: same_trans s2 (same_trans s3 (same_set _ w3 hi hk)).
- move=> x y hx hy; rewrite get_set h1 // ltnS [(x <= i)%N]leq_eqVlt.
  by case: (x =P i) => [->|] //=; rewrite ki ltnn es; case: eqP.
move=> x y hx hy; rewrite get_set h3 // ltnS [(x <= i)%N]leq_eqVlt.
case: (x =P i) => [->|ne] /=; last by rewrite h2.
rewrite ki; case: (y =P k) => [->|_]; first by rewrite mulrC divfK ?subrr // -hpr.
by rewrite h2 // ltnn andbF hpr // es mulrC.
Qed.

(* Invariant of the elimination after k columns: the rows of L U are the rows p of A *)
Definition lu_inv n A (p : nat -> nat) k L U :=
  [/\ wf n n L /\ wf n n U,
      forall i j, (i < n)%N -> (j < n)%N -> (i <= j)%N || (k <= j)%N -> get L i j = (i == j)%:R,
      forall i j, (i < n)%N -> (j < n)%N -> (j < k)%N -> (j < i)%N -> get U i j = 0 &
      forall i j, (i < n)%N -> (j < n)%N -> \sum_(l < n) get L i l * get U l j = get A (p i) j].

Lemma lu_inv_step n A p k L U pr : (k < n)%N -> lu_inv n A p k L U -> size pr = n -> nth 0 pr k != 0 ->
  (forall j, (j < n)%N -> nth 0 pr j = get U k j) ->
  let st := for_loop k.+1 n (lu_row n k pr) (L, U) in lu_inv n A p k.+1 st.1 st.2.
Proof.
move=> hk [[wL wU] hL hU hP] spr nz hpr st.
have [[w1 _ _] [w2 _ _] h1 h2] := lu_innerP hk wL wU spr nz hpr; rewrite -/st in w1 w2 h1 h2.
have nz' : get U k k != 0 by rewrite -hpr.
split=> //.
- move=> i j hi hj hij; rewrite h1 //; case: ifP => [/andP [ki /eqP jk]|_].
    by move: hij; rewrite jk ltnn orbF leqNgt ki.
  by apply: hL => //; case/orP: hij => [->//|/ltnW ->]; rewrite orbT.
- move=> i j hi hj; rewrite ltnS leq_eqVlt => /orP [/eqP ->|jk] ji; rewrite h2 //.
    by rewrite ji mulrC divfK ?subrr.
  by rewrite (hU i j) // (hU k j) // mul0r subr0; case: ifP.
move=> i j hi hj; rewrite -hP //.
pose s l := get U l k / get U k k.
have e l : (l < n)%N -> get st.1 i l * get st.2 l j =
    get L i l * get U l j + (if (k < i)%N && (l == k) then s i * get U k j else 0)
    - (if (k < l)%N && (l == i) then s i * get U k j else 0).
  move=> hl; rewrite h1 // h2 // -/(s i) -/(s l); case: (l =P k) => [->|lk].
    rewrite ltnn /= andbT subr0; case: ifP => ki; last by rewrite addr0.
    by rewrite hL ?leqnn ?orbT // gtn_eqF // mul0r add0r.
  rewrite !andbF addr0; case: (ltnP k l) => kl /=; last by rewrite subr0.
  rewrite hL ?(ltnW kl) ?orbT // [l == i]eq_sym; case: (i =P l) => [->|_].
    by rewrite !mul1r [s l * _]mulrC.
  by rewrite !mul0r subr0.
under eq_bigr => l _ do rewrite e //.
rewrite sumrB big_split /= -addrA -[RHS]addr0; congr (_ + _).
have [ki|ki] := ltnP k i; last first.
  rewrite !big1 ?subrr // => l _; case: ifP => // /andP [kl /eqP e'].
  by move: ki; rewrite -e' leqNgt kl.
rewrite (bigD1 (Ordinal hk)) //= eqxx big1 ?addr0; last first.
  by move=> l; rewrite -val_eqE /= => /negPf ->.
rewrite (bigD1 (Ordinal hi)) //= eqxx ki big1 ?addr0 ?subrr //.
by move=> l; rewrite -val_eqE /= => /negPf ->; rewrite andbF.
Qed.

(* leading minors of A from a partial elimination without exchanges *)
Lemma lu_lead n A k L U m : lu_inv n A id k L U -> (m <= n)%N -> (m <= k.+1)%N ->
  \det (mxof m m A) = \prod_(i < m) get U i i.
Proof.
move=> [_ hL hU hP] mn mk.
have e : mxof m m A = mxof m m L *m mxof m m U.
  apply/matrixP => i j; rewrite !mxE -hP ?(leq_trans (ltn_ord _) mn) //.
  rewrite -(big_mkord xpredT (fun l => get L i l * get U l j)) (@big_cat_nat _ _ _ m) //= big_mkord.
  rewrite [X in _ + X]big_nat [X in _ + X]big1 ?addr0 => [|l /andP [ml ln]].
    by apply: eq_bigr => l _; rewrite !mxE.
  by rewrite hL ?(leq_trans (ltn_ord i) mn) ?(leq_trans (ltnW (ltn_ord i)) ml) //
     (ltn_eqF (leq_trans (ltn_ord i) ml)) mul0r.
rewrite e det_mulmx (@det_lower m (get L)); last first.
  by move=> i j /andP [ij jm]; rewrite hL ?(leq_trans _ mn) ?(ltn_trans ij jm) ?(ltnW ij) // ltn_eqF.
rewrite (@det_upper m (get U)); last first.
  move=> i j /andP [ji im]; rewrite hU ?(leq_trans _ mn) //; first exact: ltn_trans im.
  by apply: leq_trans ji _; rewrite -ltnS (leq_trans im).
rewrite big1 ?mul1r // => i _; rewrite hL ?(leq_trans (ltn_ord i) mn) ?leqnn //.
by rewrite eqxx.
Qed.

Lemma lu_inv0 n A p L U : wf n n L -> wf n n U ->
  (forall i j, (i < n)%N -> (j < n)%N -> get L i j = (i == j)%:R) ->
  (forall i j, (i < n)%N -> (j < n)%N -> get U i j = get A (p i) j) -> lu_inv n A p 0 L U.
Proof.
move=> wL wU hL hU; split=> // [i j hi hj _|i j hi hj]; first exact: hL.
rewrite (bigD1 (Ordinal hi)) //= hL // eqxx mul1r hU // big1 ?addr0 // => l.
by rewrite -val_eqE /= => /negPf li; rewrite hL // eq_sym li mul0r.
Qed.

Lemma decompose_luP n A : (0 < n)%N -> wf n n A ->
  if decompose_lu n A is Some (L, U) then
    [/\ lu_inv n A id n.-1 L U, rowmaj L = rowmaj A, rowmaj U = rowmaj A &
        forall k, (k < n)%N -> \det (mxof k k A) != 0]
  else exists2 k, (0 < k < n)%N & \det (mxof k k A) = 0.
Proof.
move=> n0 wA; have [wI eI jI hI] := identityP (rowmaj A) (junk A) n n.
pose P k (st : mat F * mat F) := [/\ lu_inv n A id k st.1 st.2, rowmaj st.1 = rowmaj A, rowmaj st.2 = rowmaj A &
  forall m, (m <= k)%N -> \det (mxof m m A) != 0].
have h0 : P 0%N (identity (rowmaj A) (junk A) n n, A).
  split=> //; first exact: lu_inv0.
  by case=> // _; rewrite det_mx00 oner_eq0.
pose Q := exists2 k, (0 < k < n)%N & \det (mxof k k A) = 0.
suff [h1 h2] : (forall st, decompose_lu n A = Some st -> P n.-1 st) /\ (decompose_lu n A = None -> Q).
  case: decompose_lu h1 h2 => [[L U]|] h1 h2; last exact: h2.
  have [hi e1 e2 hd] := h1 _ erefl; split=> // k hk; apply: hd.
  by rewrite -ltnS prednK.
apply: (@for_opt_ind0 _ P Q) => // k [L' U']; rewrite ltn_predRL => hk [/= hi e1 e2 hd].
have hk' := ltnW hk; have [[w1 w2] _ _ _] := hi.
have eR j (hj : (j < n)%N) : nth 0 (get_row n U' k) j = get U' k j by rewrite (nth_get_row _ w2).
have hdet := lu_lead hi hk' (leqnn _).
rewrite eR //; case: eqP => [z|/eqP nz].
  by exists k.+1 => //; rewrite hdet big_ord_recr /= z mulr0.
have sr : size (get_row n U' k) = n by rewrite (size_get_row w2).
have nz' : nth 0 (get_row n U' k) k != 0 by rewrite eR.
have hi' := lu_inv_step hk' hi sr nz' eR.
have [[_ e3 _] [_ e4 _] _ _] := lu_innerP hk' w1 w2 sr nz' eR.
split; rewrite ?e3 ?e4 // => m; rewrite leq_eqVlt => /orP [/eqP ->|]; last by rewrite ltnS; apply: hd.
rewrite hdet (prod_neq0 _ (fun i => get U' i i)); apply/forallP => i; have := ltn_ord i; rewrite ltnS leq_eqVlt => /orP [/eqP ->//|ik].
have := hd k (leqnn k); rewrite (lu_lead hi (ltnW hk') (leqnSn k)) (prod_neq0 _ (fun i => get U' i i)) => /forallP.
by move=> /(_ (Ordinal ik)).
Qed.
End LU.

Section Swap.
Variable F : fieldType.
Implicit Types (A L U : mat F).

Definition sw (a b x : nat) : nat := if x == a then b else if x == b then a else x.

Lemma sw_lt n a b x : (a < n)%N -> (b < n)%N -> (x < n)%N -> (sw a b x < n)%N.
Proof. by rewrite /sw; case: eqP => // _; case: eqP. Qed.
Lemma sw_low k a b x : (k <= a)%N -> (k <= b)%N -> (x < k)%N -> sw a b x = x.
Proof. by move=> ha hb hx; rewrite /sw !ltn_eqF //; apply: leq_trans hx _. Qed.
Lemma sw_ge k a b x : (k <= a)%N -> (k <= b)%N -> (k <= sw a b x)%N = (k <= x)%N.
Proof.
move=> ha hb; rewrite /sw; case: eqP => [->|_]; first by rewrite ha hb.
by case: eqP => [->|_] //; rewrite ha hb.
Qed.
Lemma swK a b x : sw a b (sw a b x) = x.
Proof.
rewrite /sw; case: (x =P a) => [->|/eqP xa]; first by case: (b =P a) => [->//|]; rewrite eqxx.
by case: (x =P b) => [->|/eqP xb]; rewrite ?eqxx // (negPf xa) (negPf xb).
Qed.

Lemma sum_delta lo hi x (g : nat -> F) :
  \sum_(lo <= l < hi) (x == l)%:R * g l = if (lo <= x < hi)%N then g x else 0.
Proof.
case: ifP => h; last first.
  rewrite big_nat big1 // => l hl; case: eqP => [e|]; rewrite ?mul0r //.
  by move: h; rewrite e hl.
rewrite (bigD1_seq x) ?mem_index_iota ?iota_uniq //= eqxx mul1r big1 ?addr0 // => l lx.
by rewrite eq_sym (negPf lx) mul0r.
Qed.

Lemma lu_inv_swap n A p k pr L L1 U U1 : (k <= pr < n)%N -> lu_inv n A p k L U ->
  wf n n L1 -> wf n n U1 ->
  (forall i j, (i < n)%N -> (j < n)%N ->
     get L1 i j = if (j < k)%N then get L (sw pr k i) j else get L i j) ->
  (forall i j, (i < n)%N -> (j < n)%N -> get U1 i j = get U (sw pr k i) j) ->
  lu_inv n A (fun i => p (sw pr k i)) k L1 U1.
Proof.
move=> /andP [kp pn] [_ hL hU hP] w1 w2 h1 h2; have kn := leq_ltn_trans kp pn.
have swn x : (x < n)%N -> (sw pr k x < n)%N by apply: sw_lt.
split=> //.
- move=> i j hi hj h; rewrite h1 //; case: ltnP => jk; last by apply: hL.
  move: h; rewrite [(k <= j)%N]leqNgt jk orbF => ij.
  by rewrite (@sw_low k) ?(leq_ltn_trans ij jk) //; apply: hL; rewrite // ij.
- move=> i j hi hj jk ji; rewrite h2 //; apply: hU; rewrite ?swn //.
  have [ik|ki] := ltnP i k; first by rewrite (@sw_low k).
  by apply: leq_trans jk _; rewrite sw_ge.
move=> i j hi hj; rewrite -hP ?swn // -(big_mkord xpredT (fun l => get L1 i l * get U1 l j)).
rewrite -(big_mkord xpredT (fun l => get L (sw pr k i) l * get U l j)).
rewrite !(@big_cat_nat _ _ _ k 0 n) ?(ltnW kn) //=; congr (_ + _).
  rewrite !big_nat; apply: eq_bigr => l /andP [_ lk].
  by rewrite h1 ?h2 ?lk ?(ltn_trans lk kn) // (@sw_low k _ _ l).
rewrite big_nat (eq_bigr (fun l => (i == l)%:R * get U (sw pr k l) j)); last first.
  by move=> l /andP [kl ln]; rewrite h1 // ltnNge kl /= h2 // hL // kl orbT.
rewrite [RHS]big_nat [RHS](eq_bigr (fun l => (sw pr k i == l)%:R * get U l j)); last first.
  by move=> l /andP [kl ln]; rewrite hL ?swn // kl orbT.
rewrite -!big_nat (sum_delta k n i (fun l => get U (sw pr k l) j)) (sum_delta k n _ (fun l => get U l j)).
by rewrite sw_ge // hi swn.
Qed.
End Swap.

Section LUP.
Variable F : numFieldType.
Implicit Types (A L U : mat F).

Lemma max_elementP k (v : seq F) : (k < size v)%N -> (forall i, nth 0 v i \is Num.real) ->
  (k <= max_element k v < size v)%N /\
  forall i, (k <= i < size v)%N -> nth 0 v i <= nth 0 v (max_element k v).
Proof.
move=> hk hr; pose P m best := (k <= best < m)%N /\ forall i, (k <= i < m)%N -> nth 0 v i <= nth 0 v best.
apply: (@for_loop_ind _ P) => //.
  by split=> [|i]; rewrite ?leqnn ?ltnSn // ltnS -eqn_leq => /eqP ->.
move=> i best /andP [ki hi] [/andP [h1 h2] h3]; case: ifP => hlt.
  split=> [|j]; first by rewrite ltnSn ltnW.
  move=> /andP [kj]; rewrite ltnS leq_eqVlt => /orP [/eqP ->//|ji].
  by apply: le_trans (ltW hlt); apply: h3; rewrite kj.
split=> [|j]; first by rewrite h1 ltnW.
move=> /andP [kj]; rewrite ltnS leq_eqVlt => /orP [/eqP ->|ji]; last by apply: h3; rewrite kj.
by rewrite real_leNgt // hlt.
Qed.

Lemma swapLP n k pr L : wf n n L -> (k <= pr < n)%N ->
  let L1 := for_loop 0 k (fun i L => set (set L pr i (get L k i)) k i (get L pr i)) L in
  same n n L L1 /\ forall i j, get L1 i j = if (j < k)%N then get L (sw pr k i) j else get L i j.
Proof.
move=> wL /andP [kp pn]; have kn := leq_ltn_trans kp pn.
pose P m B := same n n L B /\ forall i j, get B i j = if (j < m)%N then get L (sw pr k i) j else get L i j.
apply: (@for_loop_ind _ P) => // m B /andP [_ mk] [sB hB]; have mn := ltn_trans mk kn.
have [wB _ _] := sB; have s1 := same_set (get B k m) wB pn mn; have [w1 _ _] := s1.
split; first exact: same_trans sB (same_trans s1 (same_set _ w1 kn mn)).
move=> i j; rewrite !get_set !hB ltnS [(j <= m)%N]leq_eqVlt /sw.
case: (j =P m) => [->|_]; last by rewrite !andbF.
rewrite !andbT ltnn /=; case: (i =P k) => [->|_]; first by case: (k =P pr) => [->|].
by case: (i =P pr).
Qed.

Lemma swap_nthP n (P : seq nat) a b : perm_eq P (iota 0 n) -> (a < n)%N -> (b < n)%N ->
  perm_eq (swap_nth P a b) (iota 0 n) /\
  forall i, nth 0%N (swap_nth P a b) i = nth 0%N P (sw a b i).
Proof.
move=> pP an bn; have sP : size P = n by rewrite (perm_size pP) size_iota.
have h i : nth 0%N (swap_nth P a b) i = nth 0%N P (sw a b i).
  rewrite /swap_nth !nth_set_nth /= nth_set_nth /= /sw.
  by case: (i =P b) => [->|_]; [case: (b =P a) => [->|]|case: (i =P a)].
split=> //; apply: perm_trans pP.
have -> : swap_nth P a b = [seq nth 0%N P (sw a b i) | i <- iota 0 n].
  apply: (@eq_from_nth _ 0%N) => [|i].
    by rewrite /swap_nth !size_set_nth size_map size_iota sP (maxn_idPr an) (maxn_idPr bn).
  rewrite /swap_nth !size_set_nth sP (maxn_idPr an) (maxn_idPr bn) => hi.
  by rewrite h (nth_map 0%N) ?size_iota // nth_iota.
rewrite -{2}(mkseq_nth 0%N P) /mkseq sP (map_comp (nth 0%N P) (sw a b)); apply: perm_map.
apply: uniq_perm; rewrite ?iota_uniq // ?map_inj_uniq ?iota_uniq //.
  by apply: can_inj (swK a b).
move=> x; apply/mapP/idP => [[y]|]; rewrite !mem_iota !add0n => /andP [_ hy].
  by move=> ->; rewrite sw_lt.
by exists (sw a b x); rewrite ?swK // mem_iota add0n sw_lt.
Qed.

Definition lup_inv n A k (st : mat F * mat F * seq nat) :=
  let: (L, U, P) := st in
  [/\ lu_inv n A (nth 0%N P) k L U, perm_eq P (iota 0 n),
      forall i j, (i < n)%N -> (j < n)%N -> `|get L i j| <= 1,
      rowmaj L = rowmaj A /\ junk L = junk A & rowmaj U = true /\ junk U = junk A].

Lemma lup_stepP n A k st : (k.+1 < n)%N -> lup_inv n A k st -> lup_inv n A k.+1 (lup_step n k st).
Proof.
move=> hk; have kn := ltnW hk; case: st => [[L U] P] [hi pP hL1 [eL jL] [eU jU]].
have [[wL wU] hL hU hP] := hi; rewrite /lup_step.
set v := [seq `|x| | x <- get_col n U k]; set pr := max_element k v.
have sv : size v = n by rewrite size_map (size_get_col wU).
have nv i : (i < n)%N -> nth 0 v i = `|get U i k|.
  by move=> hn; rewrite (nth_map 0) ?(size_get_col wU) // (nth_get_col _ wU).
have rv i : nth 0 v i \is Num.real.
  have [h|h] := ltnP i n; first by rewrite nv // normr_real.
  by rewrite nth_default ?sv // real0.
have [] := @max_elementP k v; rewrite ?sv // -/pr => hpr hmax; have [kp pn] := andP hpr.
have eR j (hj : (j < n)%N) : nth 0 (get_row n U pr) j = get U pr j by rewrite (nth_get_row _ wU).
rewrite eR //; case: eqP => [z|/eqP nz] /=; last first.
  have sr : size (get_row n U pr) = n by rewrite (size_get_row wU).
  have sk : size (get_row n U k) = n by rewrite (size_get_row wU).
  have [s1 h1] := set_rowP wU pn sk; have [w1 _ _] := s1.
  have [s2 h2] := set_rowP w1 kn sr; have [w2 _ _] := s2.
  set U2 := set_row n _ k _ in s2 h2 w2 *.
  have [s3 h3] := swapLP wL hpr; have [w3 _ _] := s3; set L1 := for_loop 0 k _ L in s3 h3 w3 *.
  have hU2 i j : (i < n)%N -> (j < n)%N -> get U2 i j = get U (sw pr k i) j.
    move=> hi' hj; rewrite h2 h1 /sw; case: (i =P k) => [->|_].
      rewrite (set_nth_default 0) ?sr // (nth_get_row _ wU) //.
      by case: eqP => [<-|].
    by case: (i =P pr) => [_|//]; rewrite (set_nth_default 0) ?sk // (nth_get_row _ wU).
  have [pP' hP'] := swap_nthP pP pn kn.
  have eRk j (hj : (j < n)%N) : nth 0 (get_row n U pr) j = get U2 k j.
    by rewrite eR // hU2 // /sw eqxx; case: eqP => [->|].
  have hi' : lu_inv n A (nth 0%N (swap_nth P pr k)) k L1 U2.
    have [a b c d] := lu_inv_swap hpr hi w3 w2 (fun i j _ _ => h3 i j) hU2.
    by split=> // i j hii hjj; rewrite hP' -d.
  have nz' : nth 0 (get_row n U pr) k != 0 by rewrite eR.
  have := lu_inv_step kn hi' sr nz' eRk; have := lu_innerP kn w3 w2 sr nz' eRk.
  case: (for_loop k.+1 n _ _) => L3 U3 /= [[_ e3 j3] [_ e4 j4] h4 h5] hi3; split=> //.
  - move=> i j hin hj; rewrite h4 //; case: ifP => [/andP [ki _]|_].
      rewrite !hU2 // normrM normfV; have -> : sw pr k k = pr by rewrite /sw eqxx; case: eqP => [<-|].
      rewrite ler_pdivr_mulr ?normr_gt0 // mul1r -!nv ?sw_lt //; apply: hmax.
      by rewrite sw_ge // (ltnW ki) sw_lt.
    by rewrite h3; case: ifP => _; apply: hL1; rewrite ?sw_lt.
  - by rewrite e3 j3; have [_ -> ->] := s3.
  by rewrite e4 j4; have [_ -> ->] := s2; have [_ -> ->] := s1.
split=> //; split=> //.
- by move=> i j hin hj h; apply: hL => //; case/orP: h => [->//|/ltnW ->]; rewrite orbT.
move=> i j hin hj; rewrite ltnS leq_eqVlt => /orP [/eqP ->|jk] ji; last exact: hU.
apply/eqP; rewrite -normr_le0 -nv //; apply: le_trans (hmax i _) _; first by rewrite (ltnW ji).
by rewrite nv // z normr0.
Qed.

Lemma decompose_lupP n A : (0 < n)%N -> wf n n A ->
  let d := decompose_lup n A in
  [/\ lu_inv n A (nth 0%N (lupP d)) n.-1 (lupL d) (lupU d), perm_eq (lupP d) (iota 0 n),
      forall i j, (i < n)%N -> (j < n)%N -> `|get (lupL d) i j| <= 1,
      rowmaj (lupL d) = rowmaj A /\ junk (lupL d) = junk A & rowmaj (lupU d) = rowmaj A].
Proof.
move=> n0 wA; have [wI eI jI hI] := identityP (rowmaj A) (junk A) n n.
have [wC eC jC hC] := convertP true wA; rewrite /decompose_lup.
have : lup_inv n A n.-1 (for_loop 0 n.-1 (lup_step n)
      (identity (rowmaj A) (junk A) n n, convert true n n A, iota 0 n)).
  apply: (@for_loop_ind _ (lup_inv n A)) => //.
    split=> //; last by move=> i j hi hj; rewrite hI //; case: eqP; rewrite ?normr1 ?normr0 ?ler01.
    by apply: lu_inv0 => // i j hi hj; rewrite hC // nth_iota.
  by move=> k st /andP [_]; rewrite ltn_predRL; apply: lup_stepP.
case: (for_loop 0 n.-1 (lup_step n) _) => [[L U] P] [[[wL wU] hL hU hP] pP h1 [eL jL] [eU jU]] /=.
have [w e j h] := convertP (rowmaj A) wU; split=> //; split=> //.
- by move=> i j' hi hj h2 h3; rewrite h // hU.
by move=> i j' hi hj; rewrite -hP //; apply: eq_bigr => l _; rewrite h.
Qed.
End LUP.
