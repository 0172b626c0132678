(* The Bareiss determinant: exact characterisation of what the code computes. *)
From mathcomp Require Import all_ssreflect all_algebra.
From mathcomp Require Import ring.
From Verif Require Import M_Vec P_Vec M_Mat Spec P_Det P_Mat.
Set Implicit Arguments. Unset Strict Implicit. Unset Printing Implicit Defensive.
Import GRing.Theory.

(* in-place update of a window: the new value of a cell depends on cells outside the window and on
   the old value of the cell itself *)
Lemma updateP (T : Type) r c lo (A : mat T) (h : mat T -> nat -> nat -> T) (v : nat -> nat -> T) :
  wf r c A ->
  (forall B i j, lo <= i < r -> lo <= j < c ->
     (forall x y, (x < lo) || (y < lo) || ((x == i) && (y == j)) -> get B x y = get A x y) ->
     h B i j = v i j) ->
  let B := for_loop lo r (fun i B => for_loop lo c (fun j B => set B i j (h B i j)) B) A in
  same r c A B /\
  forall x y, x < r -> y < c -> get B x y = if (lo <= x) && (lo <= y) then v x y else get A x y.
Proof.
move=> w hv; case: (leqP lo r) => hr; last first.
  rewrite /= for_loop_nil ?(ltnW hr) //; split=> // x y hx _.
  by rewrite leqNgt (ltn_trans hx hr).
pose P k B := same r c A B /\ forall x y,
  get B x y = if [&& lo <= x < k, lo <= y & y < c] then v x y else get A x y.
suff [s hB] : P r (for_loop lo r (fun i B => for_loop lo c (fun j B => set B i j (h B i j)) B) A).
  by split=> // x y hx hy; rewrite hB hx hy !andbT.
apply: (@for_loop_ind _ P) => //.
  by split=> // x y; case: leqP; rewrite ?andbF //; case: ltnP.
move=> k B /andP [hk1 hk2] [sB hB].
case: (leqP lo c) => hc; last first.
  rewrite for_loop_nil ?(ltnW hc) //; split=> // x y; rewrite hB.
  case: (leqP lo y) => hy; rewrite ?andbF //.
  have -> : (y < c) = false by rewrite ltnNge (ltnW (leq_trans hc hy)).
  by rewrite !andbF.
pose Q m D := same r c A D /\ forall x y,
  get D x y = if [&& lo <= x < k, lo <= y & y < c] || [&& x == k, lo <= y & y < m] then v x y else get A x y.
have [sD hD] : Q c (for_loop lo c (fun j B => set B k j (h B k j)) B).
  apply: (@for_loop_ind _ Q) => //.
    split=> // x y; rewrite hB; case: [&& lo <= x < k, _ & _] => //=.
    by case: (leqP lo y); rewrite ?andbF //; case: ltnP; rewrite ?andbF.
  move=> m D /andP [hm1 hm2] [sD hD]; have [wD _ _] := sD; split.
    by apply: same_trans sD (same_set _ wD hk2 hm2).
  move=> x y; rewrite get_set hD; case: (x =P k) => [->|] /=; last first.
    by move=> _; case: [&& lo <= x < k, _ & _].
  rewrite ltnn !andbF /= ltnS [y <= m]leq_eqVlt; case: (y =P m) => [->|] //=.
  rewrite hm1 /=; apply: hv; rewrite ?hk1 ?hm1 // => x' y' hxy; rewrite hD.
  case: ifP => // /orP [] /and3P [].
    move=> /andP [a1 a2] a3 a4; move: hxy; rewrite !ltnNge a1 a3 /= => /andP [/eqP e _].
    by rewrite e ltnn in a2.
  move=> /eqP e a3 a4; move: hxy; rewrite e !ltnNge hk1 a3 /= => /andP [_ /eqP e'].
  by rewrite e' ltnn in a4.
split=> // x y; rewrite hD ltnS [x <= k]leq_eqVlt; case: (x =P k) => [->|] /=.
  by rewrite ltnn andbF /= hk1.
by rewrite orbF.
Qed.

Local Open Scope ring_scope.

(** Chio's condensation *)
Section Chio.
Variable F : fieldType.
Lemma chio m (g : nat -> nat -> F) : g 0%N 0%N != 0 ->
  detf m (fun i j => g i.+1 j.+1 * g 0%N 0%N - g i.+1 0%N * g 0%N j.+1) * g 0%N 0%N =
  g 0%N 0%N ^+ m * detf m.+1 g.
Proof.
set a := g 0%N 0%N => a0.
pose B : 'M[F]_m := \matrix_(i, j) g i.+1 j.+1.
pose u : 'M[F]_(1, m) := \matrix_(i, j) g 0%N j.+1.
pose v : 'M[F]_(m, 1) := \matrix_(i, j) g i.+1 0%N.
pose S := B - a^-1 *: (v *m u).
have -> : detf m (fun i j => g i.+1 j.+1 * a - g i.+1 0%N * g 0%N j.+1) = a ^+ m * \det S.
  rewrite -detZ; congr (\det _); apply/matrixP => i j; rewrite !mxE big_ord1 !mxE mulrBr.
  by rewrite mulrA mulfV // mul1r mulrC.
have -> : detf m.+1 g = a * \det S; last by rewrite -mulrA [\det S * a]mulrC.
have e : mxf (1 + m) (1 + m) g = (block_mx 1%:M 0 (a^-1 *: v) 1%:M : 'M_(1 + m)) *m (block_mx a%:M u 0 S : 'M_(1 + m)).
  rewrite mulmx_block !mul0mx !mulmx0 !mul1mx !addr0 -!scalemxAl mul_mx_scalar scalerA mulVf // scale1r.
  rewrite addrC subrK; apply/matrixP => i j; rewrite mxE.
  case: (@split_ordP 1 m i) => i' ->; case: (@split_ordP 1 m j) => j' ->;
    rewrite ?block_mxEul ?block_mxEur ?block_mxEdl ?block_mxEdr !mxE ?ord1 ?eqxx ?mulr1n //=.
rewrite -/(detf (1 + m) g) /detf e det_mulmx.
by rewrite (@det_lblock F 1 m) (@det_ublock F 1 m) !det1 !mul1r det_scalar1.
Qed.
End Chio.

Section Bareiss.
Variable F : fieldType.
Implicit Types A : mat F.

(** the elimination without pivoting, on functions *)
Section Elim.
Variable f : nat -> nat -> F.
(* the matrix before step k, and the divisor of step k *)
Fixpoint GP (k : nat) : (nat -> nat -> F) * F :=
  match k with
  | 0%N => (f, 1)
  | k'.+1 => let (g, p) := GP k' in
      (fun i j => (g i j * g k' k' - g i k' * g k' j) / p, g k' k')
  end.
Definition G k := (GP k).1.
Definition P k := (GP k).2.
Lemma GS k i j : G k.+1 i j = (G k i j * G k k k - G k i k * G k k j) / P k.
Proof. by rewrite /G /P /=; case: (GP k). Qed.
Lemma PS k : P k.+1 = G k k k.
Proof. by rewrite /G /P /=; case: (GP k). Qed.

(* leading principal minors *)
Definition lead j := detf j f.

Lemma block_det k m : (forall j, (j < k)%N -> P j.+1 != 0) ->
  detf m.+1 (fun i j => G k (k + i) (k + j)) = P k ^+ m * lead (k + m.+1).
Proof.
elim: k m => [|k IH] m h; first by rewrite expr1n mul1r.
have p0 : P k != 0.
  by case: k h {IH} => [|k] h; rewrite ?oner_eq0 //; apply: h; rewrite ltnS leqnSn.
have IHm := IH m.+1 (fun j hj => h j (ltnW hj)).
have a0 : P k.+1 != 0 by apply: h.
pose g i j := G k (k + i) (k + j).
have := chio m.+1 (g := g); rewrite /g !addn0 -PS => /(_ a0); rewrite IHm.
have -> : detf m.+1 (fun i j => G k (k + i.+1) (k + j.+1) * P k.+1 - G k (k + i.+1) k * G k k (k + j.+1))
  = P k ^+ m.+1 * detf m.+1 (fun i j => G k.+1 (k.+1 + i) (k.+1 + j)).
  rewrite /detf -detZ; congr (\det _); apply/matrixP => i j; rewrite !mxE GS -!addSnnS -PS.
  by rewrite mulrCA mulfV // mulr1.
move=> e; apply: (mulfI (expf_neq0 m.+1 p0)); apply: (mulIf a0); rewrite e addSnnS [P k.+1 ^+ m.+1]exprS.
move: (P k ^+ m.+1) (P k.+1) (P k.+1 ^+ m) (lead _) => x y z l; ring.
Qed.

Lemma G_lead k : (forall j, (j < k)%N -> P j.+1 != 0) -> G k k k = lead k.+1.
Proof. by move=> h; have := block_det 0 h; rewrite detf1 !addn0 expr0 mul1r addn1. Qed.

Lemma P_lead k : (forall j, (0 < j < k)%N -> lead j != 0) -> P k = lead k /\ forall j, (0 < j < k)%N -> P j != 0.
Proof.
elim: k => [|k IH] h; first by rewrite /lead detf0; split=> // j; rewrite ltn0 andbF.
have [|e hp] := IH; first by move=> j /andP [j0 hj]; apply: h; rewrite j0 leqW.
have hp' j : (0 < j < k.+1)%N -> P j != 0.
  rewrite ltnS => /andP [j0]; rewrite leq_eqVlt => /orP [/eqP ej|hj]; last by apply: hp; rewrite j0.
  by rewrite ej e h // -ej j0 /= ej.
split=> //; rewrite PS G_lead // => j hj; exact: hp'.
Qed.

(* the last element is the determinant *)
Lemma final_det n : (forall j, (0 < j <= n)%N -> lead j != 0) -> G n.+1 n.+1 n.+1 = lead n.+2.
Proof.
move=> h; have [] := @P_lead n.+1 => [j /andP [a b]|]; first by apply: h; rewrite a.
move=> eP hP; have hp j : (j < n)%N -> P j.+1 != 0 by move=> hj; apply: hP.
have := block_det 1 hp; rewrite detf2 !addn0 expr1 addn2 addn1 => e.
rewrite GS [X in X / _](_ : _ = G n n n * G n n.+1 n.+1 - G n n n.+1 * G n n.+1 n); last by rewrite mulrC [X in _ - X]mulrC.
have p0 : P n != 0.
  by case: n h hP hp {eP e} => [|n] h hP hp; rewrite ?oner_eq0 //; apply: hp; rewrite ltnS.
by rewrite e mulrC mulrA mulVf // mul1r.
Qed.
End Elim.

Lemma eliminateP n k d A : wf n n A -> (k < n)%N ->
  same n n A (bareiss_eliminate n k d A) /\
  forall x y, (x < n)%N -> (y < n)%N -> get (bareiss_eliminate n k d A) x y =
    if (k < x)%N && (k < y)%N then (get A x y * get A k k - get A x k * get A k y) / d else get A x y.
Proof.
move=> w hk; apply: (@updateP _ n n k.+1 A
  (fun A i j => (get A i j * get A k k - get A i k * get A k j) / d)) => // B i j _ _ h.
by rewrite !h ?eqxx ?ltnSn ?orbT.
Qed.

(* rows k-1.. and columns k.. have rank at most one *)
Definition rank1 n k A := exists s p, forall i j, (k.-1 <= i < n)%N -> (k <= j < n)%N -> get A i j = s i * p j.

Lemma searchP n k A d b : wf n n A -> (0 < k < n)%N -> rank1 n k A ->
  wf n n (bareiss_search n k (A, d, b)).1.1 /\ rank1 n k (bareiss_search n k (A, d, b)).1.1.
Proof.
move=> w /andP [k0 hk] h; pose I (st : mat F * F * bool) := wf n n st.1.1 /\ rank1 n k st.1.1.
apply: (@for_loop_inv _ I) => // i [[B m] f] /andP [hi1 hi2] [wB [s [p hB]]]; rewrite /=.
case: ifP => // [_|_]; last by split=> //; exists s, p.
case: ifP => // [_|_]; last by split=> //; exists s, p.
rewrite /I /=.
have hk1 : (k.-1 < n)%N by rewrite (leq_ltn_trans (leq_pred k)).
have [[w1 e1 j1] h1] := set_rowP wB hk1 (size_get_row wB hi2).
have [[w2 e2 j2] h2] := set_rowP w1 hi2 (size_get_row wB hk1).
split=> //; exists (fun x => if x == i then s k.-1 else if x == k.-1 then s i else s x), p.
move=> x y hx hy; have hy2 : (y < n)%N by case/andP: hy.
rewrite h2 h1; case: (x =P i) => [ex|_].
  by rewrite (nth_get_row _ wB) // hB // leqnn.
case: (x =P k.-1) => [ex|_]; last exact: hB.
by rewrite (nth_get_row _ wB) // hB // hi2 (leq_trans (leq_pred k)).
Qed.

Lemma rank1_loop n k m A b : wf n n A -> (0 < k)%N -> n = (k + m).+1 -> (0 < m)%N ->
  rank1 n k A -> bareiss_loop n (iota k m) A b = 0.
Proof.
elim: m k A b => // m IH k A b w k0 en' _ h.
have hn : (k + m.+1 < n)%N by rewrite en'.
have hk : (k < n)%N by rewrite (leq_ltn_trans _ hn) // leq_addr.
rewrite /=; set d := if _ then _ else _; case es: (bareiss_search n k (A, d, b)) => [[A1 d1] b1].
case: ifP => // d0.
have := @searchP n k A d b w; rewrite es k0 hk /= => /(_ isT h) [w1 [s [p h1]]].
have [[w2 _ _] h2] := eliminateP d1 w1 hk.
have z : forall x y, (k < x < n)%N -> (k < y < n)%N -> get (bareiss_eliminate n k d1 A1) x y = 0.
  move=> x y /andP [a1 a2] /andP [b1' b2]; rewrite h2 // a1 b1' /=.
  have lek z : (k <= z)%N -> (k.-1 <= z)%N by apply: leq_trans (leq_pred k).
  rewrite !h1 ?a2 ?b2 ?hk ?lek ?leqnn //; try by rewrite ?(ltnW a1) ?(ltnW b1') ?lek ?(ltnW a1).
  rewrite [X in X / _](_ : _ = 0) ?mul0r //.
  by move: (s x) (p y) (s k) (p k) => q1 q2 q3 q4; ring.
case: m IH en' hn => [|m] IH en' hn.
  rewrite /= z ?oppr0; first by case: (b1).
    by rewrite en' addn1 /= !ltnSn.
  by rewrite en' addn1 /= !ltnSn.
apply: IH => //; first by rewrite addSnnS.
exists (fun x => (x == k)%:R), (get (bareiss_eliminate n k d1 A1) k) => x y hx hy /=.
rewrite /= in hx; case: eqP => [->|/eqP ne]; first by rewrite mul1r.
by rewrite mul0r; apply: z => //; case/andP: hx => a ->; rewrite ltn_neqAle eq_sym ne a.
Qed.

(* without zero pivots the loop computes G *)
Lemma bareiss_run n k m A b f : wf n n A -> n = (k + m).+1 ->
  (forall i j, (k <= i < n)%N -> (k <= j < n)%N -> get A i j = G f k i j) ->
  ((0 < k)%N -> get A k.-1 k.-1 = P f k) ->
  (forall j, (k <= j < k + m)%N -> P f j != 0) ->
  bareiss_loop n (iota k m) A b = if b then - G f (k + m) (k + m) (k + m) else G f (k + m) (k + m) (k + m).
Proof.
elim: m k A => [|m IH] k A w en hg hp hP.
  by rewrite /= en addn0 /= hg // en addn0 leqnn ltnSn.
have hk : (k < n)%N by rewrite en ltnS leq_addr.
rewrite /=; have -> : (if k == 0%N then 1 else get A k.-1 k.-1) = P f k.
  by case: k hp {IH en hg hP hk} => // k hp; rewrite hp.
have p0 : P f k != 0 by apply: hP; rewrite leqnn -[X in (X < _)%N]addn0 ltn_add2l.
have -> : bareiss_search n k (A, P f k, b) = (A, P f k, b).
  by apply: (@for_loop_inv _ (fun st => st = (A, P f k, b))) => // i st _ ->; rewrite (negbTE p0).
rewrite (negbTE p0); have [[w1 _ _] h1] := eliminateP (P f k) w hk.
rewrite -addSnnS; apply: IH => //; first by rewrite addSnnS.
- move=> i j /andP [a1 a2] /andP [b1 b2]; rewrite h1 // a1 b1 /= GS.
  by rewrite !hg // ?leqnn ?(ltnW a1) ?(ltnW b1).
- move=> _; rewrite h1 //= ltnn /= PS hg // leqnn //.
- by move=> j /andP [a1 a2]; apply: hP; rewrite (ltnW a1) -addSnnS.
Qed.

(* with a zero leading minor of order k <= n - 2 the loop returns 0 *)
Lemma bareiss_zero n k0 k m A b f : wf n n A -> n = (k + m).+1 -> (k <= k0)%N -> (0 < k0 < n.-1)%N ->
  (forall i j, (k <= i < n)%N -> (k <= j < n)%N -> get A i j = G f k i j) ->
  ((0 < k)%N -> get A k.-1 k.-1 = P f k) ->
  (forall j, (0 < j < k0)%N -> P f j != 0) -> P f k0 = 0 ->
  (k < k0)%N ->
  bareiss_loop n (iota k m) A b = 0.
Proof.
elim: m k A => [|m IH] k A w en _ hk0 hg hp hP hz hlt.
  by case/andP: hk0 => _ h; rewrite en addn0 /= in h; rewrite ltnNge ltnW in hlt.
have hk : (k < n)%N by rewrite en ltnS leq_addr.
rewrite /=; have -> : (if k == 0%N then 1 else get A k.-1 k.-1) = P f k.
  by case: k hp {IH en hg hlt hk} => // k hp; rewrite hp.
have p0 : P f k != 0.
  by case: k hlt {IH en hg hk hp} => [|k] hlt; rewrite ?oner_eq0 // hP.
have -> : bareiss_search n k (A, P f k, b) = (A, P f k, b).
  by apply: (@for_loop_inv _ (fun st => st = (A, P f k, b))) => // i st _ ->; rewrite (negbTE p0).
rewrite (negbTE p0); have [[w1 _ _] h1] := eliminateP (P f k) w hk.
have hg1 i j : (k < i < n)%N -> (k < j < n)%N -> get (bareiss_eliminate n k (P f k) A) i j = G f k.+1 i j.
  move=> /andP [a1 a2] /andP [b1 b2]; rewrite h1 // a1 b1 /= GS.
  by rewrite !hg // ?leqnn ?(ltnW a1) ?(ltnW b1).
have hp1 : get (bareiss_eliminate n k (P f k) A) k k = P f k.+1.
  by rewrite h1 //= ltnn /= PS hg // leqnn.
move: hlt; rewrite leq_eqVlt => /orP [/eqP e|hlt]; last first.
  by apply: IH => //; rewrite ?addSnnS // ltnW.
case/andP: hk0 => _ hk0; rewrite -e en /= -addSnnS -[X in (X < _)%N]addn0 ltn_add2l in hk0.
apply: rank1_loop => //; first by rewrite addSnnS.
have z : get A k k = 0 by rewrite hg ?leqnn // -PS e.
exists (fun i => if i == k then 1 else - get A i k / P f k), (fun j => get A k j).
move=> i j /= /andP [a1 a2] /andP [b1 b2]; rewrite h1 // b1 andbT.
case: eqP => [->|/eqP ne]; first by rewrite ltnn mul1r.
have -> : (k < i)%N by rewrite ltn_neqAle eq_sym ne a1.
by rewrite z mulr0 sub0r !mulNr mulrAC.
Qed.

Theorem bareissE n A : wf n.+1 n.+1 A ->
  bareiss n.+1 A =
    if [forall j : 'I_n, (j == 0%N :> nat) || (lead (get A) j != 0)] then \det (mxof n.+1 n.+1 A) else 0.
Proof.
move=> w; have eD : \det (mxof n.+1 n.+1 A) = lead (get A) n.+1 by [].
rewrite eD /bareiss /=; case: forallP => [h|h].
  have hl j : (0 < j < n)%N -> lead (get A) j != 0.
    by move=> /andP [j0 hj]; have := h (Ordinal hj); rewrite /= eqn0Ngt j0.
  have [eP hP] := P_lead hl.
  rewrite (@bareiss_run _ 0 n A false (get A)) //; last first.
    by case=> [|j] /= hj; rewrite ?oner_eq0 // hP.
  rewrite add0n; case: n w hl {eD h eP hP} => [|n] w hl; first by rewrite /lead detf1.
  by rewrite final_det // => j /andP [a b]; apply: hl; rewrite a.
have ex : exists j, [&& (0 < j)%N, (j < n)%N & lead (get A) j == 0].
  case: (boolP [exists j : 'I_n, (0 < j)%N && (lead (get A) j == 0)]) => [/existsP [j /andP [a b]]|hn].
    by exists j; rewrite a b ltn_ord.
  case: h => j; move: hn; rewrite negb_exists => /forallP /(_ j); rewrite negb_and lt0n negbK.
  by case/orP => ->; rewrite ?orbT.
case: (ex_minnP ex) => k0 /and3P [k1 k2 /eqP k3] kmin.
have hl j : (0 < j < k0)%N -> lead (get A) j != 0.
  move=> /andP [a b]; apply/negP => z; have := kmin j; rewrite a (ltn_trans b k2) z => /(_ isT).
  by rewrite leqNgt b.
have [eP hP] := P_lead hl.
by apply: (@bareiss_zero _ k0 0 n A false (get A)) => //; rewrite ?eP // k1.
Qed.
End Bareiss.
