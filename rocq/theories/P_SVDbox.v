(* Enclosures of the scalar products of the columns through the rotations of the one-sided Jacobi iteration. *)
From Coq Require Import ZArith Lia.
From mathcomp Require Import all_ssreflect all_algebra.
From mathcomp Require Import ring.
From Verif Require Import Spec M_Vec P_Vec M_Mat P_Mat P_Mat2 M_LU P_Tri P_LU P_LU2 M_QR P_QR M_SVD P_SVD2 P_SVD P_SVDres P_SVDone P_SVDstop P_SVDthree P_Box.
Set Implicit Arguments. Unset Strict Implicit. Unset Printing Implicit Defensive.
Import Order.Theory GRing.Theory Num.Theory.
Local Open Scope ring_scope.
Delimit Scope Z_scope with BZ.

(* enclosures of cosine and sine, for the diagonal difference D with a known sign *)
Definition cs_iv (S : Z) (g D : iv) : option (iv * iv) :=
  let g2 := iadd g g in
  let w2 := iadd (imul S D D) (imul S g2 g2) in
  let dw := iadd D (isqrt S w2) in
  if (0 <=? w2.1)%BZ && (0 <? dw.1)%BZ then
    let t := idiv S g2 dw in
    let u2 := iadd (S, S) (imul S t t) in
    let u := isqrt S u2 in
    if (0 <=? u2.1)%BZ && (0 <? u.1)%BZ then
      let c := idiv S (S, S) u in Some (c, imul S t c)
    else None
  else None.
Definition rot_iv (S : Z) (g D : iv) : option (iv * iv) :=
  if (0 <? D.1)%BZ then cs_iv S g D else if (D.2 <? 0)%BZ then cs_iv S (iopp g) (iopp D) else None.

Definition gget (G : seq (seq iv)) i j : iv := nth (0%BZ, 0%BZ) (nth [::] G i) j.
Definition step_box (S : Z) (n p q : nat) (b : seq (seq iv) * iv) : option (seq (seq iv) * iv) :=
  let: (G, e) := b in
  let g := gget G p q in
  if rot_iv S g (iadd (gget G p p) (iopp (gget G q q))) is Some (c, s) then
    let cc := imul S c c in let ss := imul S s s in let cs := imul S (imul S c s) g in
    let G' := mkseq (fun i => mkseq (fun j =>
      if i == p then
        if j == p then iadd (iadd (imul S cc (gget G p p)) (iadd cs cs)) (imul S ss (gget G q q))
        else if j == q then (0%BZ, 0%BZ) else iadd (imul S c (gget G p j)) (imul S s (gget G q j))
      else if i == q then
        if j == q then iadd (iadd (imul S cc (gget G q q)) (iopp (iadd cs cs))) (imul S ss (gget G p p))
        else if j == p then (0%BZ, 0%BZ) else iadd (imul S c (gget G q j)) (iopp (imul S s (gget G p j)))
      else if j == p then iadd (imul S c (gget G p i)) (imul S s (gget G q i))
      else if j == q then iadd (imul S c (gget G q i)) (iopp (imul S s (gget G p i)))
      else gget G i j) n) n in
    Some (G', imax e (iabs g))
  else None.
Definition sweep_box (S : Z) (n : nat) (G : seq (seq iv)) : option (seq (seq iv) * iv) :=
  pairs_loop n (step_box S n) (G, (0%BZ, 0%BZ)).

Section Box.
Variable R : rcfType.
Variable S : Z.
Hypothesis S_pos : (0 < S)%BZ.
Implicit Types (A U V X : mat R).
Notation inI := (@inI R S).

Lemma in0 : inI 0 (0%BZ, 0%BZ). Proof. by split; rewrite /= mul0r. Qed.
Lemma in1 : inI 1 (S, S). Proof. by split; rewrite /= mul1r. Qed.

Lemma cs_ivP (g d c s : R) gi di ci si : inI g gi -> inI d di -> 0 < d ->
  c ^+ 2 + s ^+ 2 = 1 -> 0 < c -> `|s| <= c -> g * (c ^+ 2 - s ^+ 2) = d * (c * s) ->
  cs_iv S gi di = Some (ci, si) -> inI c ci /\ inI s si.
Proof.
move=> hg hd d0 u c0 sc ho; rewrite /cs_iv.
set g2 := iadd gi gi; set w2 := iadd (imul _ _ _) _; set dw := iadd di _.
case: ifP => // /andP [/Z.leb_le h1 /Z.ltb_lt h2].
set ti := idiv _ _ _; set u2 := iadd _ (imul _ ti ti); set ui := isqrt _ _.
case: ifP => // /andP [/Z.leb_le h3 /Z.ltb_lt h4] [<- <-].
have cn : c != 0 by rewrite gt_eqF.
pose t := s / c; pose w := 2%:R * g * t + d.
have st : s = t * c by rewrite /t divfK.
have ht : g * (1 - t ^+ 2) = d * t.
  have c2 : c ^+ 2 != 0 by rewrite sqrf_eq0.
  by apply: (mulIf c2); rewrite st in ho; transitivity (g * (c ^+ 2 - (t * c) ^+ 2)); [ring|rewrite ho; ring].
have t1 : t ^+ 2 <= 1.
  rewrite /t expr_div_n ler_pdivr_mulr ?exprn_gt0 // mul1r -[s ^+ 2]real_normK ?num_real //.
  by rewrite ler_expn2r ?nnegrE ?normr_ge0 // ltW.
have gt0 : 0 <= g * t.
  rewrite -(pmulr_lge0 _ d0); have -> : g * t * d = g ^+ 2 * (1 - t ^+ 2) by transitivity (g * (d * t)); [ring|rewrite -ht; ring].
  by rewrite mulr_ge0 ?sqr_ge0 // subr_ge0.
have w0 : 0 <= w by rewrite /w -mulrA; apply: addr_ge0; [apply: mulr_ge0; rewrite ?ler0n|apply: ltW].
have hg2 : inI (g + g) g2 by apply: iaddP.
have hw2 : inI (w * w) w2.
  have -> : w * w = d * d + (g + g) * (g + g).
    have h : g * t * d = g ^+ 2 * (1 - t ^+ 2) by transitivity (g * (d * t)); [ring|rewrite -ht; ring].
    by transitivity (4%:R * g ^+ 2 * t ^+ 2 + 4%:R * (g * t * d) + d * d); [rewrite /w; ring|rewrite h; ring].
  by apply: iaddP; apply: imulP.
have hdw : inI (d + w) dw by apply: iaddP => //; apply: isqrtP.
have hti : inI t ti.
  apply: (idivP S_pos h2 _ hdw); have -> : t * (d + w) = g + g.
    by transitivity (2%:R * (d * t) + 2%:R * g * t ^+ 2); [rewrite /w; ring|rewrite -ht; ring].
  exact: hg2.
have hu : inI c^-1 ui.
  apply: isqrtP => //; first by rewrite invr_ge0 ltW.
  have -> : c^-1 * c^-1 = 1 + t * t.
    by rewrite -!expr2 /t expr_div_n -[1](@divff _ (c ^+ 2)) ?sqrf_eq0 // -mulrDl u mul1r exprVn.
  by apply: iaddP; [exact: in1|exact: imulP].
have hc : inI c (idiv S (S, S) ui).
  by apply: (idivP S_pos h4 _ hu); rewrite divff //; exact: in1.
by split=> //; rewrite st; apply: imulP.
Qed.

Lemma rot_ivP (gp g gq c s : R) gi di ci si : inI g gi -> inI (gp - gq) di ->
  c ^+ 2 + s ^+ 2 = 1 -> 0 < c -> `|s| <= c -> offd gp g gq c s = 0 ->
  rot_iv S gi di = Some (ci, si) -> inI c ci /\ inI s si.
Proof.
move=> hg hd u c0 sc ho; rewrite /rot_iv.
have ho' : g * (c ^+ 2 - s ^+ 2) = (gp - gq) * (c * s).
  by apply/eqP; rewrite -subr_eq0 -ho /offd; apply/eqP; ring.
case: Z.ltb_spec => h1.
  have d0 : 0 < gp - gq.
    case: hd => hd _; rewrite -(pmulr_lgt0 _ (S0 R S_pos)); apply: lt_le_trans hd.
    by rewrite -[0](zr0 R); apply: zr_lt.
  exact: cs_ivP hg hd d0 u c0 sc ho'.
case: Z.ltb_spec => // h2.
have d0 : 0 < - (gp - gq).
  case: hd => _ hd; rewrite oppr_gt0 -(pmulr_llt0 _ (S0 R S_pos)); apply: le_lt_trans hd _.
  by rewrite -[0](zr0 R); apply: zr_lt.
by apply: (cs_ivP (ioppP hg) (ioppP hd) d0 u c0 sc); rewrite !mulNr ho'.
Qed.

Variables (sg : nat -> nat -> nat -> bool * bool) (rows n : nat) (M0 : 'M[R]_(rows, n)).
Definition boxed (st : mat R * mat R) (G : seq (seq iv)) : Prop :=
  inv1 M0 st /\ forall i j, (i < n)%N -> (j < n)%N -> inI (gram rows st.1 i j) (gget G i j).
Definition boxed2 (st : mat R * mat R * R) (b : seq (seq iv) * iv) : Prop :=
  [/\ boxed st.1 b.1, 0 <= st.2 & inI st.2 b.2].

Lemma step_boxP k p q st b b' : (p < q < n)%N -> boxed2 st b -> step_box S n p q b = Some b' ->
  exists2 st', one_sided_step sg rows n k p q st = Some st' & boxed2 st' b'.
Proof.
case: st => [[X V] e]; case: b => G ei pq [[/= hi hb] e0 he]; rewrite /step_box.
have /andP [lpq qn] := pq; have pn := ltn_trans lpq qn.
have npq : (q == p) = false := gtn_eqF lpq. have npq' : (p == q) = false := ltn_eqF lpq.
have [X' [V' [c [s [est hi' [u c0 sc _ _] [g0 ho gp gq] hr]]]]] := gram_step sg k pq hi e0.
have hd : inI (gram rows X p p - gram rows X q q) (iadd (gget G p p) (iopp (gget G q q))).
  by apply: iaddP; [exact: hb|apply: ioppP; exact: hb].
case er: rot_iv => [[ci si]|] // [<-]; have [hc hs] := rot_ivP (hb p q pn qn) hd u c0 sc ho er.
eexists; first exact: est.
have hcc : inI (c ^+ 2) (imul S ci ci) by rewrite expr2; apply: imulP.
have hss : inI (s ^+ 2) (imul S si si) by rewrite expr2; apply: imulP.
have hcs : inI (2%:R * c * s * gram rows X p q) (iadd (imul S (imul S ci si) (gget G p q)) (imul S (imul S ci si) (gget G p q))).
  have -> : 2%:R * c * s * gram rows X p q = c * s * gram rows X p q + c * s * gram rows X p q by ring.
  by apply: iaddP; apply: imulP => //; try (exact: imulP); exact: hb.
split=> //=; first last.
- by apply: imaxP => //; apply: iabsP => //; exact: hb.
- exact: std_max_ge0.
split=> //= i j hin hjn; rewrite /gget nth_mkseq // nth_mkseq // -![nth _ (nth _ _ _) _]/(gget _ _ _).
case: (i =P p) => [->|/eqP ip].
  case: (j =P p) => [->|/eqP jp].
    by rewrite gp; apply: iaddP; [apply: iaddP => //; apply: imulP => //; exact: hb|apply: imulP => //; exact: hb].
  case: (j =P q) => [->|/eqP jq]; first by rewrite g0; exact: in0.
  have [-> _ _] := hr j jp jq; by apply: iaddP; apply: imulP => //; exact: hb.
case: (i =P q) => [->|/eqP iq].
  case: (j =P q) => [->|/eqP jq].
    by rewrite gq; apply: iaddP; [apply: iaddP; [apply: imulP => //; exact: hb|exact: ioppP]|apply: imulP => //; exact: hb].
  case: (j =P p) => [->|/eqP jp]; first by rewrite gramC g0; exact: in0.
  have [_ -> _] := hr j jp jq; by apply: iaddP; [|apply: ioppP]; apply: imulP => //; exact: hb.
have [h1 h2 h3] := hr i ip iq.
case: (j =P p) => [->|/eqP jp]; first by rewrite gramC h1; apply: iaddP; apply: imulP => //; exact: hb.
case: (j =P q) => [->|/eqP jq]; first by rewrite gramC h2; apply: iaddP; [|apply: ioppP]; apply: imulP => //; exact: hb.
by rewrite h3 //; exact: hb.
Qed.

Lemma for_opt_sim (S1 S2 : Type) (Rel : S1 -> S2 -> Prop) idx (f1 : nat -> S1 -> option S1) (f2 : nat -> S2 -> option S2) s1 s2 s2' :
  (forall i s1 s2 s2', i \in idx -> Rel s1 s2 -> f2 i s2 = Some s2' -> exists2 s1', f1 i s1 = Some s1' & Rel s1' s2') ->
  Rel s1 s2 -> for_opt idx f2 s2 = Some s2' -> exists2 s1', for_opt idx f1 s1 = Some s1' & Rel s1' s2'.
Proof.
elim: idx s1 s2 => [|i idx IH] s1 s2 h hr /=; first by case=> <-; exists s1.
case e: (f2 i s2) => [t2|] // e2; have [t1 -> ht] := h i _ _ _ (mem_head _ _) hr e.
by apply: (IH t1 t2) => // j a b b' hj; apply: h; rewrite inE hj orbT.
Qed.

Lemma sweep_boxP k st G b' : boxed st G -> sweep_box S n G = Some b' ->
  exists2 st', one_sided_sweep sg rows n k st = Some st' & boxed2 st' b'.
Proof.
move=> hb; rewrite /sweep_box /one_sided_sweep /pairs_loop; apply: for_opt_sim; last by split=> //=; exact: in0.
move=> p s1 s2 s2'; rewrite mem_iota /= => pn hr; apply: for_opt_sim hr.
by move=> q t1 t2 t2'; rewrite mem_iota subnKC // => pq; apply: step_boxP.
Qed.
End Box.
