(* The Jacobi iterations may stop too early: one run of the two-sided iteration, followed step by step. *)
From mathcomp Require Import all_ssreflect all_algebra.
From mathcomp Require Import ring.
From Verif Require Import Spec M_Vec P_Vec M_Mat P_Mat P_Mat2 M_LU P_Tri P_LU P_LU2 M_QR P_QR M_SVD P_SVD2 P_SVD P_SVDres P_SVDone.
Set Implicit Arguments. Unset Strict Implicit. Unset Printing Implicit Defensive.
Import Order.Theory GRing.Theory Num.Theory.
Local Open Scope ring_scope.

Section Stop.
Variable R : rcfType.
Implicit Types (U V X : mat R).
Variables (sg : nat -> nat -> nat -> bool * bool) (n : nat) (tol : R).

(* one active rotation in coordinates; [r] is any other index *)
Lemma active_step k p q U X V e : (p < q < n)%N -> wf n n U -> wf n n X -> wf n n V ->
  tol < std_max `|get X p q| `|get X q p| ->
  exists U' X' V', exists c s t c' s' s1 s2 : R,
  [/\ two_sided_step sg n tol k p q (U, X, V, e) =
        Some (U', X', V', std_max e (std_max `|get X p q| `|get X q p|)) /\ [/\ wf n n U', wf n n X' & wf n n V'],
      [/\ c ^+ 2 + s ^+ 2 = 1, c' ^+ 2 + s' ^+ 2 = 1, t ^+ 2 = 1, 0 <= s1 & 0 <= s2] /\ 0 < c' /\ `|s'| <= c',
      [/\ c * s1 = get X p p * c' - get X p q * s', - (s * t * s2) = get X p p * s' + get X p q * c',
          s * s1 = get X q p * c' - get X q q * s' & c * t * s2 = get X q p * s' + get X q q * c'],
      [/\ get X' p p = s1, get X' q q = s2, get X' p q = 0 & get X' q p = 0] &
      (forall r, (r < n)%N -> r != p -> r != q ->
      [/\ get X' p r = get X p r * c + get X q r * s, get X' q r = t * (get X q r * c - get X p r * s),
          get X' r p = get X r p * c' - get X r q * s', get X' r q = get X r q * c' + get X r p * s' &
          get X' r r = get X r r])].
Proof.
move=> pq wU wX wV ht.
have [U' [X' [V' [e' [es hr]]]]] := two_sided_stepP sg tol k e pq wU wX wV.
case: hr => [[_ l1 l2]|[d [ed ww hr _ ee]]].
  by move: ht; rewrite /std_max ltNge; case: ifP => _; rewrite ?l1 ?l2.
have [d' ed' [[cs1 cs2 dt2 s1 s2] [a1 a2 a3 a4] cpos sle]] := svd2x2P (sg k p q).1 (sg k p q).2 (get X p p) (get X p q) (get X q p) (get X q q).
have e1 : d' = d by move: ed'; rewrite ed => -[].
rewrite e1 in cs1 cs2 dt2 s1 s2 a1 a2 a3 a4 cpos sle; clear d' ed' e1.
have /andP [lpq qn] := pq; have pn := ltn_trans lpq qn.
have npq : (q == p) = false := gtn_eqF lpq.
have npq' : (p == q) = false := ltn_eqF lpq.
have b1 : cu d * s11 d = get X p p * cv d - get X p q * sv d.
  rewrite a1 a2; transitivity ((cv d ^+ 2 + sv d ^+ 2) * (cu d * s11 d)); [by rewrite cs2 mul1r|ring].
have b2 : - (su d * dt d * s22 d) = get X p p * sv d + get X p q * cv d.
  rewrite a1 a2; transitivity (- (cv d ^+ 2 + sv d ^+ 2) * (su d * dt d * s22 d)); [by rewrite cs2 mulN1r|ring].
have b3 : su d * s11 d = get X q p * cv d - get X q q * sv d.
  rewrite a3 a4; transitivity ((cv d ^+ 2 + sv d ^+ 2) * (su d * s11 d)); [by rewrite cs2 mul1r|ring].
have b4 : cu d * dt d * s22 d = get X q p * sv d + get X q q * cv d.
  rewrite a3 a4; transitivity ((cv d ^+ 2 + sv d ^+ 2) * (cu d * dt d * s22 d)); [by rewrite cs2 mul1r|ring].
have [x1 x2 x3 x4 _] := rotated_off pq ed hr.
have [_ _ [Y eY eX]] := hr.
exists U', X', V', (cu d), (su d), (dt d), (cv d), (sv d), (s11 d), (s22 d).
split=> //; first by rewrite -ee.
- split=> //.
  + rewrite eX // eqxx !eY // eqxx.
    transitivity (cu d * (get X p p * cv d - get X p q * sv d) + su d * (get X q p * cv d - get X q q * sv d)); first by ring.
    by rewrite -b1 -b3; transitivity ((cu d ^+ 2 + su d ^+ 2) * s11 d); [ring|rewrite cs1 mul1r].
  + rewrite eX // npq eqxx !eY // npq eqxx.
    transitivity (dt d * (cu d * (get X q p * sv d + get X q q * cv d) - su d * (get X p p * sv d + get X p q * cv d))); first by ring.
    by rewrite -b4 -b2; transitivity ((cu d ^+ 2 + su d ^+ 2) * dt d ^+ 2 * s22 d); [ring|rewrite cs1 dt2 !mul1r].
- move=> r rn /negPf rp /negPf rq; split.
  + by rewrite eX // rp rq eY // eqxx.
  + by rewrite eX // rp rq eY // npq eqxx.
  + by rewrite eX // eqxx !eY // rp rq.
  + by rewrite eX // npq eqxx !eY // rp rq.
  + by rewrite eX // rp rq eY // rp rq.
Qed.
End Stop.

Section Scalar.
Variable R : rcfType.
Implicit Types (a b c s t : R).

Lemma one_pos c : c ^+ 2 = 1 -> 0 <= c -> c = 1.
Proof. by move=> /eqP; rewrite sqrf_eq1 => /orP [/eqP //|/eqP ->]; rewrite oppr_ge0 ler10. Qed.
Lemma sq1_neq0 c : c ^+ 2 = 1 -> c != 0.
Proof. by move=> h; rewrite -sqrf_eq0 h oner_eq0. Qed.

(* [0 b; 0 0] *)
Lemma sub1 b c s t c' s' s1 s2 : 0 < b -> c ^+ 2 + s ^+ 2 = 1 -> c' ^+ 2 + s' ^+ 2 = 1 -> t ^+ 2 = 1 ->
  0 <= s1 -> 0 <= s2 -> 0 < c' ->
  c * s1 = 0 * c' - b * s' -> - (s * t * s2) = 0 * s' + b * c' -> s * s1 = 0 * c' - 0 * s' -> c * t * s2 = 0 * s' + 0 * c' ->
  [/\ c = 0, t * s = -1, c' = 1, s' = 0 & s1 = 0 /\ s2 = b].
Proof.
move=> b0 cs cs' t1 p1 p2 c'0; rewrite !mul0r !add0r oppr0 => e1 e2 e3 e4.
have bc : b * c' != 0 by rewrite mulf_neq0 ?gt_eqF.
have sn : s != 0 by apply: contraNneq bc => z; rewrite -e2 z !mul0r oppr0.
have s2n : s2 != 0 by apply: contraNneq bc => z; rewrite -e2 z mulr0 oppr0.
have z1 : s1 = 0 by move/eqP: e3; rewrite mulf_eq0 (negPf sn) => /eqP.
have zs' : s' = 0.
  by move/eqP: e1; rewrite z1 mulr0 eq_sym oppr_eq0 mulf_eq0 gt_eqF //= => /eqP.
have zc : c = 0.
  by move/eqP: e4; rewrite !mulf_eq0 (negPf s2n) (negPf (sq1_neq0 t1)) !orbF => /eqP.
have c1 : c' = 1 by apply: one_pos (ltW c'0); move: cs'; rewrite zs' expr0n addr0.
have s1' : s ^+ 2 = 1 by move: cs; rewrite zc expr0n add0r.
rewrite c1 mulr1 in e2.
have p : - (t * s) = 1.
  apply: one_pos; first by rewrite sqrrN exprMn t1 s1' mulr1.
  rewrite -(pmulr_lge0 _ (_ : 0 < s2)); last by rewrite lt_def s2n.
  by rewrite mulNr [t * s]mulrC e2 ltW.
split=> //; first by rewrite -[t * s]opprK p.
by split=> //; rewrite -e2 [s * t]mulrC -mulNr p mul1r.
Qed.

(* [0 0; -b 0] *)
Lemma sub2 b c s t c' s' s1 s2 : 0 < b -> c ^+ 2 + s ^+ 2 = 1 -> c' ^+ 2 + s' ^+ 2 = 1 -> t ^+ 2 = 1 ->
  0 <= s1 -> 0 <= s2 -> 0 < c' ->
  c * s1 = 0 * c' - 0 * s' -> - (s * t * s2) = 0 * s' + 0 * c' -> s * s1 = - b * c' - 0 * s' -> c * t * s2 = - b * s' + 0 * c' ->
  [/\ c = 0, s = -1, c' = 1, s' = 0 & s1 = b /\ s2 = 0].
Proof.
move=> b0 cs cs' t1 p1 p2 c'0; rewrite !mul0r !subr0 !addr0 => e1 e2 e3 e4.
have bc : - b * c' != 0 by rewrite mulf_neq0 ?oppr_eq0 ?gt_eqF.
have sn : s != 0 by apply: contraNneq bc => z; rewrite -e3 z mul0r.
have s1n : s1 != 0 by apply: contraNneq bc => z; rewrite -e3 z mulr0.
have zc : c = 0 by move/eqP: e1; rewrite mulf_eq0 (negPf s1n) orbF => /eqP.
have zs2 : s2 = 0.
  by move/eqP: e2; rewrite oppr_eq0 !mulf_eq0 (negPf sn) (negPf (sq1_neq0 t1)) => /eqP.
have zs' : s' = 0.
  by move/eqP: e4; rewrite zs2 mulr0 eq_sym mulf_eq0 oppr_eq0 gt_eqF //= => /eqP.
have c1 : c' = 1 by apply: one_pos (ltW c'0); move: cs'; rewrite zs' expr0n addr0.
have s1' : s ^+ 2 = 1 by move: cs; rewrite zc expr0n add0r.
rewrite c1 mulr1 in e3.
have p : - s = 1.
  apply: one_pos; first by rewrite sqrrN.
  rewrite -(pmulr_lge0 _ (_ : 0 < s1)); last by rewrite lt_def s1n.
  by rewrite mulNr e3 opprK ltW.
have sE : s = -1 by rewrite -[s]opprK p.
by split=> //; split=> //; apply: oppr_inj; rewrite -e3 sE mulN1r.
Qed.

(* [4b 3b; 0 0] *)
Lemma sub3 b c s t c' s' s1 s2 : 0 < b -> c ^+ 2 + s ^+ 2 = 1 -> c' ^+ 2 + s' ^+ 2 = 1 -> t ^+ 2 = 1 ->
  0 <= s1 -> 0 <= s2 -> 0 < c' -> `|s'| <= c' ->
  c * s1 = 4%:R * b * c' - 3%:R * b * s' -> - (s * t * s2) = 4%:R * b * s' + 3%:R * b * c' ->
  s * s1 = 0 * c' - 0 * s' -> c * t * s2 = 0 * s' + 0 * c' ->
  [/\ c = 1, s = 0, 5%:R * c' = 4%:R, 5%:R * s' = - 3%:R & s1 = 5%:R * b /\ s2 = 0].
Proof.
move=> b0 cs cs' t1 p1 p2 c'0 mn; rewrite !mul0r subr0 addr0 => e1 e2 e3 e4.
have pos : 0 < 4%:R * b * c' - 3%:R * b * s'.
  have -> : 4%:R * b * c' - 3%:R * b * s' = b * (c' + 3%:R * (c' - s')) by ring.
  apply: mulr_gt0 => //; apply: ltr_paddr => //; apply: mulr_ge0; rewrite ?ler0n // subr_ge0.
  by apply: le_trans mn; apply: ler_norm.
have cn : c != 0 by apply: contraTneq pos => z; rewrite -e1 z mul0r ltxx.
have s1n : s1 != 0 by apply: contraTneq pos => z; rewrite -e1 z mulr0 ltxx.
have zs : s = 0 by move/eqP: e3; rewrite mulf_eq0 (negPf s1n) orbF => /eqP.
have zs2 : s2 = 0.
  by move/eqP: e4; rewrite !mulf_eq0 (negPf cn) (negPf (sq1_neq0 t1)) => /eqP.
have h : 4%:R * s' + 3%:R * c' = 0.
  apply: (mulfI (negbT (gt_eqF b0))); rewrite mulr0 -[RHS](_ : - (s * t * s2) = 0); last by rewrite zs !mul0r oppr0.
  by rewrite e2; ring.
have c1 : c = 1.
  apply: one_pos; first by move: cs; rewrite zs expr0n addr0.
  by rewrite -(pmulr_lge0 _ (_ : 0 < s1)) ?e1 ?(ltW pos) // lt_def s1n.
have c5 : 5%:R * c' = 4%:R.
  apply/eqP; rewrite -(eqr_expn2 (_ : 0 < 2)%N) ?mulr_ge0 ?ler0n ?(ltW c'0) //; apply/eqP.
  transitivity (16%:R * (c' ^+ 2 + s' ^+ 2) + (3%:R * c' - 4%:R * s') * (4%:R * s' + 3%:R * c')); first by ring.
  by rewrite h cs' mulr0 addr0 mulr1; ring.
have s5 : 5%:R * s' = - 3%:R.
  apply: (mulfI (_ : 4%:R != 0 :> R)); first by rewrite pnatr_eq0.
  transitivity (5%:R * (4%:R * s' + 3%:R * c') - 3%:R * (5%:R * c')); first by ring.
  by rewrite h c5; ring.
split=> //; split=> //.
apply: (mulfI (_ : 5%:R != 0 :> R)); first by rewrite pnatr_eq0.
transitivity (5%:R * (c * s1)); first by rewrite c1 mul1r.
rewrite e1; transitivity (4%:R * b * (5%:R * c') - 3%:R * b * (5%:R * s')); first by ring.
by rewrite c5 s5; ring.
Qed.

(* [5b -8b; 0 5b] *)
Lemma sub4 b c s t c' s' s1 s2 : 0 < b -> c ^+ 2 + s ^+ 2 = 1 -> c' ^+ 2 + s' ^+ 2 = 1 -> t ^+ 2 = 1 ->
  c * s1 = 5%:R * b * c' - - (8%:R * b) * s' -> - (s * t * s2) = 5%:R * b * s' + - (8%:R * b) * c' ->
  s * s1 = 0 * c' - 5%:R * b * s' -> c * t * s2 = 0 * s' + 5%:R * b * c' ->
  [/\ 3%:R <= 20%:R * s ^+ 2, 3%:R <= 20%:R * c ^+ 2, 5%:R * b ^+ 2 <= s1 ^+ 2 & s1 ^+ 2 <= 114%:R * b ^+ 2].
Proof.
move=> b0 cs cs' t1 e1 e2 e3 e4.
have b2 : 0 < b ^+ 2 by rewrite exprn_gt0.
have f1 : c * s * (s1 ^+ 2 - s2 ^+ 2) = - 40%:R * b ^+ 2.
  transitivity (c * s1 * (s * s1) + - (s * t * s2) * (c * t * s2)).
    by transitivity (c * s * (s1 ^+ 2 - t ^+ 2 * s2 ^+ 2)); [rewrite t1 mul1r|ring].
  rewrite e1 e2 e3 e4; transitivity (- 40%:R * b ^+ 2 * (c' ^+ 2 + s' ^+ 2)); [ring|by rewrite cs' mulr1].
have f2 : c ^+ 2 * s1 ^+ 2 + s ^+ 2 * s2 ^+ 2 = 89%:R * b ^+ 2.
  transitivity ((c * s1) ^+ 2 + (- (s * t * s2)) ^+ 2).
    by transitivity (c ^+ 2 * s1 ^+ 2 + s ^+ 2 * s2 ^+ 2 * t ^+ 2); [rewrite t1 mulr1|ring].
  rewrite e1 e2; transitivity (89%:R * b ^+ 2 * (c' ^+ 2 + s' ^+ 2)); [ring|by rewrite cs' mulr1].
have f3 : s ^+ 2 * s1 ^+ 2 + c ^+ 2 * s2 ^+ 2 = 25%:R * b ^+ 2.
  transitivity ((s * s1) ^+ 2 + (c * t * s2) ^+ 2).
    by transitivity (s ^+ 2 * s1 ^+ 2 + c ^+ 2 * s2 ^+ 2 * t ^+ 2); [rewrite t1 mulr1|ring].
  rewrite e3 e4; transitivity (25%:R * b ^+ 2 * (c' ^+ 2 + s' ^+ 2)); [ring|by rewrite cs' mulr1].
have f4 : s1 ^+ 2 * s2 ^+ 2 = 625%:R * b ^+ 2 * b ^+ 2.
  transitivity ((c * s1 * (c * t * s2) - - (s * t * s2) * (s * s1)) ^+ 2).
    transitivity ((c ^+ 2 + s ^+ 2) ^+ 2 * t ^+ 2 * (s1 ^+ 2 * s2 ^+ 2)); last by ring.
    by rewrite cs t1 expr1n !mul1r.
  rewrite e1 e2 e3 e4; transitivity ((25%:R * b ^+ 2 * (c' ^+ 2 + s' ^+ 2)) ^+ 2); [ring|rewrite cs' mulr1; ring].
have f5 : s1 ^+ 2 + s2 ^+ 2 = 114%:R * b ^+ 2.
  transitivity ((c ^+ 2 + s ^+ 2) * (s1 ^+ 2 + s2 ^+ 2)); first by rewrite cs mul1r.
  transitivity ((c ^+ 2 * s1 ^+ 2 + s ^+ 2 * s2 ^+ 2) + (s ^+ 2 * s1 ^+ 2 + c ^+ 2 * s2 ^+ 2)); [ring|rewrite f2 f3; ring].
have f6 : (s1 ^+ 2 - s2 ^+ 2) ^+ 2 = 10496%:R * b ^+ 2 * b ^+ 2.
  transitivity ((s1 ^+ 2 + s2 ^+ 2) ^+ 2 - 4%:R * (s1 ^+ 2 * s2 ^+ 2)); first by ring.
  by rewrite f5 f4; ring.
have f7 : 10496%:R * (c * s) ^+ 2 = 1600%:R.
  have n0 : b ^+ 2 * b ^+ 2 != 0 by rewrite mulf_neq0 // gt_eqF.
  apply: (mulfI n0); transitivity ((c * s * (s1 ^+ 2 - s2 ^+ 2)) ^+ 2); last by rewrite f1; ring.
  by rewrite [RHS]exprMn f6; ring.
have f8 : 3%:R <= 20%:R * (c * s) ^+ 2.
  rewrite -(ler_pmul2l (_ : 0 < 10496%:R)) ?ltr0n // mulrCA f7 -!natrM ler_nat.
  by apply: (@leq_trans 31488); rewrite // leqNgt.
split.
- apply: le_trans f8 _; rewrite ler_pmul2l ?ltr0n //.
  have -> : s ^+ 2 = (c * s) ^+ 2 + s ^+ 2 * s ^+ 2.
    by transitivity ((c ^+ 2 + s ^+ 2) * s ^+ 2); [rewrite cs mul1r|ring].
  by rewrite ler_addl mulr_ge0 ?sqr_ge0.
- apply: le_trans f8 _; rewrite ler_pmul2l ?ltr0n //.
  have -> : c ^+ 2 = (c * s) ^+ 2 + c ^+ 2 * c ^+ 2.
    by transitivity ((c ^+ 2 + s ^+ 2) * c ^+ 2); [rewrite cs mul1r|ring].
  by rewrite ler_addl mulr_ge0 ?sqr_ge0.
- rewrite -(ler_pmul2r (_ : 0 < 114%:R * b ^+ 2)); last by rewrite mulr_gt0 ?ltr0n.
  apply: (@le_trans _ _ (s1 ^+ 2 * s2 ^+ 2)); last by rewrite ler_wpmul2l ?sqr_ge0 // -f5 ler_addr sqr_ge0.
  rewrite f4; have -> : 5%:R * b ^+ 2 * (114%:R * b ^+ 2) = 570%:R * b ^+ 2 * b ^+ 2 by ring.
  by rewrite !ler_pmul2r // ler_nat.
- by rewrite -f5 ler_addl sqr_ge0.
Qed.

(* [a y; 0 0] *)
Lemma sub5 a y b c s t c' s' s1 s2 : 0 < b -> c' ^+ 2 + s' ^+ 2 = 1 ->
  c * s1 = a * c' - y * s' -> - (s * t * s2) = a * s' + y * c' ->
  s * s1 = 0 * c' - 0 * s' -> c * t * s2 = 0 * s' + 0 * c' ->
  5%:R * b ^+ 2 <= a ^+ 2 -> 5%:R * b ^+ 2 <= y ^+ 2 -> a ^+ 2 + y ^+ 2 <= 150%:R * b ^+ 2 -> 1 <= 30%:R * s' ^+ 2.
Proof.
move=> b0 cs' e1 e2; rewrite !mul0r subr0 addr0 => e3 e4 la ly lay.
have b2 : 0 < b ^+ 2 by rewrite exprn_gt0.
have fin : 5%:R * b ^+ 2 <= s' ^+ 2 * (a ^+ 2 + y ^+ 2) -> 1 <= 30%:R * s' ^+ 2.
  move=> h; rewrite -(ler_pmul2r (_ : 0 < 5%:R * b ^+ 2)) ?mulr_gt0 ?ltr0n // mul1r.
  apply: le_trans h _; have -> : 30%:R * s' ^+ 2 * (5%:R * b ^+ 2) = s' ^+ 2 * (150%:R * b ^+ 2) by ring.
  by rewrite ler_wpmul2l ?sqr_ge0.
have /eqP : (a * c' - y * s') * (a * s' + y * c') = 0.
  by rewrite -e1 -e2; transitivity (- (s * s1) * (c * t * s2)); [ring|rewrite e3 oppr0 mul0r].
rewrite mulf_eq0 => /orP [] /eqP h; apply: fin.
  apply: le_trans la _; rewrite le_eqVlt; apply/orP; left; apply/eqP.
  transitivity (a ^+ 2 * (c' ^+ 2 + s' ^+ 2) - (a * c' - y * s') * (a * c' + y * s')); first by rewrite h cs' mul0r subr0 mulr1.
  by ring.
apply: le_trans ly _; rewrite le_eqVlt; apply/orP; left; apply/eqP.
transitivity (y ^+ 2 * (c' ^+ 2 + s' ^+ 2) - (a * s' + y * c') * (y * c' - a * s')); first by rewrite h cs' mul0r subr0 mulr1.
by ring.
Qed.
End Scalar.

Section Run.
Variable R : rcfType.
Implicit Types (U V X : mat R).
Variables (sg : nat -> nat -> nat -> bool * bool) (tol b : R).
Hypotheses (b0 : 0 < b) (tolb : tol <= 2%:R * b).

Definition rows3 X (x00 x01 x02 x10 x11 x12 x20 x21 x22 : R) : Prop :=
  [/\ get X 0 0 = x00, get X 0 1 = x01 & get X 0 2 = x02] /\
  [/\ get X 1 0 = x10, get X 1 1 = x11 & get X 1 2 = x12] /\
  [/\ get X 2 0 = x20, get X 2 1 = x21 & get X 2 2 = x22].

Lemma max_l (x y : R) : `|x| = y -> 0 <= y -> std_max `|x| `|0 : R| = y.
Proof. by move=> -> y0; rewrite normr0 /std_max ltNge y0. Qed.
Lemma max_r (x y : R) : `|x| = y -> 0 <= y -> std_max `|0 : R| `|x| = y.
Proof. by move=> -> y0; rewrite normr0 /std_max; case: ltP => // h; apply: le_anti; rewrite y0 h. Qed.
Lemma nb (k : nat) : `|k%:R * b| = k%:R * b.
Proof. by rewrite ger0_norm // mulr_ge0 ?ler0n ?ltW. Qed.
Lemma pb (k : nat) : (0 < k)%N -> 0 < k%:R * b.
Proof. by move=> h; rewrite mulr_gt0 ?ltr0n. Qed.
Lemma nb0 (k : nat) : 0 <= k%:R * b.
Proof. by rewrite mulr_ge0 ?ler0n ?ltW. Qed.
Lemma tol_lt_nb (k : nat) : (2 < k)%N -> tol < k%:R * b.
Proof. by move=> h; apply: le_lt_trans tolb _; rewrite ltr_pmul2r // ltr_nat. Qed.
Lemma max_nb (k l : nat) : std_max (k%:R * b) (l%:R * b) = (maxn k l)%:R * b.
Proof. by rewrite /std_max ltr_pmul2r // ltr_nat maxnC /maxn; case: ltngtP => // ->. Qed.

Lemma first_sweep k U X V : wf 3 3 U -> wf 3 3 X -> wf 3 3 V ->
  rows3 X 0 (4%:R * b) (3%:R * b)  0 0 0  (- (5%:R * b)) (10%:R * b) 0 ->
  exists U' X' V', two_sided_sweep sg 3 tol k (U, X, V) = Some (U', X', V', 5%:R * b) /\
    [/\ wf 3 3 U', wf 3 3 X' & wf 3 3 V'] /\
    rows3 X' (5%:R * b) (- (8%:R * b)) (6%:R * b)  0 (5%:R * b) 0  0 0 0.
Proof.
move=> wU wX wV [[x00 x01 x02] [[x10 x11 x12] [x20 x21 x22]]].
rewrite /two_sided_sweep /pairs_loop; cbn [iota for_opt subn subn_rec Nat.sub].
have m1 : std_max `|get X 0 1| `|get X 1 0| = 4%:R * b by rewrite x01 x10; apply: max_l; rewrite ?nb ?nb0.
have a1 : tol < std_max `|get X 0 1| `|get X 1 0| by rewrite m1 tol_lt_nb.
have [U1 [X1 [V1 [c [s [t [c' [s' [s1 [s2 [[E [wU1 wX1 wV1]] [[q1 q2 q3 q4 q5] [q6 q7]] [e1 e2 e3 e4] [y1 y2 y3 y4] hr]]]]]]]]]]] :=
  active_step (n := 3) (p := 0%N) (q := 1%N) sg k 0 isT wU wX wV a1.
rewrite E m1 => {E}.
rewrite x00 x01 x10 x11 in e1 e2 e3 e4.
have [c0 ts c1 s0 [s10 s2E]] := sub1 (@pb 4 isT) q1 q2 q3 q4 q5 q6 e1 e2 e3 e4.
have [z1 z2 z3 z4 z5] := hr 2%N isT isT isT.
rewrite x02 x12 x20 x21 x22 c0 c1 s0 in z1 z2 z3 z4 z5.
have {}z1 : get X1 0 2 = 0 by rewrite z1; ring.
have {}z2 : get X1 1 2 = 3%:R * b.
  by rewrite z2; transitivity (- (t * s) * (3%:R * b)); [ring|rewrite ts opprK mul1r].
have {}z3 : get X1 2 0 = - (5%:R * b) by rewrite z3; ring.
have {}z4 : get X1 2 1 = 10%:R * b by rewrite z4; ring.
rewrite s10 in y1; rewrite s2E in y2.
clear a1 m1 x00 x01 x02 x10 x11 x12 x20 x21 x22 e1 e2 e3 e4 q1 q2 q3 q4 q5 q6 q7 hr c0 ts c1 s0 s10 s2E c s t c' s' s1 s2.
have m2 : std_max `|get X1 0 2| `|get X1 2 0| = 5%:R * b by rewrite z1 z3; apply: max_r; rewrite ?normrN ?nb ?nb0.
have a2 : tol < std_max `|get X1 0 2| `|get X1 2 0| by rewrite m2 tol_lt_nb.
have [U2 [X2 [V2 [c [s [t [c' [s' [s1 [s2 [[E [wU2 wX2 wV2]] [[q1 q2 q3 q4 q5] [q6 q7]] [e1 e2 e3 e4] [w1 w2 w3 w4] hr]]]]]]]]]]] :=
  active_step (n := 3) (p := 0%N) (q := 2%N) sg k (std_max 0 (4%:R * b)) isT wU1 wX1 wV1 a2.
rewrite E m2 => {E}.
rewrite y1 z1 z3 z5 in e1 e2 e3 e4.
have [c0 sE c1 s0 [s1E s2E]] := sub2 (@pb 5 isT) q1 q2 q3 q4 q5 q6 e1 e2 e3 e4.
have [v1 v2 v3 v4 v5] := hr 1%N isT isT isT.
rewrite y2 y3 y4 z2 z4 c0 sE c1 s0 in v1 v2 v3 v4 v5.
have {}v1 : get X2 0 1 = - (10%:R * b) by rewrite v1; ring.
have {}v2 : get X2 2 1 = 0 by rewrite v2; ring.
have {}v3 : get X2 1 0 = 0 by rewrite v3; ring.
have {}v4 : get X2 1 2 = 3%:R * b by rewrite v4; ring.
rewrite s1E in w1; rewrite s2E in w2.
clear a2 m2 y1 y2 y3 y4 z1 z2 z3 z4 z5 e1 e2 e3 e4 q1 q2 q3 q4 q5 q6 q7 hr c0 sE c1 s0 s1E s2E c s t c' s' s1 s2.
have m3 : std_max `|get X2 1 2| `|get X2 2 1| = 3%:R * b by rewrite v4 v2; apply: max_l; rewrite ?nb ?nb0.
have a3 : tol < std_max `|get X2 1 2| `|get X2 2 1| by rewrite m3 tol_lt_nb.
have [U3 [X3 [V3 [c [s [t [c' [s' [s1 [s2 [[E [wU3 wX3 wV3]] [[q1 q2 q3 q4 q5] [q6 q7]] [e1 e2 e3 e4] [g1 g2 g3 g4] hr]]]]]]]]]]] :=
  active_step (n := 3) (p := 1%N) (q := 2%N) sg k (std_max (std_max 0 (4%:R * b)) (5%:R * b)) isT wU2 wX2 wV2 a3.
rewrite E m3 => {E}.
rewrite v5 v4 v2 w2 in e1 e2 e3 e4.
have [cE s0 c5 s5 [s1E s2E]] := sub3 b0 q1 q2 q3 q4 q5 q6 q7 e1 e2 e3 e4.
have [h1 h2 h3 h4 h5] := hr 0%N isT isT isT.
rewrite v3 w4 v1 w3 w1 cE s0 in h1 h2 h3 h4 h5.
exists U3, X3, V3; split.
  have -> : std_max (0 : R) (4%:R * b) = 4%:R * b by rewrite /std_max pmulr_rgt0 ?ltr0n ?b0.
  by rewrite !max_nb.
split=> //; split; [split=> //|split; split=> //].
- by rewrite h3; transitivity (- (2%:R * (5%:R * c')) * b); [ring|rewrite c5; ring].
- by rewrite h4; transitivity (- (2%:R * (5%:R * s')) * b); [ring|rewrite s5; ring].
- by rewrite h1; ring.
- by rewrite g1.
- by rewrite h2; ring.
- by rewrite g2.
Qed.

Lemma std_max_ler (x y z : R) : z <= x -> z <= std_max x y.
Proof. by move=> h; apply: le_trans h _; case: (std_max_ge x y). Qed.

Lemma second_sweep k U X V : wf 3 3 U -> wf 3 3 X -> wf 3 3 V ->
  rows3 X (5%:R * b) (- (8%:R * b)) (6%:R * b)  0 (5%:R * b) 0  0 0 0 ->
  exists U' X' V' e, two_sided_sweep sg 3 tol k (U, X, V) = Some (U', X', V', e) /\
    [/\ wf 3 3 U', wf 3 3 X' & wf 3 3 V'] /\ 8%:R * b <= e /\
    9%:R * b ^+ 2 <= 50%:R * (get X' 1 0 ^+ 2 + get X' 2 0 ^+ 2).
Proof.
move=> wU wX wV [[x00 x01 x02] [[x10 x11 x12] [x20 x21 x22]]].
rewrite /two_sided_sweep /pairs_loop; cbn [iota for_opt subn subn_rec Nat.sub].
have m1 : std_max `|get X 0 1| `|get X 1 0| = 8%:R * b by rewrite x01 x10; apply: max_l; rewrite ?normrN ?nb ?nb0.
have a1 : tol < std_max `|get X 0 1| `|get X 1 0| by rewrite m1 tol_lt_nb.
have [U1 [X1 [V1 [c [s [t [c' [s' [s1 [s2 [[E [wU1 wX1 wV1]] [[q1 q2 q3 q4 q5] [q6 q7]] [e1 e2 e3 e4] [y1 y2 y3 y4] hr]]]]]]]]]]] :=
  active_step (n := 3) (p := 0%N) (q := 1%N) sg k 0 isT wU wX wV a1.
rewrite E m1 => {E}.
rewrite x00 x01 x10 x11 in e1 e2 e3 e4.
have [ls lc l1 u1] := sub4 b0 q1 q2 q3 e1 e2 e3 e4.
have [z1 z2 z3 z4 z5] := hr 2%N isT isT isT.
rewrite x02 x12 x20 x21 x22 in z1 z2 z3 z4 z5.
have {}z1 : get X1 0 2 = 6%:R * b * c by rewrite z1; ring.
have {}z2 : get X1 1 2 = - (t * s * (6%:R * b)) by rewrite z2; ring.
have {}z3 : get X1 2 0 = 0 by rewrite z3; ring.
have {}z4 : get X1 2 1 = 0 by rewrite z4; ring.
have b2 : 0 < b ^+ 2 by rewrite exprn_gt0.
have ly : 5%:R * b ^+ 2 <= (6%:R * b * c) ^+ 2.
  rewrite -(ler_pmul2l (_ : 0 < 20%:R)) ?ltr0n //.
  have -> : 20%:R * (6%:R * b * c) ^+ 2 = 36%:R * b ^+ 2 * (20%:R * c ^+ 2) by ring.
  apply: (@le_trans _ _ (36%:R * b ^+ 2 * 3%:R)); last by rewrite ler_pmul2l // mulr_gt0 ?ltr0n.
  have -> : 36%:R * b ^+ 2 * 3%:R = 108%:R * b ^+ 2 by ring.
  by rewrite mulrA -natrM ler_pmul2r // ler_nat.
have uy : s1 ^+ 2 + (6%:R * b * c) ^+ 2 <= 150%:R * b ^+ 2.
  have -> : 150%:R * b ^+ 2 = 114%:R * b ^+ 2 + 36%:R * b ^+ 2 by ring.
  apply: ler_add => //; have -> : (6%:R * b * c) ^+ 2 = 36%:R * b ^+ 2 * c ^+ 2 by ring.
  apply: ler_pimulr; first by apply: mulr_ge0; [exact: ler0n|exact: ltW].
  by rewrite -[X in _ <= X]q1 ler_addl sqr_ge0.
have sq1 : 3%:R <= 20%:R * (t * s) ^+ 2 by rewrite exprMn q3 mul1r.
have nm : `|6%:R * b * c| ^+ 2 = (6%:R * b * c) ^+ 2 by rewrite real_normK ?num_real.
have a2 : tol < std_max `|get X1 0 2| `|get X1 2 0|.
  rewrite z1 z3; have -> : std_max `|6%:R * b * c| `|0 : R| = `|6%:R * b * c| by apply: max_l; rewrite ?normr_ge0.
  apply: le_lt_trans tolb _.
  rewrite -(@ltr_pexpn2r _ 2) ?nnegrE ?nb0 ?normr_ge0 // nm.
  apply: lt_le_trans ly; rewrite exprMn -natrX ltr_pmul2r // ltr_nat.
  by [].
have [U2 [X2 [V2 [d [r [v [d' [r' [t1 [t2 [[E [wU2 wX2 wV2]] [[o1 o2 o3 o4 o5] [o6 o7]] [f1 f2 f3 f4] [w1 w2 w3 w4] hr2]]]]]]]]]]] :=
  active_step (n := 3) (p := 0%N) (q := 2%N) sg k (std_max 0 (8%:R * b)) isT wU1 wX1 wV1 a2.
rewrite E => {E}; set m2 := std_max (std_max 0 _) _.
rewrite y1 z1 z3 z5 in f1 f2 f3 f4.
have lr := sub5 b0 o2 f1 f2 f3 f4 l1 ly uy.
have [v1 v2 v3 v4 v5] := hr2 1%N isT isT isT.
rewrite y4 z2 in v3.
have big2 : 9%:R * b ^+ 2 <= 50%:R * (get X2 1 0 ^+ 2 + get X2 2 0 ^+ 2).
  have -> : get X2 1 0 ^+ 2 + get X2 2 0 ^+ 2 = 36%:R * b ^+ 2 * ((t * s) ^+ 2 * r' ^+ 2) by rewrite v3 w4; ring.
  have -> : 50%:R * (36%:R * b ^+ 2 * ((t * s) ^+ 2 * r' ^+ 2)) = (36%:R * (50%:R * ((t * s) ^+ 2 * r' ^+ 2))) * b ^+ 2 by ring.
  rewrite ler_pmul2r //.
  rewrite -(ler_pmul2l (_ : 0 < 600%:R)) ?ltr0n //.
  have -> : 600%:R * (36%:R * (50%:R * ((t * s) ^+ 2 * r' ^+ 2))) = 1800%:R * ((20%:R * (t * s) ^+ 2) * (30%:R * r' ^+ 2)) :> R by ring.
  have -> : 600%:R * 9%:R = 1800%:R * (3%:R * 1) :> R by rewrite mulr1 -!natrM.
  rewrite ler_pmul2l ?ltr0n //; apply: ler_pmul => //; rewrite ?ler0n ?ler01 //.
have m28 : 8%:R * b <= m2 by apply: std_max_ler; case: (std_max_ge 0 (8%:R * b)).
case: (ltP tol (std_max `|get X2 1 2| `|get X2 2 1|)) => a3; last first.
  exists U2, X2, V2, m2; rewrite /two_sided_step ltNge a3 /=; split=> //.
have [U3 [X3 [V3 [c3 [s3 [t3 [c3' [s3' [s31 [s32 [[E ww] [[q31 q32 q33 q34 q35] [q36 q37]] [e31 e32 e33 e34] [g1 g2 g3 g4] hr3]]]]]]]]]]] :=
  active_step (n := 3) (p := 1%N) (q := 2%N) sg k m2 isT wU2 wX2 wV2 a3.
do 4!eexists; rewrite E; split; first by reflexivity.
have [h1 h2 _ _ _] := hr3 0%N isT isT isT.
split=> //; split; first exact: std_max_ler.
apply: le_trans big2 _; rewrite h1 h2 le_eqVlt; apply/orP; left; apply/eqP; congr (_ * _).
move: (get X2 1 0) (get X2 2 0) => x y.
rewrite [RHS](_ : _ = (x * c3 + y * s3) ^+ 2 + t3 ^+ 2 * (y * c3 - x * s3) ^+ 2); last by ring.
by rewrite q33 mul1r; transitivity ((c3 ^+ 2 + s3 ^+ 2) * (x ^+ 2 + y ^+ 2)); [rewrite q31 mul1r|ring].
Qed.
End Run.

(* the last sweep of a loop that has ended *)
Lemma jacobi_last (R : rcfType) (S : Type) (P : S -> Prop) (sweep : nat -> S -> option (S * R)) fuel k prev err s st :
  P s -> (forall k s s' e, P s -> sweep k s = Some (s', e) -> P s') -> err < prev ->
  jacobi sweep fuel k prev err s = Done st ->
  exists k' s' e, [/\ P s', sweep k' s' = Some (st, e) & P st].
Proof.
move=> h0 h; elim: fuel k prev err s h0 => [|f IH] k prev err s h0 lt /=; rewrite lt //.
case e: (sweep k s) => [[s' e']|] // hj; have hs := h _ _ _ _ h0 e.
case: (ltP e' err) => hl; first exact: IH hj.
exists k, s, e'; split=> //; first by move: hj; case: (f) => [|f'] /=; rewrite ltNge hl /= => -[<-].
by move: hj; case: (f) => [|f'] /=; rewrite ltNge hl /= => -[<-].
Qed.

Section Quiet1.
Variable R : rcfType.
Implicit Types (U V X : mat R).
Variables (sg : nat -> nat -> nat -> bool * bool) (rows cols : nat) (M0 : 'M[R]_(rows, cols)).
Notation inv1 := (inv1 M0).

Definition sw1inv (st0 : mat R * mat R) p q (s : mat R * mat R * R) : Prop :=
  inv1 s.1 /\ ((s.2 = 0 /\ s.1 = st0 /\ forall p' q', (p' < q' < cols)%N -> (p' < p)%N || ((p' == p) && (q' < q)%N) ->
     gram rows st0.1 p' q' = 0) \/ 0 < s.2).

Lemma one_sided_quiet k st : inv1 st ->
  exists st' e, one_sided_sweep sg rows cols k st = Some (st', e) /\ inv1 st' /\
  ((e = 0 /\ st' = st /\ forall p q, (p < cols)%N -> (q < cols)%N -> p != q -> gram rows st.1 p q = 0) \/ 0 < e).
Proof.
move=> hst; rewrite /one_sided_sweep /pairs_loop.
have [||h1 h2] := @for_opt_ind0 _ (fun p => sw1inv st p p.+1) False cols
  (fun p s => for_opt (iota p.+1 (cols - p.+1)) (one_sided_step sg rows cols k p) s) (st, 0).
- split=> //; left; split=> //; split=> // p' q' /andP [h _] /=.
  by rewrite ltnS leqn0 => /andP [/eqP h' /eqP h'']; rewrite h' h'' in h.
- move=> p s hp hs.
  have hb : forall q s0, (p.+1 <= q < p.+1 + (cols - p.+1))%N -> sw1inv st p q s0 ->
      if one_sided_step sg rows cols k p q s0 is Some s' then sw1inv st p q.+1 s' else False.
    move=> q [[X V] e]; rewrite subnKC // => /andP [pq qn] [hi hc].
    have pqn : (p < q < cols)%N by rewrite pq.
    have [X' [V' [e' [-> [hi' [_ hr]]]]]] := one_sided_stepP sg k e pqn hi.
    split=> //; case: hr => [[[-> -> ->] g0]|[gn ee]]; last first.
      right; rewrite /= ee; have g0 : 0 < `|gram rows X p q| by rewrite normr_gt0.
      by case: (std_max_ge e `|gram rows X p q|) => _; apply: lt_le_trans.
    case: hc => [[/= e0 [es sb]]|hc]; [left|by right].
    split=> //; split=> // p' q' pq' /orP [lp|/andP [/eqP ep]]; first by apply: sb; rewrite ?lp.
    rewrite ltnS leq_eqVlt => /orP [/eqP eq|lq]; first by rewrite ep eq -es.
    by apply: sb; rewrite // ep eqxx lq orbT.
  have := @for_opt_ind _ (fun q => sw1inv st p q) False p.+1 (cols - p.+1) (one_sided_step sg rows cols k p) s hs hb.
  rewrite subnKC //.
  case: for_opt => // s' [hi hc]; split=> //; case: hc => [[e0 [es sb]]|hc]; [left|by right].
  split=> //; split=> // p' q' pq' /orP [|/andP [/eqP ep]].
    by rewrite ltnS leq_eqVlt => h; apply: sb => //; case/andP: pq' => _ ->; rewrite andbT orbC.
  by rewrite ltnS -ep => h; case/andP: pq' => h' _; move: (leq_trans h' h); rewrite ltnn.
- case e: (for_opt _ _ _) h1 h2 => [[st' e']|] h1 h2; last by case: h2.
  exists st', e'; split=> //; have [hi hc] := h1 _ erefl; split=> //.
  case: hc => [[/= e0 [es sb]]|hc]; [left|by right].
  have gs p q : gram rows st.1 p q = gram rows st.1 q p by apply: eq_bigr => l _; rewrite mulrC.
  split=> //; split=> // p q pn qn; rewrite neq_ltn => /orP [lt|lt].
    by apply: sb; rewrite ?lt ?pn ?qn.
  by rewrite gs; apply: sb; rewrite ?lt ?pn ?qn.
Qed.
End Quiet1.
