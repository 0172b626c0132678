(* The closed-form SVD of a 2x2 matrix. *)
From mathcomp Require Import all_ssreflect all_algebra.
From mathcomp Require Import ring.
From Verif Require Import Spec M_Vec P_Vec M_Mat P_Mat P_Mat2 M_LU P_Tri P_LU P_LU2 M_QR P_QR M_SVD.
Set Implicit Arguments. Unset Strict Implicit. Unset Printing Implicit Defensive.
Import Order.Theory GRing.Theory Num.Theory.
Local Open Scope ring_scope.

Section SVD2.
Variable R : rcfType.
Implicit Types (a b c s z x y u d : R).

Lemma sdivE x y : y != 0 -> sdiv x y = Some (x / y).
Proof. by rewrite /sdiv => /negPf ->. Qed.

Lemma sum2_gt0 x y : (x != 0) || (y != 0) -> 0 < x ^+ 2 + y ^+ 2.
Proof.
move=> h; rewrite lt_def addr_ge0 ?sqr_ge0 // andbT paddr_eq0 ?sqr_ge0 // !sqrf_eq0.
by case/orP: h => /negPf ->; rewrite ?andbF.
Qed.

Lemma copysign_sq neg0 x y : copysign neg0 x y ^+ 2 = x ^+ 2.
Proof. by rewrite /copysign; case: ifP => _; rewrite ?sqrrN -normrX ger0_norm ?sqr_ge0. Qed.
Lemma copysign1 neg0 y : copysign neg0 1 y * copysign neg0 1 y = 1.
Proof. by rewrite -expr2 copysign_sq expr1n. Qed.
Lemma copysign1_mul neg0 y : `|y| * copysign neg0 1 y = y.
Proof.
rewrite /copysign normr1; case: ifP => [/orP [y0|/andP [/eqP -> _]]|/negbT].
- by rewrite ltr0_norm // mulrN1 opprK.
- by rewrite normr0 mul0r.
by rewrite negb_or -leNgt => /andP [y0 _]; rewrite ger0_norm // mulr1.
Qed.
(* z + copysign(d, z) does not cancel *)
Lemma copysign_add neg0 d z : 0 < d -> z + copysign neg0 d z != 0.
Proof.
move=> d0; rewrite /copysign (gtr0_norm d0); case: ifP => [/orP [z0|/andP [/eqP -> _]]|/negbT].
- by rewrite ltr0_neq0 // subr_lt0; apply: lt_trans d0.
- by rewrite add0r oppr_eq0 lt0r_neq0.
by rewrite negb_or -leNgt => /andP [z0 _]; rewrite lt0r_neq0 // ltr_spaddr.
Qed.

(* a unit vector along (x, y) *)
Lemma unit2 x y : (x != 0) || (y != 0) ->
  Num.sqrt (x ^+ 2 + y ^+ 2) != 0 /\
  (x / Num.sqrt (x ^+ 2 + y ^+ 2)) ^+ 2 + (y / Num.sqrt (x ^+ 2 + y ^+ 2)) ^+ 2 = 1.
Proof.
move=> /sum2_gt0 h; have n0 : Num.sqrt (x ^+ 2 + y ^+ 2) != 0 by rewrite sqrtr_eq0 -ltNge.
split=> //; rewrite !exprMn !exprVn -mulrDl sqr_sqrtr ?(ltW h) // divff //.
by rewrite lt0r_neq0.
Qed.

Lemma minimize_rotationP c s : c ^+ 2 + s ^+ 2 = 1 ->
  exists c' s', minimize_rotation c s = Some (c', s') /\
  [/\ c' ^+ 2 + s' ^+ 2 = 1, 0 < c', `|s'| <= c' &
      exists2 q : R, q ^+ 2 = 1 & (c', s') = (q * c, q * s) \/ (c', s') = (- (q * s), q * c)].
Proof.
move=> h; have sq x : x != 0 -> (x / `|x|) ^+ 2 = 1.
  by move=> x0; rewrite exprMn exprVn -normrX ger0_norm ?sqr_ge0 // divff // sqrf_eq0.
have ab x : x != 0 -> x / `|x| * x = `|x|.
  by move=> x0; rewrite mulrAC -expr2 -[x ^+ 2]ger0_norm ?sqr_ge0 // normrX expr2 mulfK // normr_eq0.
have no x : x != 0 -> `|x / `|x| | = 1 by move=> x0; rewrite normrM normfV normr_id divff // normr_eq0.
rewrite /minimize_rotation; case: ltP => hc.
  have s0 : s != 0 by rewrite -normr_gt0; apply: le_lt_trans hc.
  have s0' : - s != 0 by rewrite oppr_eq0.
  rewrite sdivE ?normr_eq0 //= -[`|s|]normrN; do 2!eexists; split; first by reflexivity.
  rewrite ab //; split.
  - by rewrite exprMn sq // mul1r normrN -normrX ger0_norm ?sqr_ge0 // addrC.
  - by rewrite normr_gt0.
  - by rewrite normrM no // mul1r normrN ltW.
  - exists (- s / `|- s|); first exact: sq.
    by right; congr pair; rewrite -mulrN ab.
have c0 : c != 0.
  apply/eqP => z; move: hc h; rewrite z normr0 normr_le0 => /eqP ->.
  by rewrite expr0n /= addr0 => /eqP; rewrite eq_sym oner_eq0.
rewrite sdivE ?normr_eq0 //=; do 2!eexists; split; first by reflexivity.
rewrite ab //; split.
- by rewrite exprMn sq // mul1r -normrX ger0_norm ?sqr_ge0.
- by rewrite normr_gt0.
- by rewrite normrM no // mul1r.
- by exists (c / `|c|); rewrite ?sq //; left; rewrite ab.
Qed.

(* the off-diagonal element of V^T M V, M = [a b; b c'], V = [c -s; s c] *)
Definition offd a b a' c s := b * (c ^+ 2 - s ^+ 2) + (a' - a) * (c * s).

Lemma offd_min a b a' c s c' s' q : q ^+ 2 = 1 ->
  (c', s') = (q * c, q * s) \/ (c', s') = (- (q * s), q * c) ->
  offd a b a' c s = 0 -> offd a b a' c' s' = 0.
Proof.
move=> hq [] [-> ->] h; rewrite /offd.
  by transitivity (q ^+ 2 * offd a b a' c s); [rewrite /offd; ring|rewrite h mulr0].
by transitivity (- (q ^+ 2 * offd a b a' c s)); [rewrite /offd; ring|rewrite h mulr0 oppr0].
Qed.

Lemma diagonalize_hermitianP neg0 a b a' :
  exists c s, diagonalize_hermitian neg0 a b a' = Some (c, s) /\ c ^+ 2 + s ^+ 2 = 1 /\ offd a b a' c s = 0.
Proof.
rewrite /diagonalize_hermitian; case: eqP => [->|/eqP b0].
  by exists 1, 0; split=> //; rewrite /offd expr1n expr0n /= addr0 mul0r mulr0 mulr0 addr0.
set z := a' - a; set d := Num.sqrt _; set L := _ * (z + _).
have pos : 0 < z ^+ 2 + (2%:R * b) ^+ 2 by apply: sum2_gt0; rewrite mulf_neq0 ?orbT // pnatr_eq0.
have d0 : 0 < d by rewrite sqrtr_gt0.
have d2 : copysign neg0 d z ^+ 2 = z ^+ 2 + 4%:R * b ^+ 2.
  by rewrite copysign_sq sqr_sqrtr ?(ltW pos) //; ring.
have L0 : L != 0 by rewrite mulf_neq0 ?invr_eq0 ?pnatr_eq0 // copysign_add.
rewrite sdivE //=.
have [|n0 n1] := @unit2 (b / L) 1; first by rewrite oner_eq0 orbT.
rewrite !sdivE //=; do 2!eexists; split; first by reflexivity.
split; first exact: n1.
have eL : L ^+ 2 = z * L + b ^+ 2.
  have := d2; rewrite /L; move: (copysign _ _ _) => e he.
  transitivity (4%:R^-1 * (z ^+ 2 + 2%:R * z * e + e ^+ 2)); first by field.
  by rewrite he; field.
rewrite /offd -/z; move: (Num.sqrt _) n0 {n1} => n n0.
transitivity ((b ^+ 2 + z * L - L ^+ 2) * (b / (L * n) ^+ 2)); first by field; rewrite n0 L0.
by rewrite eL [z * L + _]addrC subrr mul0r.
Qed.

Lemma diagonalize_triangularP neg0 r11 r12 r22 :
  exists c s, diagonalize_triangular neg0 r11 r12 r22 = Some (c, s) /\ c ^+ 2 + s ^+ 2 = 1 /\
    offd (r11 ^+ 2) (r11 * r12) (r12 ^+ 2 + r22 ^+ 2) c s = 0.
Proof.
rewrite /diagonalize_triangular; set z := _ + r12 ^+ 2; set d := Num.sqrt _; set L := _ * (z + _).
case: (altP (r12 * r11 =P 0)) => b0.
  rewrite /sdiv b0 eqxx; exists 1, 0; split=> //; rewrite /offd expr1n expr0n /= addr0 [r11 * r12]mulrC b0.
  by rewrite mul0r mulr0 mulr0 addr0.
rewrite sdivE //.
have pos : 0 < z ^+ 2 + (2%:R * (r12 * r11)) ^+ 2 by apply: sum2_gt0; rewrite [2%:R * _ == 0]mulf_eq0 negb_or b0 pnatr_eq0 orbT.
have ed : 4%:R * r11 ^+ 2 * r12 ^+ 2 + z * z = z ^+ 2 + (2%:R * (r12 * r11)) ^+ 2 by ring.
have d0 : 0 < d by rewrite /d ed sqrtr_gt0.
have d2 : copysign neg0 d z ^+ 2 = z ^+ 2 + 4%:R * (r12 * r11) ^+ 2.
  by rewrite copysign_sq /d ed sqr_sqrtr ?(ltW pos) //; ring.
have [|n0 n1] := @unit2 1 (L / (r12 * r11)); first by rewrite oner_eq0.
rewrite !sdivE //=; do 2!eexists; split; first by reflexivity.
split; first exact: n1.
have eL : L ^+ 2 = z * L + (r12 * r11) ^+ 2.
  have := d2; rewrite /L; move: (copysign _ _ _) => e he.
  transitivity (4%:R^-1 * (z ^+ 2 + 2%:R * z * e + e ^+ 2)); first by field.
  by rewrite he; field.
have ez : r12 ^+ 2 + r22 ^+ 2 - r11 ^+ 2 = z by rewrite /z; ring.
rewrite /offd ez [r11 * r12]mulrC; move: (Num.sqrt (1 ^+ 2 + _)) n0 {n1} => n n0.
move: (r12 * r11) b0 eL => b b0 eL.
move: L eL => L; move: (z) => w eL.
transitivity ((b ^+ 2 + w * L - L ^+ 2) / (b * n ^+ 2)); first by field; rewrite n0 b0.
by rewrite eL [w * L + _]addrC subrr mul0r.
Qed.

Lemma rq2x2P a11 a12 a21 a22 :
  exists r11 r12 r22 c s, rq2x2 a11 a12 a21 a22 = Some (r11, r12, r22, c, s) /\ c ^+ 2 + s ^+ 2 = 1 /\
  [/\ a11 = r11 * c + r12 * s, a12 = r12 * c - r11 * s, a21 = r22 * s & a22 = r22 * c].
Proof.
rewrite /rq2x2; case: eqP => [->|/eqP a0].
  by exists a11, a12, a22, 1, 0; do !split=> //; rewrite ?expr1n ?expr0n ?mulr1 ?mulr0 ?addr0 ?subr0.
rewrite !normr_id; set m := std_max _ _.
have m0 : m != 0.
  rewrite /m /std_max; case: ltP => h; rewrite normr_eq0 //; apply/eqP => z.
  by move: h; rewrite z normr0 ltNge normr_ge0.
rewrite !sdivE //=.
have [|n0 n1] := @unit2 (a21 / m) (a22 / m); first by rewrite mulf_neq0 ?invr_eq0.
move: (Num.sqrt _) n0 n1 => n n0 n1; rewrite !sdivE //=.
have e : (if `|a22| < `|a21| then sdiv (a21 / m) (a21 / m / n) else sdiv (a22 / m) (a22 / m / n)) = Some n.
  have aux x : x != 0 -> sdiv (x / m) (x / m / n) = Some n.
    by move=> x0; rewrite sdivE ?mulf_neq0 ?invr_eq0 //; congr Some; field; rewrite m0 x0 n0.
  case: ltP => h; rewrite aux //; apply: contraNneq a0 => z; move: h; rewrite z normr0 normr_le0.
  by [].
rewrite e /=; do 5!eexists; split; first by reflexivity.
move: n1; set s := a21 / m / n; set c := a22 / m / n => n1; split; first by rewrite addrC.
have h1 : c ^+ 2 = 1 - s ^+ 2 by rewrite -n1 addrC addKr.
split.
- by transitivity (a11 * (s ^+ 2 + c ^+ 2)); [rewrite n1 mulr1|ring].
- by transitivity (a12 * (s ^+ 2 + c ^+ 2)); [rewrite n1 mulr1|ring].
- by rewrite /s; field; rewrite m0 n0.
- by rewrite /c; field; rewrite m0 n0.
Qed.

Lemma sqrt_scale t x y : Num.sqrt ((t * x) ^+ 2 + (t * y) ^+ 2) = `|t| * Num.sqrt (x ^+ 2 + y ^+ 2).
Proof. by rewrite !exprMn -mulrDr sqrtrM ?sqr_ge0 // sqrtr_sqr. Qed.

Lemma scaled_orthogonalP neg0 m0 m1 m2 m3 :
  m0 * m2 + m1 * m3 = 0 -> has (fun x => x != 0) [:: m0; m1; m2; m3] ->
  exists cu su sg s00 s11, scaled_orthogonal neg0 [:: m0; m1; m2; m3] = Some (cu, su, sg, s00, s11) /\
  [/\ cu ^+ 2 + su ^+ 2 = 1, sg ^+ 2 = 1, 0 <= s00 & 0 <= s11] /\
  [/\ m0 = cu * s00, m1 = su * s00, m2 = - (su * sg * s11) & m3 = cu * sg * s11].
Proof.
move=> ho hn; set mu := [:: m0; m1; m2; m3].
rewrite /scaled_orthogonal -/mu; set smu := [seq `|x| | x <- mu].
have [||hk hmax] := @max_elementP _ 0 smu => //; first by move=> [|[|[|[|i]]]]; rewrite /= ?normr_real ?nth_nil ?real0.
set k := max_element 0 smu in hk hmax *.
have sE i : nth 0 smu i = `|nth 0 mu i| by case: i => [|[|[|[|i]]]] //=; rewrite !nth_nil normr0.
have kn0 : nth 0 mu k != 0.
  rewrite -normr_gt0 -sE; case/hasP: hn => x xm x0.
  have xi : (index x mu < 4)%N by rewrite -[4%N]/(size mu) index_mem.
  by have := hmax (index x mu) xi; rewrite [nth 0 smu (index _ _)]sE nth_index //; apply: lt_le_trans; rewrite normr_gt0.
rewrite (sdivE _ kn0) /=.
set n0 := Num.sqrt (m0 * m0 + m1 * m1); set n1 := Num.sqrt (m2 * m2 + m3 * m3).
have e0 : n0 = Num.sqrt (m0 ^+ 2 + m1 ^+ 2) by rewrite /n0 !expr2.
have e1 : n1 = Num.sqrt (m2 ^+ 2 + m3 ^+ 2) by rewrite /n1 !expr2.
have left t : (m0 != 0) || (m1 != 0) -> m2 = t * - m1 -> m3 = t * m0 ->
  exists cu su sg s00 s11,
    (let* cb := sdiv m0 n0 in let* sb := sdiv m1 n0 in Some (cb, sb, copysign neg0 1 t, n0, n1)) = Some (cu, su, sg, s00, s11) /\
    [/\ cu ^+ 2 + su ^+ 2 = 1, sg ^+ 2 = 1, 0 <= s00 & 0 <= s11] /\
    [/\ m0 = cu * s00, m1 = su * s00, m2 = - (su * sg * s11) & m3 = cu * sg * s11].
  move=> hz h2 h3; have [z0 u0] := unit2 hz; rewrite -e0 in z0 u0; rewrite !sdivE //=.
  do 5!eexists; split; first by reflexivity.
  split; first by rewrite copysign_sq expr1n !sqrtr_ge0.
  have en : n1 = `|t| * n0 by rewrite e1 e0 h2 h3 sqrt_scale sqrrN [m1 ^+ 2 + _]addrC.
  split; rewrite ?divfK //.
    rewrite en h2; have := copysign1_mul neg0 t; move: (copysign _ _ _) `|t| => g a <-.
    by field; rewrite z0.
  rewrite en h3; have := copysign1_mul neg0 t; move: (copysign _ _ _) `|t| => g a <-.
  by field; rewrite z0.
have right t : (m2 != 0) || (m3 != 0) -> m0 = t * m3 -> m1 = t * - m2 ->
  exists cu su sg s00 s11,
    (let* cb := sdiv m3 n1 in let* sb := sdiv m2 n1 in
     Some (cb * copysign neg0 1 t, - sb * copysign neg0 1 t, copysign neg0 1 t, n0, n1)) = Some (cu, su, sg, s00, s11) /\
    [/\ cu ^+ 2 + su ^+ 2 = 1, sg ^+ 2 = 1, 0 <= s00 & 0 <= s11] /\
    [/\ m0 = cu * s00, m1 = su * s00, m2 = - (su * sg * s11) & m3 = cu * sg * s11].
  move=> hz h2 h3; have [z0 u0] := unit2 hz; rewrite -e1 in z0 u0; rewrite !sdivE //=.
  do 5!eexists; split; first by reflexivity.
  have g2 := copysign1 neg0 t.
  split.
    split; rewrite ?sqrtr_ge0 // ?copysign_sq ?expr1n //.
    transitivity (((m2 / n1) ^+ 2 + (m3 / n1) ^+ 2) * (copysign neg0 1 t * copysign neg0 1 t)).
      by move: (m2 / n1) (m3 / n1) (copysign _ _ _) => x y g; ring.
    by rewrite u0 g2 mulr1.
  have en : n0 = `|t| * n1 by rewrite e1 e0 h2 h3 sqrt_scale sqrrN [m3 ^+ 2 + _]addrC.
  split.
  - rewrite en h2; have := copysign1_mul neg0 t; move: (copysign _ _ _) `|t| => g a <-.
    by field; rewrite z0.
  - rewrite en h3; have := copysign1_mul neg0 t; move: (copysign _ _ _) `|t| => g a <-.
    by field; rewrite z0.
  - transitivity (m2 / n1 * (copysign neg0 1 t * copysign neg0 1 t) * n1); first by rewrite g2 mulr1 divfK.
    by move: (m2 / n1) (copysign _ _ _) => x g; ring.
  - transitivity (m3 / n1 * (copysign neg0 1 t * copysign neg0 1 t) * n1); first by rewrite g2 mulr1 divfK.
    by move: (m3 / n1) (copysign _ _ _) => x g; ring.
have k4 : (k < 4)%N by [].
have ho' : m0 * m2 = - (m1 * m3) by apply/eqP; rewrite -addr_eq0 ho.
clear e0 e1; move: kn0 k4; clearbody n0 n1 k; clear hk hmax sE hn smu; rewrite {}/mu; case: k => [|[|[|[|k]]]] //= kn0 _.
- apply: left; rewrite ?kn0 ?divfK //; apply: (mulfI kn0); rewrite ho'; by field.
- apply: left; rewrite ?kn0 ?orbT //; first by field.
  apply: (mulfI kn0); rewrite -[LHS]opprK -ho'; by field.
- apply: right; rewrite ?kn0 //; last by field.
  apply: (mulIf kn0); rewrite ho'; by field.
- apply: right; rewrite ?kn0 ?orbT ?divfK //.
  apply: (mulIf kn0); rewrite -[LHS]opprK -ho'; by field.
Qed.

(* the matrix is U diag(s11, det s22) V with U = [cu -su; su cu], V = [cv -sv; sv cv] *)
Lemma svd2x2P neg0 neg1 a11 a12 a21 a22 :
  exists2 d, svd2x2 neg0 neg1 a11 a12 a21 a22 = Some d &
  [/\ [/\ cu d ^+ 2 + su d ^+ 2 = 1, cv d ^+ 2 + sv d ^+ 2 = 1, dt d ^+ 2 = 1, 0 <= s11 d & 0 <= s22 d],
      [/\ a11 = cu d * s11 d * cv d - su d * (dt d * s22 d) * sv d,
          a12 = - (cu d * s11 d * sv d) - su d * (dt d * s22 d) * cv d,
          a21 = su d * s11 d * cv d + cu d * (dt d * s22 d) * sv d &
          a22 = - (su d * s11 d * sv d) + cu d * (dt d * s22 d) * cv d],
      0 < cv d & `|sv d| <= cv d].
Proof.
rewrite /svd2x2; set scale := std_max _ `|a22|.
have hs : [/\ `|a11| <= scale, `|a12| <= scale, `|a21| <= scale & `|a22| <= scale].
  have m1 x y : x <= std_max x y by rewrite /std_max; case: ltP => // /ltW.
  have m2 x y : y <= std_max x y by rewrite /std_max; case: ltP.
  by split; rewrite /scale; [do 3!apply: (le_trans _ (m1 _ _))|do 2!apply: (le_trans _ (m1 _ _))|
     do 1!apply: (le_trans _ (m1 _ _))|]; apply: m2.
have s0 : 0 <= scale by case: hs => h _ _ _; apply: le_trans h; apply: normr_ge0.
case: eqP => [z|/eqP nz].
  move: hs; rewrite z !normr_le0 => -[/eqP -> /eqP -> /eqP -> /eqP ->].
  exists (Svd22 1 0 0 0 1 0 1) => //=; split.
  - by rewrite !expr1n expr0n /= addr0 !lexx.
  - by split; ring.
  - exact: ltr01.
  - by rewrite normr0 ler01.
set b11 := a11 / scale; set b12 := a12 / scale; set b21 := a21 / scale; set b22 := a22 / scale.
have [r11 [r12 [r22 [c [s [-> [hcs [eb11 eb12 eb21 eb22]]]]]]]] := rq2x2P b11 b12 b21 b22.
rewrite /=; have [c1 [s1 [-> [h1 ho]]]] := diagonalize_triangularP neg0 r11 r12 r22; rewrite /=.
have hv : (c * c1 + s * s1) ^+ 2 + (- s * c1 + c * s1) ^+ 2 = 1.
  by transitivity ((c ^+ 2 + s ^+ 2) * (c1 ^+ 2 + s1 ^+ 2)); [ring|rewrite hcs h1 mulr1].
have [cv [sv [-> [hu pos mn [q hq hrot]]]]] := minimize_rotationP hv; rewrite /=.
set m0 := b11 * cv + b12 * sv; set m1 := b21 * cv + b22 * sv.
set m2 := b11 * - sv + b12 * cv; set m3 := b21 * - sv + b22 * cv.
(* the columns of As V are orthogonal *)
have orth : m0 * m2 + m1 * m3 = 0.
  have -> : m0 * m2 + m1 * m3 = offd (b11 ^+ 2 + b21 ^+ 2) (b11 * b12 + b21 * b22) (b12 ^+ 2 + b22 ^+ 2) cv sv.
    by rewrite /m0 /m1 /m2 /m3 /offd; ring.
  apply: offd_min hq hrot _; rewrite eb11 eb12 eb21 eb22.
  transitivity ((c ^+ 2 + s ^+ 2) ^+ 2 * offd (r11 ^+ 2) (r11 * r12) (r12 ^+ 2 + r22 ^+ 2) c1 s1).
    by rewrite /offd; ring.
  by rewrite ho mulr0.
have back : [/\ b11 = m0 * cv - m2 * sv, b12 = m0 * sv + m2 * cv, b21 = m1 * cv - m3 * sv & b22 = m1 * sv + m3 * cv].
  have aux x : x = x * (cv ^+ 2 + sv ^+ 2) by rewrite hu mulr1.
  by split; rewrite [LHS]aux /m0 /m1 /m2 /m3; ring.
have nz' : has (fun x => x != 0) [:: m0; m1; m2; m3].
  apply: contraT; rewrite -all_predC => /= /and5P []; rewrite !negbK => /eqP z0 /eqP z1 /eqP z2 /eqP z3 _.
  case: back; rewrite z0 z1 z2 z3 !mul0r !subr0 !addr0 => /eqP f11 /eqP f12 /eqP f21 /eqP f22.
  have aux x : x / scale == 0 -> x = 0 by rewrite mulf_eq0 invr_eq0 (negPf nz) orbF => /eqP.
  by move: nz; rewrite /scale (aux _ f11) (aux _ f12) (aux _ f21) (aux _ f22) normr0 /std_max !ltxx eqxx.
have [cu [su [sg [s00 [s11 [-> [[g1 g2 g3 g4] [k0 k1 k2 k3]]]]]]]] := scaled_orthogonalP neg1 orth nz'; rewrite /=.
eexists; first by reflexivity.
case: back => f11 f12 f21 f22; split=> //=.
- by split; rewrite ?sqrrN ?mulr_ge0.
- have e x : x = scale * (x / scale) by rewrite mulrC divfK.
  split; rewrite [LHS]e; [rewrite -/b11 f11|rewrite -/b12 f12|rewrite -/b21 f21|rewrite -/b22 f22]; rewrite k0 k2 || rewrite k1 k3; ring.
- by rewrite normrN.
Qed.
End SVD2.
