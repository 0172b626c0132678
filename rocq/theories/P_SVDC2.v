(* The closed-form SVD of a complex 2x2 matrix. *)
From mathcomp Require Import all_ssreflect all_algebra.
From mathcomp Require Import ring complex.
From Verif Require Import Spec M_Vec P_Vec M_Mat P_Mat P_Mat2 M_LU P_Tri P_LU P_LU2 M_Complex P_Complex M_QRC P_QRC M_SVD P_SVD2 M_SVDC.
Set Implicit Arguments. Unset Strict Implicit. Unset Printing Implicit Defensive.
Import Order.Theory GRing.Theory Num.Theory.
Local Open Scope complex_scope.
Local Open Scope ring_scope.

Ltac ob := cbv beta iota delta [Option.bind Option.apply].

Section SVD2.
Variable R : rcfType.
Local Notation C := R[i].
Implicit Types (c s z w x y u b m : C).

Lemma cnorm1E z : (cnorm1 z)%:C = z * conjc z. Proof. by rewrite mulJ. Qed.
Lemma cnorm1_ge0 z : 0 <= cnorm1 z. Proof. by rewrite addr_ge0 ?sqr_ge0. Qed.
Lemma cnorm1_eq0 z : (cnorm1 z == 0) = (z == 0).
Proof. by rewrite -rc_eq0 cnorm1E mulf_eq0 conjc_eq0 orbb. Qed.
Lemma cabs_norm1 z : cabs z = Num.sqrt (cnorm1 z). Proof. by []. Qed.
Lemma cdivrE z r : r != 0 -> cdivr z r = Some (z / r%:C).
Proof. by rewrite /cdivr => /negPf ->. Qed.
Lemma cdivcE z w : w != 0 -> cdivc z w = Some (z / w).
Proof. by rewrite /cdivc => /negPf ->. Qed.
Lemma conj_divr z r : conjc (z / r%:C) = conjc z / r%:C.
Proof. by rewrite conjM conjc_inv conj_rc. Qed.
Lemma cabs_conj z : cabs (conjc z) = cabs z.
Proof. by case: z => a b; rewrite /cabs /= sqrrN. Qed.
Lemma cabsN z : cabs (- z) = cabs z.
Proof. by case: z => a b; rewrite /cabs /= !sqrrN. Qed.
Lemma cabs_gt0 z : (0 < cabs z) = (z != 0).
Proof. by rewrite lt_def cabs_ge0 cabs_eq0 andbT. Qed.
Lemma sqrt_rc (r : R) : 0 <= r -> (Num.sqrt r)%:C ^+ 2 = r%:C :> C.
Proof. by move=> h; rewrite -rcX sqr_sqrtr. Qed.

(* a unit vector along (x, y) *)
Lemma unit2c x y : (x != 0) || (y != 0) -> let n := Num.sqrt (cnorm1 x + cnorm1 y) in
  [/\ n != 0, 0 < n & x / n%:C * conjc (x / n%:C) + y / n%:C * conjc (y / n%:C) = 1].
Proof.
move=> h n; have pos : 0 < cnorm1 x + cnorm1 y.
  rewrite lt_def addr_ge0 ?cnorm1_ge0 // andbT paddr_eq0 ?cnorm1_ge0 // !cnorm1_eq0.
  by case/orP: h => /negPf ->; rewrite ?andbF.
have n0 : 0 < n by rewrite sqrtr_gt0.
have nz : n%:C != 0 :> C by rewrite rc_eq0 gt_eqF.
split=> //; first by rewrite gt_eqF.
rewrite !conj_divr; transitivity ((x * conjc x + y * conjc y) / n%:C ^+ 2).
  by move: (conjc x) (conjc y) nz; move: (n%:C) => e x' y' nz; field.
by rewrite sqrt_rc ?(ltW pos) // rcD !cnorm1E divff // -!cnorm1E -rcD rc_eq0 gt_eqF.
Qed.

Lemma cnormalize1P z : (cabs z)%:C * cnormalize1 z = z /\ cnormalize1 z * conjc (cnormalize1 z) = 1.
Proof.
rewrite /cnormalize1; set m := std_max _ _.
have hm : (m == 0) = (z == 0).
  rewrite /m /std_max; case: z {m} => a b /=; rewrite eq_complex /=; case: ltP => h; rewrite normr_eq0.
    by case: eqP h => [->|]; rewrite ?andbF // normr0 ltNge normr_ge0.
  by case: eqP h => [->|] //=; rewrite normr0 normr_le0 => ->.
have m_ge0 : 0 <= m by rewrite /m /std_max; case: ifP.
rewrite hm; case: eqP => [->|/eqP z0].
  by rewrite conjc1 !mulr1; split=> //; apply/eqP; rewrite rc_eq0 cabs_eq0.
have m0 : m != 0 by rewrite hm.
have -> : Num.sqrt (cnorm1 (z * m^-1%:C)) = cabs z / m.
  by rewrite -/(cabs _) cabsM cabs_rc ger0_norm ?invr_ge0.
have a0 : cabs z != 0 by rewrite cabs_eq0.
have e : z * m^-1%:C / (cabs z / m)%:C = z / (cabs z)%:C.
  rewrite rcM !rcV; have : m%:C != 0 :> C by rewrite rc_eq0.
  have : (cabs z)%:C != 0 :> C by rewrite rc_eq0.
  by move: (m%:C) ((cabs z)%:C) => p q q0 p0; field; rewrite q0 p0.
rewrite e; split; first by rewrite mulrC divfK // rc_eq0.
rewrite conj_divr mulrACA -cabs2 -invfM -rcM expr2 divff // rc_eq0 mulf_neq0 //.
Qed.

Lemma minimize_rotation_cP c s : c * conjc c + s * conjc s = 1 ->
  exists r s', minimize_rotation_c c s = Some (r%:C, s') /\
  [/\ r%:C * r%:C + s' * conjc s' = 1, 0 < r, cabs s' <= r &
      exists2 q : C, q * conjc q = 1 & (r%:C, s') = (q * c, q * s) \/ (r%:C, s') = (q * - conjc s, q * conjc c)].
Proof.
move=> h.
have key x y : x != 0 -> x * conjc x + y * conjc y = 1 -> cabs y <= cabs x ->
    let q := conjc (x / (cabs x)%:C) in
    [/\ q * conjc q = 1, q * x = (cabs x)%:C, (cabs x)%:C * (cabs x)%:C + (q * y) * conjc (q * y) = 1 & cabs (q * y) <= cabs x].
  move=> x0 hxy hle q; have a0 : (cabs x)%:C != 0 :> C by rewrite rc_eq0 cabs_eq0.
  have q1 : q * conjc q = 1.
    rewrite /q conj_divr conjM conjc_inv conj_rc conjcK; have := cabs2 x; rewrite rcX.
    move: (conjc x) ((cabs x)%:C) a0 => x' a a0 e; transitivity ((x * x') / a ^+ 2); first by field.
    by rewrite -e divff // expf_eq0.
  split=> //.
  - rewrite /q conj_divr; have := cabs2 x; rewrite rcX; move: (conjc x) ((cabs x)%:C) a0 => x' a a0 e.
    by transitivity ((x * x') / a); [field|rewrite -e expr2 mulfK].
  - by rewrite conjM mulrACA q1 mul1r -expr2 -rcX cabs2.
  - rewrite cabsM; have -> : cabs q = 1; last by rewrite mul1r.
    apply/eqP; rewrite -(@eqr_expn2 _ 2) ?cabs_ge0 ?ler01 // expr1n; apply/eqP; apply: complexI.
    by rewrite cabs2 q1.
rewrite /minimize_rotation_c; case: ltP => hc.
  have s0 : s != 0 by rewrite -cabs_gt0; apply: le_lt_trans hc; apply: cabs_ge0.
  have s0' : - conjc s != 0 by rewrite oppr_eq0 conjc_eq0.
  have h' : - conjc s * conjc (- conjc s) + conjc c * conjc (conjc c) = 1.
    by rewrite conjN !conjcK mulrNN addrC [conjc c * _]mulrC [conjc s * _]mulrC.
  have ea : cabs (- conjc s) = cabs s by rewrite cabsN cabs_conj.
  have [|h1 h2 h3 h4] := key _ _ s0' h'; first by rewrite ea cabs_conj ltW.
  rewrite ea in h1 h2 h3 h4; rewrite cdivrE ?cabs_eq0 //=.
  exists (cabs s), (conjc (- conjc s / (cabs s)%:C) * conjc c); split; first by rewrite h2.
  split=> //; first by rewrite cabs_gt0.
  by exists (conjc (- conjc s / (cabs s)%:C)) => //; right; rewrite h2.
have c0 : c != 0.
  apply: contraTneq hc => z; rewrite -ltNge z; have -> : cabs (0 : C) = 0 by apply/eqP; rewrite cabs_eq0.
  by rewrite cabs_gt0; apply: contra_eq_neq h => ->; rewrite z !mul0r addr0 eq_sym oner_eq0.
have [h1 h2 h3 h4] := key _ _ c0 h hc; rewrite cdivrE ?cabs_eq0 //=.
exists (cabs c), (conjc (c / (cabs c)%:C) * s); split; first by rewrite h2.
split=> //; first by rewrite cabs_gt0.
by exists (conjc (c / (cabs c)%:C)) => //; left; rewrite h2.
Qed.

(* the element at (0, 1) of V^* M V, M = [a b; b' a'], V = [c -s*; s c*], in terms of c* and s* *)
Definition offc (a b b' a' cc ss : C) := b * cc ^+ 2 - b' * ss ^+ 2 + (a' - a) * (cc * ss).

Lemma offc_min a a' b c s c' s' q : conjc a = a -> conjc a' = a' -> q * conjc q = 1 ->
  (c', s') = (q * c, q * s) \/ (c', s') = (q * - conjc s, q * conjc c) ->
  offc a b (conjc b) a' (conjc c) (conjc s) = 0 -> offc a b (conjc b) a' (conjc c') (conjc s') = 0.
Proof.
move=> ra ra' hq [] [-> ->] h.
  rewrite !conjM; transitivity (conjc q ^+ 2 * offc a b (conjc b) a' (conjc c) (conjc s)); last by rewrite h mulr0.
  by rewrite /offc; move: (conjc q) (conjc c) (conjc s) (conjc b) => *; ring.
rewrite !conjM conjN !conjcK; transitivity (- conjc q ^+ 2 * conjc (offc a b (conjc b) a' (conjc c) (conjc s))).
  rewrite /offc !expr2 !(conjD, conjN, conjM) !conjcK ra ra'; move: (conjc q) (conjc b) => *; ring.
by rewrite h conjc0 mulr0.
Qed.

Lemma diagonalize_hermitian_cP neg0 (a : R) b (a' : R) :
  exists c s, diagonalize_hermitian_c neg0 a b a' = Some (c, s) /\ c * conjc c + s * conjc s = 1 /\
    offc a%:C b (conjc b) a'%:C (conjc c) (conjc s) = 0.
Proof.
rewrite /diagonalize_hermitian_c; case: eqP => [->|/eqP b0].
  by exists 1, 0; split=> //; rewrite /offc !conjc0 conjc1 !mulr0 !mul0r !mulr1 addr0 subr0 addr0.
set z := a' - a; set d := Num.sqrt _; set L := _ * (z + _).
have bp : 0 < cnorm1 b by rewrite lt_def cnorm1_eq0 b0 cnorm1_ge0.
have ed : z ^+ 2 + (2%:R * Rep b) ^+ 2 + (2%:R * Imp b) ^+ 2 = z ^+ 2 + 4%:R * cnorm1 b by rewrite /cnorm1; ring.
have pos : 0 < z ^+ 2 + 4%:R * cnorm1 b by rewrite ltr_spaddr ?sqr_ge0 // mulr_gt0 ?ltr0n.
have d0 : 0 < d by rewrite /d ed sqrtr_gt0.
have d2 : copysign neg0 d z ^+ 2 = z ^+ 2 + 4%:R * cnorm1 b.
  by rewrite copysign_sq /d ed sqr_sqrtr ?(ltW pos).
have L0 : L != 0 by rewrite mulf_neq0 ?invr_eq0 ?pnatr_eq0 // copysign_add.
have Lc : L%:C != 0 :> C by rewrite rc_eq0.
rewrite cdivrE //=.
have [|n0 _ n1] := @unit2c (b / L%:C) 1; first by rewrite oner_eq0 orbT.
rewrite !cdivrE //=; do 2!eexists; split; first by reflexivity.
split; first exact: n1.
have eL : L%:C ^+ 2 = z%:C * L%:C + b * conjc b.
  rewrite -cnorm1E -rcX -rcM -rcD; congr (_%:C); have := d2; rewrite /L; move: (copysign _ _ _) => e he.
  transitivity (4%:R^-1 * (z ^+ 2 + 2%:R * z * e + e ^+ 2)); first by field.
  by rewrite he; field.
have ez : a'%:C - a%:C = z%:C by rewrite -[a'%:C](subrK a%:C) addrK /z; apply/eqP; rewrite eq_complex /= ?subr0 !eqxx.
have nc : (Num.sqrt (cnorm1 (b / L%:C) + cnorm1 1))%:C != 0 :> C by rewrite rc_eq0.
rewrite /offc ez !conj_divr conjc1; move: (_%:C) nc {n1 n0} => n n0.
move: (conjc b) eL => b' eL; move: (L%:C) (z%:C) Lc eL => l w l0 eL.
transitivity ((b * b' + w * l - l ^+ 2) * (b' / (l * n) ^+ 2)); first by field; rewrite n0 l0.
by rewrite eL [w * l + _]addrC subrr mul0r.
Qed.

Lemma diagonalize_triangular_cP neg0 (r11 r12 r22 : C) :
  exists c s, diagonalize_triangular_c neg0 r11 r12 r22 = Some (c, s) /\ c * conjc c + s * conjc s = 1 /\
    offc (r11 * conjc r11) (r12 * conjc r11) (conjc r12 * r11) (r12 * conjc r12 + r22 * conjc r22) (conjc c) (conjc s) = 0.
Proof.
rewrite /diagonalize_triangular_c; set z := _ + cnorm1 r12; set d := Num.sqrt _; set L := _ * (z + _).
case: (altP (r12 * conjc r11 =P 0)) => b0.
  rewrite /cdivc b0 eqxx; exists 1, 0; split=> //.
  have b0' : conjc r12 * r11 = 0 by rewrite -[r11]conjcK -conjM b0 conjc0.
  by rewrite /offc b0' !conjc0 conjc1 !mulr0 !mul0r !mulr1 addr0 subr0 addr0.
rewrite cdivcE //; set w := r12 * conjc r11 in b0 *.
have wE : cnorm1 w = cnorm1 r11 * cnorm1 r12.
  apply: complexI; rewrite rcM !cnorm1E /w conjM conjcK; move: (conjc r11) (conjc r12) => *; ring.
have wp : 0 < cnorm1 w by rewrite lt_def cnorm1_eq0 b0 cnorm1_ge0.
have ed : 4%:R * cnorm1 r11 * cnorm1 r12 + z * z = z ^+ 2 + 4%:R * cnorm1 w by rewrite wE; ring.
have pos : 0 < z ^+ 2 + 4%:R * cnorm1 w by rewrite ltr_spaddr ?sqr_ge0 // mulr_gt0 ?ltr0n.
have d2 : copysign neg0 d z ^+ 2 = z ^+ 2 + 4%:R * cnorm1 w.
  by rewrite copysign_sq /d ed sqr_sqrtr ?(ltW pos).
have [|n0 _ n1] := @unit2c 1 (L%:C / w); first by rewrite oner_eq0.
have en : Num.sqrt (1 ^+ 2 + Rep (L%:C / w) ^+ 2 + Imp (L%:C / w) ^+ 2) = Num.sqrt (cnorm1 1 + cnorm1 (L%:C / w)).
  by congr Num.sqrt; rewrite /cnorm1 /= expr0n addr0 addrA.
rewrite en sdivE // cdivrE //=; do 2!eexists; split; first by reflexivity.
have e1 n : (1 / n)%:C = 1 / n%:C :> C by rewrite rcM rcV.
split; first by rewrite e1; exact: n1.
have eL : L%:C ^+ 2 = z%:C * L%:C + w * conjc w.
  rewrite -cnorm1E -rcX -rcM -rcD; congr (_%:C); have := d2; rewrite /L; move: (copysign _ _ _) => e he.
  transitivity (4%:R^-1 * (z ^+ 2 + 2%:R * z * e + e ^+ 2)); first by field.
  by rewrite he; field.
have ez : r12 * conjc r12 + r22 * conjc r22 - r11 * conjc r11 = z%:C.
  rewrite -!cnorm1E -rcD; transitivity (cnorm1 r12 + cnorm1 r22 - cnorm1 r11)%:C.
    by apply/eqP; rewrite eq_complex /= subr0 !eqxx.
  congr (_%:C); rewrite /z /cnorm1; ring.
have ew : conjc r12 * r11 = conjc w by rewrite /w conjM conjcK.
rewrite /offc ez ew e1 !conj_divr conjc1 [conjc (L%:C / w)]conjM conjc_inv conj_rc.
have w0' : conjc w != 0 by rewrite conjc_eq0.
have nc : (Num.sqrt (cnorm1 1 + cnorm1 (L%:C / w)))%:C != 0 :> C by rewrite rc_eq0.
move: (_%:C) nc {n1 n0 en} => n n0.
move: (conjc w) w0' eL => w' w0' eL; move: (L%:C) (z%:C) eL => l v eL; move: (w) b0 => w1 _ in eL *.
transitivity ((w1 * w' + v * l - l ^+ 2) / (w' * n ^+ 2)); first by field; rewrite n0 w0'.
by rewrite eL [v * l + _]addrC subrr mul0r.
Qed.

Lemma std_max_geC (x y : R) : x <= std_max x y /\ y <= std_max x y.
Proof. by rewrite /std_max; case: ltP => h; split=> //; apply: ltW. Qed.

Lemma cmat_scale_elementsP (r c : nat) (A : mat C) : wf r c A ->
  [/\ 0 <= cmat_scale_elements r c A,
      forall i j, (i < r)%N -> (j < c)%N ->
        `|Rep (get A i j)| <= cmat_scale_elements r c A /\ `|Imp (get A i j)| <= cmat_scale_elements r c A &
      (cmat_scale_elements r c A == 0) = (mxof r c A == 0)].
Proof.
move=> w; rewrite /cmat_scale_elements.
set cnt := stripe_count _ _ _; set body := fun (e : nat) scale => _.
have [h0 h1 h2] : [/\ 0 <= for_loop 0 cnt body 0,
    forall e, (e < cnt)%N -> cscale_elements (nth [::] (stripes A) e) <= for_loop 0 cnt body 0 &
    (forall e, (e < cnt)%N -> cscale_elements (nth [::] (stripes A) e) = 0) -> for_loop 0 cnt body 0 = 0].
  pose P k (x : R) := [/\ 0 <= x, forall e, (e < k)%N -> cscale_elements (nth [::] (stripes A) e) <= x &
    (forall e, (e < cnt)%N -> cscale_elements (nth [::] (stripes A) e) = 0) -> x = 0].
  suff : P cnt (for_loop 0 cnt body 0) by [].
  apply: (@for_loop_ind _ P) => // k x /andP [_ kc] [x0 xs xz]; rewrite /body.
  have [m1 m2] := std_max_geC x (cscale_elements (nth [::] (stripes A) k)).
  split; first exact: le_trans m1.
    move=> s; rewrite ltnS leq_eqVlt => /orP [/eqP ->|sk] //; apply: le_trans m1; exact: xs.
  by move=> z; rewrite z // (xz z) /std_max ltxx.
have g i j : (i < r)%N -> (j < c)%N -> `|Rep (get A i j)| <= for_loop 0 cnt body 0 /\ `|Imp (get A i j)| <= for_loop 0 cnt body 0.
  move=> hi hj; set k := if rowmaj A then i else j; set l := if rowmaj A then j else i.
  have hk : (k < cnt)%N by rewrite /k /cnt /stripe_count; case: (rowmaj A).
  have hl : (l < size (nth [::] (stripes A) k))%N by rewrite (wf_dim w hk) /l /stripe_dim; case: (rowmaj A).
  have eg : get A i j = nth 0 (nth [::] (stripes A) k) l.
    rewrite (set_nth_default (junk A)) // /get /k /l; by case: (rowmaj A).
  have v0 : nth [::] (stripes A) k != [::] by rewrite -size_eq0 -lt0n; apply: leq_ltn_trans hl.
  have [_ /(_ l hl) [b1 b2]] := cscaleP v0; rewrite eg.
  by split; [apply: le_trans b1 _|apply: le_trans b2 _]; apply: h1.
split=> //; apply/eqP/eqP => [z|z].
  apply/matrixP => i j; rewrite !mxE; have [g1 g2] := g i j (ltn_ord i) (ltn_ord j); move: g1 g2; rewrite z !normr_le0.
  by move=> /eqP g1 /eqP g2; apply/eqP; rewrite eq_complex g1 g2 /= !eqxx.
apply: h2 => e hs; apply/eqP; rewrite cscale_eq0; apply/(all_nthP 0) => k.
rewrite (wf_dim w hs) => hk.
have get0 i j : (i < r)%N -> (j < c)%N -> get A i j = 0.
  by move=> hi hj; have := congr1 (fun M : 'M_(r, c) => M (Ordinal hi) (Ordinal hj)) z; rewrite !mxE.
move: hs hk (wf_dim w hs) get0; rewrite /cnt /stripe_count /stripe_dim /get; case: (rowmaj A) => hs hk sz get0.
  by rewrite (set_nth_default (junk A)) ?sz // get0.
by rewrite (set_nth_default (junk A)) ?sz // get0.
Qed.

Lemma cscal1_eq0 z : (cscal1 z == 0) = (z == 0).
Proof.
rewrite /cscal1 /std_max; case: z => a b /=; rewrite eq_complex /=; case: ltP => h; rewrite normr_eq0.
  by case: eqP h => [->|]; rewrite ?andbF // normr0 ltNge normr_ge0.
by case: eqP h => [->|] //=; rewrite normr0 normr_le0 => ->.
Qed.
Lemma cscal1_ge0 z : 0 <= cscal1 z. Proof. by rewrite /cscal1 /std_max; case: ifP. Qed.

Lemma rq2x2_cP a11 a12 a21 a22 :
  exists r11 r12 r22 c s, rq2x2_c a11 a12 a21 a22 = Some (r11, r12, r22, c, s) /\ c * conjc c + s * conjc s = 1 /\
  [/\ a11 = r11 * c + r12 * s, a12 = r12 * conjc c - r11 * conjc s, a21 = r22 * s & a22 = r22 * conjc c].
Proof.
rewrite /rq2x2_c; case: eqP => [->|/eqP a0].
  by exists a11, a12, a22, 1, 0; rewrite conjc0 conjc1 !mulr0 !mulr1 !addr0 subr0.
rewrite !ger0_norm ?cscal1_ge0 //; set m := std_max _ _.
have m0 : m != 0.
  rewrite /m /std_max; case: ltP => h; last by rewrite cscal1_eq0.
  by rewrite gt_eqF // (le_lt_trans (cscal1_ge0 a21)).
have mc : m%:C != 0 :> C by rewrite rc_eq0.
rewrite !cdivrE //=.
have [|n0 _ n1] := @unit2c (a21 / m%:C) (a22 / m%:C); first by rewrite mulf_neq0 ?invr_eq0.
move: (Num.sqrt _) n0 n1 => n n0 n1; rewrite !cdivrE //= conjcK.
have nc : n%:C != 0 :> C by rewrite rc_eq0.
have e : (if cscal1 a22 < cscal1 a21 then cdivc (a21 / m%:C) (a21 / m%:C / n%:C) else cdivc (a22 / m%:C) (a22 / m%:C / n%:C)) = Some n%:C.
  have aux x : x != 0 -> cdivc (x / m%:C) (x / m%:C / n%:C) = Some n%:C.
    move=> x0; rewrite cdivcE ?mulf_neq0 ?invr_eq0 //; congr Some; move: (m%:C) (n%:C) mc nc => p q p0 q0.
    by field; rewrite p0 x0 q0.
  case: ltP => h; rewrite aux //; apply: contraNneq a0 => z.
  by move: h; rewrite -cscal1_eq0 eq_le cscal1_ge0 andbT z => h; apply: le_trans h _; rewrite le_eqVlt cscal1_eq0 eqxx.
rewrite e /=; do 5!eexists; split; first by reflexivity.
rewrite conjcK; move: n1; set s := a21 / m%:C / n%:C; set c := a22 / m%:C / n%:C => n1.
split; first by rewrite addrC [conjc c * c]mulrC.
split.
- transitivity (a11 * (s * conjc s + c * conjc c)); first by rewrite n1 mulr1.
  by move: (conjc s) (conjc c) (s) (c) => *; ring.
- transitivity (a12 * (s * conjc s + c * conjc c)); first by rewrite n1 mulr1.
  by move: (conjc s) (conjc c) (s) (c) => *; ring.
- by rewrite /s; move: (m%:C) (n%:C) mc nc => p q p0 q0; field; rewrite p0 q0.
- by rewrite /c; move: (m%:C) (n%:C) mc nc => p q p0 q0; field; rewrite p0 q0.
Qed.

Lemma sqrt_scale_c t x y : Num.sqrt (cnorm1 (t * x) + cnorm1 (t * y)) = cabs t * Num.sqrt (cnorm1 x + cnorm1 y).
Proof.
have e z : cnorm1 (t * z) = cnorm1 t * cnorm1 z.
  apply: complexI; rewrite rcM !cnorm1E conjM; move: (conjc t) (conjc z) => *; ring.
by rewrite !e -mulrDr sqrtrM ?cnorm1_ge0.
Qed.
Lemma cnorm1_conj z : cnorm1 (conjc z) = cnorm1 z. Proof. by case: z => a b; rewrite /cnorm1 /= sqrrN. Qed.
Lemma cnorm1N z : cnorm1 (- z) = cnorm1 z. Proof. by case: z => a b; rewrite /cnorm1 /= !sqrrN. Qed.

Lemma scaled_orthogonal_cP m0 m1 m2 m3 :
  conjc m0 * m2 + conjc m1 * m3 = 0 -> has (fun x => x != 0) [:: m0; m1; m2; m3] ->
  exists cu su sg (s00 s11 : R), scaled_orthogonal_c [:: m0; m1; m2; m3] = Some (cu, su, sg, s00, s11) /\
  [/\ cu * conjc cu + su * conjc su = 1, sg * conjc sg = 1, 0 <= s00 & 0 <= s11] /\
  [/\ m0 = cu * s00%:C, m1 = su * s00%:C, m2 = - (conjc su * sg * s11%:C) & m3 = conjc cu * sg * s11%:C].
Proof.
move=> ho hn; set mu := [:: m0; m1; m2; m3].
rewrite /scaled_orthogonal_c -/mu; set smu := vmax2 _ _.
have [||hk hmax] := @max_elementP _ 0 smu => //; first by move=> i; apply: num_real.
set k := max_element 0 smu in hk hmax *.
have sE i : (i < 4)%N -> nth 0 smu i = cscal1 (nth 0 mu i) by case: i => [|[|[|[|i]]]].
have k4 : (k < 4)%N by [].
have kn0 : nth 0 mu k != 0.
  rewrite -cscal1_eq0 gt_eqF // -sE //; case/hasP: hn => x xm x0.
  have xi : (index x mu < 4)%N by rewrite -[4%N]/(size mu) index_mem.
  have := hmax (index x mu) xi; rewrite (sE _ xi) nth_index //; apply: lt_le_trans.
  by rewrite lt_def cscal1_eq0 x0 cscal1_ge0.
have kc0 : conjc (nth 0 mu k) != 0 by rewrite conjc_eq0.
rewrite (cdivcE _ kc0) /=.
have -> : Rep m0 * Rep m0 + Imp m0 * Imp m0 + (Rep m1 * Rep m1 + Imp m1 * Imp m1) = cnorm1 m0 + cnorm1 m1 by rewrite -!expr2.
have -> : Rep m2 * Rep m2 + Imp m2 * Imp m2 + (Rep m3 * Rep m3 + Imp m3 * Imp m3) = cnorm1 m2 + cnorm1 m3 by rewrite -!expr2.
set n0 := Num.sqrt (cnorm1 m0 + cnorm1 m1); set n1 := Num.sqrt (cnorm1 m2 + cnorm1 m3).
have left t : (m0 != 0) || (m1 != 0) -> m2 = t * - conjc m1 -> m3 = t * conjc m0 ->
  exists cu su sg (s00 s11 : R),
    (let* cb := cdivr m0 n0 in let* sb := cdivr m1 n0 in Some (cb, sb, cnormalize1 t, n0, n1)) = Some (cu, su, sg, s00, s11) /\
    [/\ cu * conjc cu + su * conjc su = 1, sg * conjc sg = 1, 0 <= s00 & 0 <= s11] /\
    [/\ m0 = cu * s00%:C, m1 = su * s00%:C, m2 = - (conjc su * sg * s11%:C) & m3 = conjc cu * sg * s11%:C].
  move=> hz h2 h3; have [z0 _ u0] := unit2c hz; rewrite -/n0 in z0 u0; rewrite !cdivrE //=.
  have zc : n0%:C != 0 :> C by rewrite rc_eq0.
  have [g1 g2] := cnormalize1P t.
  do 5!eexists; split; first by reflexivity.
  split; first by rewrite !sqrtr_ge0.
  have en : n1 = cabs t * n0 by rewrite /n1 /n0 h2 h3 sqrt_scale_c cnorm1N !cnorm1_conj [cnorm1 m1 + _]addrC.
  split; rewrite ?divfK //.
    rewrite en h2 conj_divr rcM -{1}g1; move: (conjc m1) (cnormalize1 t) ((cabs t)%:C) (n0%:C) zc => p g a n nz.
    by field; rewrite nz.
  rewrite en h3 conj_divr rcM -{1}g1; move: (conjc m0) (cnormalize1 t) ((cabs t)%:C) (n0%:C) zc => p g a n nz.
  by field; rewrite nz.
have right t : (m2 != 0) || (m3 != 0) -> m0 = t * conjc m3 -> m1 = t * - conjc m2 ->
  exists cu su sg (s00 s11 : R),
    (let* cb := cdivr m3 n1 in let* sb := cdivr m2 n1 in
     Some (conjc cb * cnormalize1 t, - conjc sb * cnormalize1 t, cnormalize1 t, n0, n1)) = Some (cu, su, sg, s00, s11) /\
    [/\ cu * conjc cu + su * conjc su = 1, sg * conjc sg = 1, 0 <= s00 & 0 <= s11] /\
    [/\ m0 = cu * s00%:C, m1 = su * s00%:C, m2 = - (conjc su * sg * s11%:C) & m3 = conjc cu * sg * s11%:C].
  move=> hz h2 h3; have [z0 _ u0] := unit2c hz; rewrite -/n1 in z0 u0; rewrite !cdivrE //=.
  have zc : n1%:C != 0 :> C by rewrite rc_eq0.
  have [g1 g2] := cnormalize1P t.
  do 5!eexists; split; first by reflexivity.
  split.
    split; rewrite ?sqrtr_ge0 //.
    transitivity ((m2 / n1%:C * conjc (m2 / n1%:C) + m3 / n1%:C * conjc (m3 / n1%:C)) * (cnormalize1 t * conjc (cnormalize1 t))).
      rewrite !conjM conjN !conjM !conjcK conjc_inv conj_rc.
      move: (conjc (cnormalize1 t)) (cnormalize1 t) (conjc m2) (conjc m3) (n1%:C) zc => g' g p q n nz.
      by field; rewrite nz.
    by rewrite u0 g2 mulr1.
  have en : n0 = cabs t * n1 by rewrite /n1 /n0 h2 h3 sqrt_scale_c cnorm1N !cnorm1_conj [cnorm1 m3 + _]addrC.
  split.
  - rewrite en h2 conj_divr rcM -{1}g1; move: (conjc m3) (cnormalize1 t) ((cabs t)%:C) (n1%:C) zc => p g a n nz.
    by field; rewrite nz.
  - rewrite en h3 conj_divr rcM -{1}g1; move: (conjc m2) (cnormalize1 t) ((cabs t)%:C) (n1%:C) zc => p g a n nz.
    by field; rewrite nz.
  - transitivity (m2 * (cnormalize1 t * conjc (cnormalize1 t))); first by rewrite g2 mulr1.
    rewrite conjM conjN conjcK; move: (conjc (cnormalize1 t)) (cnormalize1 t) (n1%:C) zc => g' g n nz.
    by field; rewrite nz.
  - transitivity (m3 * (cnormalize1 t * conjc (cnormalize1 t))); first by rewrite g2 mulr1.
    rewrite conjM conjcK; move: (conjc (cnormalize1 t)) (cnormalize1 t) (n1%:C) zc => g' g n nz.
    by field; rewrite nz.
have ho' : conjc m0 * m2 = - (conjc m1 * m3) by apply/eqP; rewrite -addr_eq0 ho.
have ho2 : m0 * conjc m2 = - (m1 * conjc m3) by rewrite -[m0]conjcK -[m1]conjcK -!conjM -conjN -ho'.
clear ho; move: kn0 kc0 k4; clearbody n0 n1 k; clear hk hmax sE hn smu; rewrite {}/mu; case: k => [|[|[|[|k]]]] //= kn0 kc0 _.
- apply: left; rewrite ?kn0 ?divfK //; apply: (mulfI kc0); rewrite ho'.
  by move: (conjc m0) (conjc m1) kc0 => p q p0; field.
- apply: left; rewrite ?kn0 ?orbT //; first by move: (conjc m1) kc0 => p p0; field.
  apply: (mulfI kc0); rewrite -[LHS]opprK -ho'; by move: (conjc m0) (conjc m1) kc0 => p q p0; field.
- apply: right; rewrite ?kn0 //; last by move: (conjc m2) kc0 => p p0; field.
  apply: (mulIf kc0); rewrite ho2; by move: (conjc m2) (conjc m3) kc0 => p q p0; field.
- apply: right; rewrite ?kn0 ?orbT ?divfK //.
  apply: (mulIf kc0); rewrite -[LHS]opprK -ho2; by move: (conjc m2) (conjc m3) kc0 => p q p0; field.
Qed.

(* the matrix is U diag(s11, det s22) V with U = [cu -su*; su cu*], V = [cv -sv*; sv cv*] *)
Definition svd22_of (d : svd22c R) (a11 a12 a21 a22 : C) : Prop :=
  [/\ a11 = ccu d * (cs11 d)%:C * ccv d - conjc (csu d) * (cdt d * (cs22 d)%:C) * csv d,
      a12 = - (ccu d * (cs11 d)%:C * conjc (csv d)) - conjc (csu d) * (cdt d * (cs22 d)%:C) * conjc (ccv d),
      a21 = csu d * (cs11 d)%:C * ccv d + conjc (ccu d) * (cdt d * (cs22 d)%:C) * csv d &
      a22 = - (csu d * (cs11 d)%:C * conjc (csv d)) + conjc (ccu d) * (cdt d * (cs22 d)%:C) * conjc (ccv d)].

Lemma svd2x2_cP neg0 a11 a12 a21 a22 :
  exists2 d, svd2x2_c neg0 a11 a12 a21 a22 = Some d &
  [/\ [/\ ccu d * conjc (ccu d) + csu d * conjc (csu d) = 1, ccv d * conjc (ccv d) + csv d * conjc (csv d) = 1,
          cdt d * conjc (cdt d) = 1, 0 <= cs11 d & 0 <= cs22 d],
      svd22_of d a11 a12 a21 a22 &
      exists r : R, [/\ ccv d = r%:C, 0 < r & cabs (csv d) <= r]].
Proof.
rewrite /svd2x2_c /svd22_of; set scale := cmat_scale_elements _ _ _.
have [s0 _ sz] := @cmat_scale_elementsP 2 2 (Mat true a11 [:: [:: a11; a12]; [:: a21; a22]]) erefl; rewrite -/scale in s0 sz.
have hz : (scale == 0) = [&& a11 == 0, a12 == 0, a21 == 0 & a22 == 0].
  rewrite sz; apply/eqP/and4P => [h|[/eqP h1 /eqP h2 /eqP h3 /eqP h4]].
    split; apply/eqP.
    - by have := congr1 (fun M : 'M[C]_2 => M 0 0) h; rewrite !mxE.
    - by have := congr1 (fun M : 'M[C]_2 => M 0 1) h; rewrite !mxE.
    - by have := congr1 (fun M : 'M[C]_2 => M 1 0) h; rewrite !mxE.
    - by have := congr1 (fun M : 'M[C]_2 => M 1 1) h; rewrite !mxE.
  by apply/matrixP => -[[|[|i]] hi] [[|[|j]] hj] //; rewrite !mxE /get /=.
case: eqP => [z|/eqP nz].
  move: hz; rewrite z eqxx => /esym /and4P [/eqP -> /eqP -> /eqP -> /eqP ->].
  exists (Svd22c 1 0 0 0 1 0 1) => //; cbn [ccu csu cs11 cs22 ccv csv cdt]; split.
  - by rewrite conjc1 conjc0 !mulr1 mulr0 addr0 lexx.
  - by rewrite (_ : (0 : R)%:C = 0) // conjc1 conjc0 !mulr0 !mul0r !subr0 oppr0 !addr0.
  - by exists 1; rewrite ltr01; split=> //; rewrite (_ : cabs 0 = 0) ?ler01 //; apply/eqP; rewrite cabs_eq0.
have opq x : exists y, x / scale%:C = y by exists (x / scale%:C).
have [b11 B11] := opq a11; have [b12 B12] := opq a12; have [b21 B21] := opq a21; have [b22 B22] := opq a22.
rewrite B11 B12 B21 B22.
have scz : scale%:C != 0 :> C by rewrite rc_eq0.
have [r11 [r12 [r22 [c [s [-> [hcs [eb11 eb12 eb21 eb22]]]]]]]] := rq2x2_cP b11 b12 b21 b22.
rewrite /=; have [c1 [s1 [-> [h1 hoff]]]] := diagonalize_triangular_cP neg0 r11 r12 r22; rewrite /=.
set cv0 := conjc c * c1 + conjc s * s1; set sv0 := - s * c1 + c * s1.
have hv : cv0 * conjc cv0 + sv0 * conjc sv0 = 1.
  transitivity ((c * conjc c + s * conjc s) * (c1 * conjc c1 + s1 * conjc s1)); last by rewrite hcs h1 mulr1.
  rewrite /cv0 /sv0 !conjD !conjM conjN !conjcK; move: (conjc c) (conjc s) (conjc c1) (conjc s1) => *; ring.
have [r [sv [-> [hu pos mn [q hq hrot]]]]] := minimize_rotation_cP hv; ob; rewrite conj_rc.
set m0 := b11 * r%:C + b12 * sv; set m1 := b21 * r%:C + b22 * sv.
set m2 := b11 * - conjc sv + b12 * r%:C; set m3 := b21 * - conjc sv + b22 * r%:C.
pose a := b11 * conjc b11 + b21 * conjc b21; pose a' := b12 * conjc b12 + b22 * conjc b22.
pose b := b12 * conjc b11 + b22 * conjc b21.
have ra : conjc a = a by rewrite /a conjD !conjM !conjcK [conjc b11 * _]mulrC [conjc b21 * _]mulrC.
have ra' : conjc a' = a' by rewrite /a' conjD !conjM !conjcK [conjc b12 * _]mulrC [conjc b22 * _]mulrC.
have eb : conjc b = conjc b12 * b11 + conjc b22 * b21 by rewrite /b conjD !conjM !conjcK.
(* the columns of As V are orthogonal *)
have orth : conjc m0 * m2 + conjc m1 * m3 = 0.
  have -> : conjc m0 * m2 + conjc m1 * m3 = offc a b (conjc b) a' (conjc r%:C) (conjc sv).
    rewrite conj_rc eb /a /b /a' /m0 /m1 /m2 /m3 /offc !conjD !conjM conj_rc.
    clear; move: (conjc b11) (conjc b12) (conjc b21) (conjc b22) (conjc sv) (r%:C) => *; ring.
  apply: (offc_min ra ra' hq hrot).
  transitivity ((c * conjc c + s * conjc s) ^+ 2 *
    offc (r11 * conjc r11) (r12 * conjc r11) (conjc r12 * r11) (r12 * conjc r12 + r22 * conjc r22) (conjc c1) (conjc s1)).
    rewrite eb /a /a' /b eb11 eb12 eb21 eb22 /cv0 /sv0 /offc !(conjD, conjN, conjM) !conjcK.
    clear; move: (conjc c) (conjc s) (conjc r11) (conjc r12) (conjc r22) (conjc c1) (conjc s1) => *; ring.
  by rewrite hoff mulr0.
have back : [/\ b11 = m0 * r%:C - m2 * sv, b12 = m0 * conjc sv + m2 * r%:C, b21 = m1 * r%:C - m3 * sv & b22 = m1 * conjc sv + m3 * r%:C].
  have aux x : x = x * (r%:C * r%:C + sv * conjc sv) by rewrite hu mulr1.
  by split; rewrite [LHS]aux /m0 /m1 /m2 /m3; move: (conjc sv) (r%:C) => *; ring.
have nz' : has (fun x => x != 0) [:: m0; m1; m2; m3].
  apply: contraT; rewrite -all_predC => /= /and5P []; rewrite !negbK => /eqP z0 /eqP z1 /eqP z2 /eqP z3 _.
  case: back; rewrite z0 z1 z2 z3 !mul0r !subr0 !addr0 => /eqP f11 /eqP f12 /eqP f21 /eqP f22.
  have aux x : (x / scale%:C == 0) = (x == 0) by rewrite mulf_eq0 invr_eq0 (negPf scz) orbF.
  by move: nz; rewrite hz -(aux a11) -(aux a12) -(aux a21) -(aux a22) B11 B12 B21 B22 f11 f12 f21 f22.
have [cu [su [sg [s00 [s11 [-> [[g1 g2 g3 g4] [k0 k1 k2 k3]]]]]]]] := scaled_orthogonal_cP orth nz'; ob.
eexists; first by reflexivity.
case: back => f11 f12 f21 f22; cbn [ccu csu cs11 cs22 ccv csv cdt]; rewrite !conj_rc !conjN; split=> //.
- by split; rewrite ?mulrNN ?mulr_ge0.
- have e x : x = scale%:C * (x / scale%:C) by rewrite mulrC divfK.
  rewrite !rcM; split; rewrite [LHS]e; [rewrite B11 f11|rewrite B12 f12|rewrite B21 f21|rewrite B22 f22]; rewrite k0 k2 || rewrite k1 k3;
  move: (conjc su) (conjc cu) (conjc sv) (r%:C) (s00%:C) (s11%:C) (scale%:C) => *; ring.
- by exists r; rewrite cabsN.
Qed.
End SVD2.
