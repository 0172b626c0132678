(* Complex vectors and matrices: the Hermitian product, lengths, Gram-Schmidt, norms, conjugate transposes. *)
From mathcomp Require Import all_ssreflect all_algebra.
From mathcomp Require Import ring complex.
From Verif Require Import Spec M_Vec P_Vec M_Mat P_Mat P_Mat2 M_Complex.
Set Implicit Arguments. Unset Strict Implicit. Unset Printing Implicit Defensive.
Import Order.Theory GRing.Theory Num.Theory.
Local Open Scope complex_scope.
Local Open Scope ring_scope.

Notation Rep := complex.Re.
Notation Imp := complex.Im.

Section Scalars.
Variable R : rcfType.
Implicit Types (z w : R[i]) (x y : R).

Lemma conjM z w : conjc (z * w) = conjc z * conjc w. Proof. exact: (rmorphM (conjc_rmorphism R)). Qed.
Lemma conjD z w : conjc (z + w) = conjc z + conjc w. Proof. exact: (rmorphD (conjc_rmorphism R)). Qed.
Lemma conjB z w : conjc (z - w) = conjc z - conjc w. Proof. exact: (rmorphB (conjc_rmorphism R)). Qed.
Lemma conjN z : conjc (- z) = - conjc z. Proof. exact: (rmorphN (conjc_rmorphism R)). Qed.
Lemma conjsum (I : Type) (r : seq I) (F : I -> R[i]) : conjc (\sum_(i <- r) F i) = \sum_(i <- r) conjc (F i).
Proof. exact: (rmorph_sum (conjc_rmorphism R)). Qed.
Lemma rcM x y : (x * y)%:C = x%:C * y%:C. Proof. exact: (rmorphM (ComplexField.real_complex_rmorphism R)). Qed.
Lemma rcD x y : (x + y)%:C = x%:C + y%:C. Proof. exact: (rmorphD (ComplexField.real_complex_rmorphism R)). Qed.
Lemma rcX x n : (x ^+ n)%:C = x%:C ^+ n. Proof. exact: (rmorphX (ComplexField.real_complex_rmorphism R)). Qed.
Lemma rcV x : (x^-1)%:C = (x%:C)^-1. Proof. exact: (fmorphV (ComplexField.real_complex_rmorphism R)). Qed.
Lemma rc_eq0 x : (x%:C == 0 :> R[i]) = (x == 0).
Proof. exact: (fmorph_eq0 (ComplexField.real_complex_rmorphism R)). Qed.
Lemma rc_sum (I : Type) (r : seq I) (F : I -> R) : (\sum_(i <- r) F i)%:C = \sum_(i <- r) (F i)%:C :> R[i].
Proof. exact: (rmorph_sum (ComplexField.real_complex_rmorphism R)). Qed.
Lemma Re_sum (I : Type) (r : seq I) (F : I -> R[i]) : Rep (\sum_(i <- r) F i) = \sum_(i <- r) Rep (F i).
Proof. exact: (raddf_sum (ComplexField.Re_additive R)). Qed.
Lemma conj_rc x : conjc (x%:C) = x%:C :> R[i]. Proof. exact: conjc_real. Qed.

(* z conj z is the real number Re^2 + Im^2 *)
Lemma mulJ z : z * conjc z = (Rep z ^+ 2 + Imp z ^+ 2)%:C.
Proof. by case: z => a b; apply/eqP; rewrite eq_complex /=; apply/andP; split; apply/eqP; ring. Qed.
Lemma cabs2 z : (cabs z ^+ 2)%:C = z * conjc z.
Proof. by rewrite mulJ sqr_sqrtr // addr_ge0 // sqr_ge0. Qed.
Lemma cabs_ge0 z : 0 <= cabs z. Proof. exact: sqrtr_ge0. Qed.
Lemma cabs_eq0 z : (cabs z == 0) = (z == 0).
Proof.
rewrite -(sqrf_eq0 (cabs z)) -rc_eq0 cabs2 mulf_eq0 conjc_eq0; exact: orbb.
Qed.
Lemma cabs_rc x : cabs x%:C = `|x|.
Proof. by rewrite /cabs /= expr0n addr0 sqrtr_sqr. Qed.
Lemma cabsM z w : cabs (z * w) = cabs z * cabs w.
Proof.
apply/eqP; rewrite -(@eqr_expn2 _ 2) ?mulr_ge0 ?cabs_ge0 //; apply/eqP; apply: complexI.
by rewrite exprMn [in RHS]rcM !cabs2 conjM; ring.
Qed.
End Scalars.

Section Vectors.
Variable R : rcfType.
Implicit Types (a b c u v w : seq R[i]) (s : R[i]) (n : nat).
Local Notation allz := (all (fun z : R[i] => z == 0)).

Lemma cdotE n a b : size a = n -> size b = n -> cdot a b = \sum_(i < n) nth 0 a i * conjc (nth 0 b i).
Proof. exact: (@vdotE _ (@conjc R)). Qed.

Lemma cdot_sym n a b : size a = n -> size b = n -> cdot a b = conjc (cdot b a).
Proof. by move=> sa sb; rewrite !(@cdotE n) // conjsum; apply: eq_bigr => i _; rewrite conjM conjcK mulrC. Qed.
Lemma cdot_addl n a b c : size a = n -> size b = n -> size c = n -> cdot (vadd a b) c = cdot a c + cdot b c.
Proof.
move=> sa sb sc; rewrite !(@cdotE n) ?(size_vadd sa sb) // -big_split /=.
by apply: eq_bigr => i _; rewrite (nth_vadd _ sa sb) mulrDl.
Qed.
Lemma cdot_subl n a b c : size a = n -> size b = n -> size c = n -> cdot (vsub a b) c = cdot a c - cdot b c.
Proof.
move=> sa sb sc; rewrite !(@cdotE n) ?(size_vsub sa sb) // -sumrB.
by apply: eq_bigr => i _; rewrite (nth_vsub _ sa sb) mulrBl.
Qed.
Lemma cdot_scalel n s a b : size a = n -> size b = n -> cdot (vscalel s a) b = s * cdot a b.
Proof.
move=> sa sb; rewrite !(@cdotE n) ?size_map // big_distrr.
by rewrite /=; apply: eq_bigr => i _; rewrite nth_vscalel mulrA.
Qed.
Lemma cdot_scaler n s a b : size a = n -> size b = n -> cdot a (vscalel s b) = conjc s * cdot a b.
Proof.
by move=> sa sb; rewrite (cdot_sym sa) ?size_map // (cdot_scalel _ sb sa) conjM -(cdot_sym sa sb).
Qed.

Lemma cdot_real v : cdot v v = (\sum_(i < size v) (Rep (nth 0 v i) ^+ 2 + Imp (nth 0 v i) ^+ 2))%:C.
Proof. by rewrite (@cdotE (size v)) // rc_sum; apply: eq_bigr => i _; rewrite mulJ. Qed.
Lemma clength_squaredE v : clength_squared v = \sum_(i < size v) (Rep (nth 0 v i) ^+ 2 + Imp (nth 0 v i) ^+ 2).
Proof. by rewrite /clength_squared cdot_real. Qed.
Lemma cls_ge0 v : 0 <= clength_squared v.
Proof. by rewrite clength_squaredE sumr_ge0 // => i _; rewrite addr_ge0 ?sqr_ge0. Qed.
Lemma cls_rc v : (clength_squared v)%:C = cdot v v.
Proof. by rewrite clength_squaredE cdot_real. Qed.
Lemma clength_sq v : clength v ^+ 2 = clength_squared v.
Proof. by rewrite sqr_sqrtr ?cls_ge0. Qed.
Lemma clength_ge0 v : 0 <= clength v. Proof. exact: sqrtr_ge0. Qed.
Lemma cls_eq0 v : (clength_squared v == 0) = allz v.
Proof.
rewrite clength_squaredE psumr_eq0 => [|i _]; last by rewrite addr_ge0 ?sqr_ge0.
have h z : (Rep z ^+ 2 + Imp z ^+ 2 == 0) = (z == 0 :> R[i]).
  by rewrite paddr_eq0 ?sqr_ge0 // !sqrf_eq0 eq_complex.
apply/allP/(all_nthP 0) => hh i.
  by move=> hi; have := hh (Ordinal hi) (mem_index_enum _); rewrite /= h.
by rewrite /= => _; rewrite h hh.
Qed.
Lemma clength_eq0 v : (clength v == 0) = allz v.
Proof. by rewrite -cls_eq0 -clength_sq sqrf_eq0. Qed.
Lemma cdot_eq0 v : (cdot v v == 0) = allz v.
Proof. by rewrite -cls_rc rc_eq0 cls_eq0. Qed.

Lemma clength_mapmul v s : clength [seq z * s | z <- v] = clength v * cabs s.
Proof.
apply/eqP; rewrite -(@eqr_expn2 _ 2) ?mulr_ge0 ?clength_ge0 ?cabs_ge0 // exprMn !clength_sq.
apply/eqP; apply: complexI; rewrite rcM cabs2 !cls_rc.
have e : [seq z * s | z <- v] = vscalel s v by apply: eq_map => z; rewrite mulrC.
have sv : size (vscalel s v) = size v by rewrite size_map.
rewrite e (cdot_scalel s (erefl (size v)) sv) (cdot_scaler s (erefl (size v)) (erefl _)).
by ring.
Qed.

Lemma ccauchy n a b : size a = n -> size b = n -> cabs (cdot a b) <= clength a * clength b.
Proof.
move=> sa sb; rewrite -(@ler_pexpn2r _ 2) ?nnegrE ?mulr_ge0 ?clength_ge0 ?cabs_ge0 //.
rewrite exprMn !clength_sq -lecR cabs2 rcM !cls_rc.
have [b0|b0] := eqVneq (cdot b b) 0.
  have z : cdot a b = 0.
    move/eqP: b0; rewrite cdot_eq0 => /allP z; rewrite (@cdotE n) // big1 // => i _.
    by rewrite (eqP (z _ (mem_nth 0 _))) ?conjc0 ?mulr0 ?sb.
  by rewrite b0 z mulr0 mul0r.
have bp : 0 < clength_squared b by rewrite lt_def cls_ge0 -rc_eq0 cls_rc b0.
set w := vsub (vscalel (cdot b b) a) (vscalel (cdot a b) b).
have sA : size (vscalel (cdot b b) a) = n by rewrite size_map.
have sB : size (vscalel (cdot a b) b) = n by rewrite size_map.
have sw : size w = n by rewrite (size_vsub sA sB).
have w0 : 0 <= cdot w w by rewrite -cls_rc ler0c cls_ge0.
have e : cdot w w = cdot b b * (cdot a a * cdot b b - cdot a b * conjc (cdot a b)).
  rewrite {1}/w (cdot_subl sA sB sw) (cdot_scalel _ sa sw) (cdot_scalel _ sb sw).
  rewrite (cdot_sym sa sw) (cdot_sym sb sw) /w !(cdot_subl sA sB) //.
  rewrite !(cdot_scalel _ sa) // !(cdot_scalel _ sb) // !conjB !conjM -(cdot_sym sa sa) -(cdot_sym sb sb).
  rewrite -(cdot_sym sa sb) -(cdot_sym sb sa) (cdot_sym sb sa); ring.
have bC : 0 < cdot b b by rewrite -cls_rc ltcE /= eqxx.
by move: w0; rewrite e (pmulr_rge0 _ bC) subr_ge0.
Qed.

Lemma ctriangle n a b : size a = n -> size b = n -> clength (vadd a b) <= clength a + clength b.
Proof.
move=> sa sb; rewrite -(@ler_pexpn2r _ 2) ?nnegrE ?addr_ge0 ?clength_ge0 //.
rewrite sqrrD !clength_sq.
have -> : clength_squared (vadd a b) = clength_squared a + Rep (cdot a b) *+ 2 + clength_squared b.
  have sab := size_vadd sa sb.
  rewrite {1}/clength_squared (cdot_addl sa sb sab) (cdot_sym sa sab) (cdot_sym sb sab) !(cdot_addl sa sb) // !conjD.
  rewrite -(cdot_sym sa sa) -(cdot_sym sb sb) -(cdot_sym sa sb) -(cdot_sym sb sa) (cdot_sym sb sa).
  rewrite -!cls_rc; case: (cdot a b) => x y /=; ring.
rewrite ler_add2r ler_add2l ler_pmuln2r //; apply: le_trans (ccauchy sa sb).
apply: le_trans (ler_norm _) _; rewrite -(@ler_pexpn2r _ 2) ?nnegrE ?cabs_ge0 //.
rewrite -normrX ger0_norm ?sqr_ge0 // sqr_sqrtr ?addr_ge0 ?sqr_ge0 //.
by rewrite ler_addl sqr_ge0.
Qed.

Lemma size_vmax2 v : size (vmax2 (vabs (vreal v)) (vabs (vimag v))) = size v.
Proof. by rewrite size_vmap2 !size_map minnn. Qed.
Lemma nth_cmax v i : (i < size v)%N ->
  nth 0 (vmax2 (vabs (vreal v)) (vabs (vimag v))) i = Num.max `|Rep (nth 0 v i)| `|Imp (nth 0 v i)|.
Proof.
move=> hi; rewrite (nth_vmap2 _ 0 0) ?size_map // std_maxE; congr Num.max.
  by rewrite (nth_map 0) ?size_map // (nth_map 0).
by rewrite (nth_map 0) ?size_map // (nth_map 0).
Qed.
(* the scale is the largest of the magnitudes of the real and imaginary parts *)
Lemma cscaleP v : v != [::] ->
  (exists2 i, (i < size v)%N & cscale_elements v = Num.max `|Rep (nth 0 v i)| `|Imp (nth 0 v i)|) /\
  forall i, (i < size v)%N -> `|Rep (nth 0 v i)| <= cscale_elements v /\ `|Imp (nth 0 v i)| <= cscale_elements v.
Proof.
move=> v0; set s := vmax2 (vabs (vreal v)) (vabs (vimag v)).
have s0 : s != [::] by rewrite -size_eq0 size_vmax2 size_eq0.
have [h1 h2] := vmaxelemP s0; split.
  have /(nthP 0) [i hi e] := h1; rewrite size_vmax2 in hi; exists i => //.
  by rewrite /cscale_elements -e nth_cmax.
move=> i hi; have := h2 (nth 0 s i); rewrite mem_nth ?size_vmax2 // nth_cmax // => /(_ isT).
by rewrite le_maxl => /andP.
Qed.
Lemma cscale_ge0 v : 0 <= cscale_elements v.
Proof.
case: (v =P [::]) => [->|/eqP /cscaleP [[i _ ->] _]]; first by rewrite /cscale_elements /vmaxelem /=.
by rewrite le_maxr normr_ge0.
Qed.
Lemma cscale_eq0 v : (cscale_elements v == 0) = allz v.
Proof.
case: (v =P [::]) => [->|/eqP v0]; first by rewrite /cscale_elements /vmaxelem /= eqxx.
have [[k hk ek] hb] := cscaleP v0; apply/eqP/(all_nthP 0) => h.
  move=> i hi; have [] := hb i hi; rewrite h !normr_le0 => h1 h2; by rewrite eq_complex h1 h2.
by rewrite ek (eqP (h k hk)) /= normr0 maxxx.
Qed.

Lemma cclamp_gt0 (tmin tmax : R) v : 0 < tmin -> tmin <= tmax -> 0 < std_clamp (cscale_elements v) tmin tmax.
Proof.
move=> h1 h2; rewrite /std_clamp; case: ifP => // /negbT; rewrite -leNgt => h3; case: ifP => _; first exact: lt_le_trans h1 h2.
exact: lt_le_trans h1 h3.
Qed.

Lemma clength_div v (s : R) : 0 < s -> clength [seq z / s%:C | z <- v] = clength v / s.
Proof. by move=> s0; rewrite clength_mapmul -rcV cabs_rc gtr0_norm // invr_gt0. Qed.

Lemma clength_preciseE (tmin tmax : R) v : 0 < tmin -> tmin <= tmax ->
  clength_precise tmin tmax v = Some (clength v).
Proof.
move=> h1 h2; rewrite /clength_precise /cdivs.
have hp := cclamp_gt0 v h1 h2; set s := std_clamp _ _ _ in hp *.
by rewrite (gt_eqF hp); congr Some; rewrite clength_div // mulfVK ?gt_eqF.
Qed.

Lemma clength_pos v : ~~ allz v -> 0 < clength v.
Proof. by move=> h; rewrite lt_def clength_ge0 clength_eq0 h. Qed.
Lemma cnormalizeE v : ~~ allz v -> cnormalize v = Some [seq z / (clength v)%:C | z <- v].
Proof. by rewrite -clength_eq0 /cnormalize /cdivs => /negbTE ->. Qed.
Lemma clength_normalized v : ~~ allz v -> clength [seq z / (clength v)%:C | z <- v] = 1.
Proof. by move=> h; have hp := clength_pos h; rewrite clength_div // mulfV ?gt_eqF. Qed.

Lemma call0_div v s : s != 0 -> allz [seq z / s | z <- v] = allz v.
Proof.
move=> h; rewrite all_map; apply: eq_all => x /=.
by rewrite mulf_eq0 invr_eq0 (negbTE h) orbF.
Qed.

Lemma cnormalize_preciseE v d :
  cnormalize_precise_or v d = if allz v then d else [seq z / (clength v)%:C | z <- v].
Proof.
rewrite /cnormalize_precise_or /cdivs cscale_eq0; case: ifP => // h.
have s0 : cscale_elements v != 0 by rewrite cscale_eq0 h.
have sp : 0 < cscale_elements v by rewrite lt_def s0 cscale_ge0.
have sc : (cscale_elements v)%:C != 0 by rewrite rc_eq0.
rewrite clength_eq0 (call0_div _ sc) h /= -map_comp; apply: eq_map => x /=.
have lp : 0 < clength v by rewrite clength_pos // h.
rewrite clength_div // rcM rcV; field.
by rewrite !fmorph_eq0 s0 gt_eqF.
Qed.
Lemma cnormalize_precise0E v :
  cnormalize_precise v = if allz v then cunit0 R (size v) else [seq z / (clength v)%:C | z <- v].
Proof. exact: cnormalize_preciseE. Qed.
Lemma size_cnormalize_precise v : (0 < size v)%N -> size (cnormalize_precise v) = size v.
Proof.
move=> h; rewrite cnormalize_precise0E; case: ifP => _; last by rewrite size_map.
by rewrite size_set_nth size_nseq; case: (size v) h => // k _; rewrite maxnSS max0n.
Qed.
Lemma clength_unit0 n : (0 < n)%N -> clength (cunit0 R n) = 1.
Proof.
case: n => // n _; rewrite /cunit0 /= /clength clength_squaredE /= size_nseq.
rewrite big_ord_recl /= expr0n addr0 expr1n big1 ?addr0 ?sqrtr1 // => i _.
by rewrite nth_nseq; case: ifP; rewrite /= expr0n addr0.
Qed.
End Vectors.

Section GramSchmidt.
Variable R : rcfType.
Variable n : nat.
Implicit Types (u v w : seq R[i]) (us vs prev : seq (seq R[i])).
Local Notation allz := (all (fun z : R[i] => z == 0)).
Local Notation rv := (@rv [ringType of R[i]] n).

Lemma crv_sub u v : size u = n -> size v = n -> rv (vsub u v) = rv u - rv v.
Proof. by move=> su sv; apply/rowP => i; rewrite !mxE (nth_vsub _ su sv). Qed.
Lemma crv_scalel s u : rv (vscalel s u) = s *: rv u.
Proof. by apply/rowP => i; rewrite !mxE nth_vscalel. Qed.
Lemma crv_eq0 u : size u = n -> (rv u == 0) = allz u.
Proof.
move=> su; apply/eqP/(all_nthP 0) => [/rowP h i hi|h].
  by rewrite su in hi; have := h (Ordinal hi); rewrite !mxE /= => ->.
by apply/rowP => i; rewrite !mxE; apply/eqP/h; rewrite su.
Qed.

Lemma cgs_projE u v : size u = n -> size v = n -> ~~ allz u ->
  cgs_proj u v = Some (vscalel (cdot v u / cdot u u) u).
Proof.
move=> su sv h; rewrite /cgs_proj cnormalize_precise0E (negbTE h).
have hl := clength_pos h.
set m := [seq _ | z <- u].
have em : m = vscalel ((clength u)^-1)%:C u by apply: eq_map => z; rewrite rcV mulrC.
rewrite em !(@cdot_scaler _ n) // conj_rc.
have hd : cdot u u != 0 by rewrite cdot_eq0.
have hc : ((clength u)^-1)%:C != 0 by rewrite rc_eq0 invr_eq0 gt_eqF.
rewrite mulf_eq0 (negbTE hc) (negbTE hd) /=; congr (Some (vscalel _ _)).
by move: (cdot v u) (cdot u u) hd (_ %:C) hc => x y hy l hl'; field; rewrite hy hl'.
Qed.

Lemma cgs_proj_zero u v : size u = n -> size v = n -> allz u -> cgs_proj u v = None.
Proof.
move=> su sv h; rewrite /cgs_proj.
case: (posnP n) => n0.
  by rewrite (size0nil (etrans su n0)) (_ : cdot [::] _ = 0) ?eqxx // /cdot /vmul /vmap2; case: (vconj _).
have sm : size (cnormalize_precise u) = n by rewrite size_cnormalize_precise su.
rewrite (@cdotE _ n u) // big1 ?eqxx // => i _.
by rewrite (eqP (all_nthP 0 h i _)) ?mul0r ?su.
Qed.

Definition cgood prev :=
  [/\ all (fun u => size u == n) prev,
      pairwise (fun u v => cdot u v == 0) prev &
      all (fun u => ~~ allz u) prev].

Lemma cdot_sym0 u v : size u = n -> size v = n -> (cdot u v == 0) = (cdot v u == 0).
Proof. by move=> su sv; rewrite (cdot_sym su sv) conjc_eq0. Qed.

Lemma cgs_inner_spec prev v done :
  cgood (done ++ prev) -> size v = n -> all (fun u => cdot u v == 0) done ->
  exists2 w, cgs_inner prev v = Some w
    & [/\ size w = n, all (fun u => cdot u w == 0) (done ++ prev) &
          rv w - rv v \in <<[seq rv u | u <- prev]>>%VS].
Proof.
elim: prev v done => [|u prev IH] v done gd sv hd /=.
  by exists v => //; split; rewrite ?cats0 // subrr mem0v.
have [/allP gs gp /allP gn] := gd.
have su : size u = n by apply/eqP/gs; rewrite mem_cat mem_head orbT.
have nu : ~~ allz u by apply: gn; rewrite mem_cat mem_head orbT.
rewrite cgs_projE //.
have ss c : size (vscalel c u) = n by rewrite size_map.
set c := _ / _; set v' := vsub v (vscalel c u).
have sv' : size v' = n by rewrite /v' (size_vsub sv (ss c)).
have gd' : cgood (rcons done u ++ prev) by rewrite cat_rcons.
have duu : cdot u u != 0 by rewrite cdot_eq0.
case: (IH v' (rcons done u) gd' sv').
  apply/allP => x; rewrite mem_rcons inE => hx.
  have sx : size x = n.
    by case/orP: hx => [/eqP -> //|hx]; apply/eqP/gs; rewrite mem_cat hx.
  rewrite (cdot_sym0 sx sv') (cdot_subl sv (ss c) sx) (cdot_scalel _ su sx).
  case/orP: hx => [/eqP ->|hx]; first by rewrite /c mulfVK ?subrr.
  have hx0 : cdot v x = 0 by apply/eqP; rewrite (cdot_sym0 sv sx); apply: (allP hd).
  rewrite hx0 sub0r oppr_eq0 mulf_eq0; apply/orP; right.
  rewrite (cdot_sym0 su sx); move: gp; rewrite pairwise_cat => /and3P [/allrelP h _ _].
  by apply: h => //; exact: mem_head.
move=> w -> [sw hw hs]; exists w => //; split=> //; first by rewrite -cat_rcons.
rewrite span_cons.
have -> : rv w - rv v = - c *: rv u + (rv w - rv v').
  by rewrite /v' (crv_sub sv (ss c)) crv_scalel scaleNr opprB [RHS]addrCA addKr.
apply: memv_add => //; exact: rpredZ (memv_line _).
Qed.

Lemma cgood_rcons prev w : cgood prev -> size w = n -> all (fun u => cdot u w == 0) prev ->
  ~~ allz w -> cgood (rcons prev w).
Proof.
move=> [g1 g2 g3] sw h hn; split; rewrite -cats1 ?all_cat ?g1 ?g3 /= ?sw ?eqxx ?hn //.
by rewrite pairwise_cat g2 /= !andbT; apply/allrelP => x y hx; rewrite inE => /eqP ->; apply: (allP h).
Qed.

Lemma cgs_outer_spec vs done vs0 :
  cgood done -> size done = size vs0 -> (forall k, <<[seq rv u | u <- take k done]>> = <<[seq rv v | v <- take k vs0]>>)%VS ->
  all (fun v => size v == n) vs -> free [seq rv v | v <- vs0 ++ vs] ->
  exists2 us, cgs_outer done vs = Some us
   & [/\ cgood us, size us = size (vs0 ++ vs) &
         forall k, (<<[seq rv u | u <- take k us]>> = <<[seq rv v | v <- take k (vs0 ++ vs)]>>)%VS].
Proof.
elim: vs done vs0 => [|v vs IH] done vs0 gd sz hs hsz hf /=.
  by exists done => //; rewrite cats0.
move: hsz => /= /andP [/eqP sv hsz].
have gd' : cgood ([::] ++ done) by [].
have [w -> [sw hw hsp]] := cgs_inner_spec gd' sv isT.
have hall : (<<[seq rv u | u <- done]>> = <<[seq rv v | v <- vs0]>>)%VS.
  by have := hs (size vs0); rewrite take_size -sz take_size.
have nw : ~~ allz w.
  apply/negP; rewrite -(crv_eq0 sw) => /eqP w0.
  move: hsp; rewrite w0 sub0r rpredN hall.
  have : free (rv v :: [seq rv v | v <- vs0]).
    move: hf; rewrite map_cat /= => hf.
    have := hf; rewrite -cat_rcons => /catl_free.
    by rewrite (perm_free (Y := rv v :: [seq rv v | v <- vs0])) // perm_rcons.
  by rewrite free_cons => /andP [/negbTE ->].
have := IH (rcons done w) (rcons vs0 v).
rewrite cat_rcons; apply=> //; first exact: cgood_rcons.
- by rewrite !size_rcons sz.
move=> k; case: (leqP k (size done)) => hk.
  by rewrite -!cats1 !takel_cat // -?sz.
rewrite !take_oversize ?size_rcons -?sz // !map_rcons -!cats1 !span_cat !span_seq1 hall.
apply/eqP; rewrite eqEsubv; apply/andP; split; rewrite subv_add addvSl /=.
  rewrite -memvE -[rv w](subrK (rv v)); apply: memv_add; last exact: memv_line.
  by rewrite -hall.
rewrite -memvE -[rv v](subrK (rv w)); apply: memv_add; last exact: memv_line.
by rewrite -opprB rpredN -hall.
Qed.

Lemma cgs_spec vs : all (fun v => size v == n) vs -> free [seq rv v | v <- vs] ->
  exists2 us, cgram_schmidt vs = Some us
   & [/\ cgood us, size us = size vs &
         forall k, (<<[seq rv u | u <- take k us]>> = <<[seq rv v | v <- take k vs]>>)%VS].
Proof. by move=> h1 h2; apply: (@cgs_outer_spec vs [::] [::]). Qed.
End GramSchmidt.

Section Matrices.
Variable R : rcfType.
Implicit Types (A B : mat R[i]).

Lemma stripe_mapP (T U : Type) (jk : U) (f : seq T -> seq U) (g : T -> U) r c (A : mat T) : wf r c A ->
  (forall v, f v = [seq g x | x <- v]) ->
  [/\ wf r c (stripe_map jk f r c A), rowmaj (stripe_map jk f r c A) = rowmaj A &
      forall i j, (i < r)%N -> (j < c)%N -> get (stripe_map jk f r c A) i j = g (get A i j)].
Proof.
move=> wA hf; rewrite /stripe_map; set V := uninit (rowmaj A) jk r c.
pose P m M := same r c V M /\ forall s, (s < m)%N -> nth [::] (stripes M) s = f (nth [::] (stripes A) s).
have [[w e1 e2] h] : P (stripe_count (rowmaj A) r c) (for_loop 0 (stripe_count (rowmaj A) r c)
   (fun s M => set_stripe M s (f (nth [::] (stripes A) s))) V).
  apply: (@for_loop_ind _ P) => //; first by split=> //; split=> //; apply: wf_uninit.
  move=> s M /andP [_ hs] [sM hM]; have [wM e1 e2] := sM; split.
    apply: same_trans sM _; split=> //; apply: wf_set_stripe => //; rewrite e1 //.
    by rewrite hf size_map (wf_dim wA).
  move=> t; rewrite ltnS /= nth_set_nth /=; case: eqP => [->|/eqP ne] // ht.
  by apply: hM; rewrite ltn_neqAle ne.
split=> // i j hi hj; rewrite /get e1 e2 /=.
have hd := wf_dim wA; rewrite /stripe_count /stripe_dim in h hd.
by case: (rowmaj A) h hd => h hd; rewrite h // hf (nth_map (junk A)) ?hd.
Qed.

Lemma mat_conjP r c A : wf r c A ->
  [/\ wf r c (mat_conj r c A), rowmaj (mat_conj r c A) = rowmaj A &
      forall i j, (i < r)%N -> (j < c)%N -> get (mat_conj r c A) i j = conjc (get A i j)].
Proof. by move=> w; apply: stripe_mapP. Qed.
Lemma mat_realP r c A : wf r c A ->
  [/\ wf r c (mat_real r c A), rowmaj (mat_real r c A) = rowmaj A &
      forall i j, (i < r)%N -> (j < c)%N -> get (mat_real r c A) i j = Rep (get A i j)].
Proof. by move=> w; apply: stripe_mapP. Qed.
Lemma mat_imagP r c A : wf r c A ->
  [/\ wf r c (mat_imag r c A), rowmaj (mat_imag r c A) = rowmaj A &
      forall i j, (i < r)%N -> (j < c)%N -> get (mat_imag r c A) i j = Imp (get A i j)].
Proof. by move=> w; apply: stripe_mapP. Qed.
Lemma mat_absP r c (A : mat R) : wf r c A ->
  [/\ wf r c (mat_abs r c A), rowmaj (mat_abs r c A) = rowmaj A &
      forall i j, (i < r)%N -> (j < c)%N -> get (mat_abs r c A) i j = `|get A i j|].
Proof. by move=> w; apply: stripe_mapP. Qed.

Lemma conj_transposeP r c A :
  [/\ wf c r (conj_transpose r c A), rowmaj (conj_transpose r c A) = rowmaj A &
      forall i j, (i < c)%N -> (j < r)%N -> get (conj_transpose r c A) i j = conjc (get A j i)].
Proof.
have [w e _ g] := transposeP r c A; have [w1 e1 g1] := mat_conjP w.
by split=> //; rewrite ?e1 // => i j hi hj; rewrite g1 // g.
Qed.

Lemma cnorm_squaredP r c A : wf r c A ->
  cnorm_squared r c A = \sum_(i < r) \sum_(j < c) (Rep (get A i j) ^+ 2 + Imp (get A i j) ^+ 2).
Proof.
move=> w; have [w1 _ g1] := mat_conjP w.
have [w2 _ g2] := elementwiseP (g := fun x y => x * y) w w1 (@vmap2_pw _ _).
have [w3 _ g3] := mat_realP w2.
rewrite /cnorm_squared (mat_sumP w3); apply: eq_bigr => i _; apply: eq_bigr => j _.
by rewrite g3 // g2 // g1 // mulJ.
Qed.

Lemma cnorm_preciseE r c A : wf r c A -> (0 < r)%N -> (0 < c)%N ->
  cnorm_precise r c A = Some (cnorm r c A).
Proof.
move=> w r0 c0; rewrite /cnorm_precise.
have [w1 _ g1] := mat_realP w; have [w2 _ g2] := mat_imagP w.
have [w3 _ g3] := mat_absP w1; have [w4 _ g4] := mat_absP w2.
set re := mat_abs r c (mat_real r c A) in w3 g3 *; set im := mat_abs r c (mat_imag r c A) in w4 g4 *.
have [[i1 [j1 [hi1 hj1 e1]]] h1] := mat_maxP w3 r0 c0.
have [[i2 [j2 [hi2 hj2 e2]]] h2] := mat_maxP w4 r0 c0.
set M := std_max _ _.
have [_ m1 m2] := std_max_cases (mat_max r c re) (mat_max r c im); rewrite -/M in m1 m2.
have hR i j : (i < r)%N -> (j < c)%N -> `|Rep (get A i j)| <= M.
  by move=> hi hj; rewrite -g1 // -g3 //; apply: le_trans m1; apply: h1.
have hI i j : (i < r)%N -> (j < c)%N -> `|Imp (get A i j)| <= M.
  by move=> hi hj; rewrite -g2 // -g4 //; apply: le_trans m2; apply: h2.
have M0 : 0 <= M by apply: le_trans (hR _ _ hi1 hj1).
rewrite /cnorm (cnorm_squaredP w); case: eqP => [e|/eqP ne].
  congr Some; rewrite big1 ?sqrtr0 // => i _; rewrite big1 // => j _.
  have := hR i j (ltn_ord i) (ltn_ord j); have := hI i j (ltn_ord i) (ltn_ord j).
  by rewrite e !normr_le0 => /eqP -> /eqP ->; rewrite expr0n addr0.
rewrite /mat_div (negbTE ne) //; congr Some.
have [w5 _ g5] := scalar_opP (f := fun v => [seq x / M | x <- v]) w3 (fun v => erefl).
have [w6 _ g6] := scalar_opP (f := fun v => [seq x / M | x <- v]) w4 (fun v => erefl).
have [w7 _ g7] := elementwiseP (g := fun x y => x * y) w5 w5 (@vmap2_pw _ _).
have [w8 _ g8] := elementwiseP (g := fun x y => x * y) w6 w6 (@vmap2_pw _ _).
have [w9 _ g9] := elementwiseP (g := fun x y => x + y) w7 w8 (@vmap2_pw _ _).
rewrite (mat_sumP w9) -[X in _ * X](ger0_norm M0) -sqrtr_sqr -sqrtrM; last first.
  by apply: sumr_ge0 => i _; apply: sumr_ge0 => j _; rewrite g9 // g7 // g8 // -!expr2 addr_ge0 ?sqr_ge0.
congr Num.sqrt; rewrite mulr_suml; apply: eq_bigr => i _; rewrite mulr_suml; apply: eq_bigr => j _.
rewrite g9 // g7 // g8 // g5 // g6 // g3 // g4 // g1 // g2 // -!expr2 !expr_div_n -mulrDl divfK ?expf_eq0 //.
by rewrite !real_normK ?num_real.
Qed.
End Matrices.
