From mathcomp Require Import all_ssreflect all_algebra.
From mathcomp Require Import ring.
From Verif Require Import Spec M_Vec.
Set Implicit Arguments. Unset Strict Implicit. Unset Printing Implicit Defensive.
Import Order.Theory GRing.Theory Num.Theory.
Local Open Scope ring_scope.

Section Basics.
Variable R : ringType.
Implicit Types a b c v : seq R.

Lemma size_vmap2 (T1 T2 T : Type) (f : T1 -> T2 -> T) (a : seq T1) (b : seq T2) : size (vmap2 f a b) = minn (size a) (size b).
Proof. by rewrite size_map size_zip. Qed.

Lemma nth_vmap2 (T1 T2 T : Type) (f : T1 -> T2 -> T) x1 x2 x (a : seq T1) (b : seq T2) i :
  (i < size a)%N -> (i < size b)%N -> nth x (vmap2 f a b) i = f (nth x1 a i) (nth x2 b i).
Proof.
move=> h1 h2; rewrite (nth_map (x1, x2)) ?size_zip ?leq_min ?h1 //.
by have := nth_zip_cond (x1, x2) a b i; rewrite size_zip leq_min h1 h2 => ->.
Qed.

Lemma vsumE a : vsum a = \sum_(x <- a) x.
Proof.
have h z : foldl (fun s x => s + x) z a = z + \sum_(x <- a) x.
  elim: a z => [|x a IH] z; first by rewrite big_nil addr0.
  by rewrite /= IH big_cons addrA.
by rewrite /vsum h add0r.
Qed.

Lemma vsum_nth n a : size a = n -> vsum a = \sum_(i < n) nth 0 a i.
Proof. by move=> <-; rewrite vsumE (big_nth 0) big_mkord. Qed.

Lemma vdotE conj n a b : size a = n -> size b = n ->
  vdot conj a b = \sum_(i < n) nth 0 a i * conj (nth 0 b i).
Proof.
move=> sa sb; rewrite /vdot (@vsum_nth n) ?size_vmap2 ?size_map ?sa ?sb ?minnn //.
apply: eq_bigr => i _.
by rewrite (nth_vmap2 _ 0 0) ?size_map ?sa ?sb // (nth_map 0) ?sb.
Qed.

Lemma vdot_idE n a b : size a = n -> size b = n ->
  vdot id a b = \sum_(i < n) nth 0 a i * nth 0 b i.
Proof. exact: vdotE. Qed.

Lemma size_vadd n a b : size a = n -> size b = n -> size (vadd a b) = n.
Proof. by move=> sa sb; rewrite size_vmap2 sa sb minnn. Qed.
Lemma size_vsub n a b : size a = n -> size b = n -> size (vsub a b) = n.
Proof. by move=> sa sb; rewrite size_vmap2 sa sb minnn. Qed.
Lemma size_vmul n a b : size a = n -> size b = n -> size (vmul a b) = n.
Proof. by move=> sa sb; rewrite size_vmap2 sa sb minnn. Qed.

Lemma nth_vadd n a b i : size a = n -> size b = n ->
  nth 0 (vadd a b) i = nth 0 a i + nth 0 b i.
Proof.
move=> sa sb; case: (ltnP i n) => h; first by rewrite (nth_vmap2 _ 0 0) ?sa ?sb.
by rewrite !nth_default ?sa ?sb ?addr0 ?(size_vadd sa sb).
Qed.
Lemma nth_vsub n a b i : size a = n -> size b = n ->
  nth 0 (vsub a b) i = nth 0 a i - nth 0 b i.
Proof.
move=> sa sb; case: (ltnP i n) => h; first by rewrite (nth_vmap2 _ 0 0) ?sa ?sb.
by rewrite !nth_default ?sa ?sb ?subr0 ?(size_vsub sa sb).
Qed.
Lemma nth_vmul n a b i : size a = n -> size b = n ->
  nth 0 (vmul a b) i = nth 0 a i * nth 0 b i.
Proof.
move=> sa sb; case: (ltnP i n) => h; first by rewrite (nth_vmap2 _ 0 0) ?sa ?sb.
by rewrite !nth_default ?sa ?sb ?mulr0 ?(size_vmul sa sb).
Qed.
Lemma nth_vscale a s i : nth 0 (vscale a s) i = nth 0 a i * s.
Proof.
case: (ltnP i (size a)) => h; first by rewrite (nth_map 0).
by rewrite !nth_default ?size_map // mul0r.
Qed.
Lemma nth_vscalel a s i : nth 0 (vscalel s a) i = s * nth 0 a i.
Proof.
case: (ltnP i (size a)) => h; first by rewrite (nth_map 0).
by rewrite !nth_default ?size_map // mulr0.
Qed.
Lemma nth_vneg a i : nth 0 (vneg a) i = - nth 0 a i.
Proof. by rewrite nth_vscale mulrN1. Qed.
End Basics.

Lemma seq3 (T : Type) (x0 : T) (s : seq T) : size s = 3%N ->
  s = [:: nth x0 s 0; nth x0 s 1; nth x0 s 2].
Proof. by case: s => [|a [|b [|c []]]]. Qed.
Lemma seq2 (T : Type) (x0 : T) (s : seq T) : size s = 2%N -> s = [:: nth x0 s 0; nth x0 s 1].
Proof. by case: s => [|a [|b []]]. Qed.

(* algebra_tactics' ring does not identify two occurrences of [nth z a i]; name them first *)
Ltac gen_nth := repeat match goal with |- context [nth ?z ?a ?i] =>
  let x := fresh "x" in set x := nth z a i; clearbody x end.

Section Cross.
Variable R : comRingType.
Implicit Types a b : seq R.

Lemma cross3E a b : cross3 a b =
  [:: nth 0 a 1 * nth 0 b 2 - nth 0 a 2 * nth 0 b 1;
      nth 0 a 2 * nth 0 b 0 - nth 0 a 0 * nth 0 b 2;
      nth 0 a 0 * nth 0 b 1 - nth 0 a 1 * nth 0 b 0].
Proof. by rewrite /cross3 /vfmta /vfma /vadd /vmul /vneg /vscale /vmap2 /vmap3 /swz /=; congr [:: _; _; _]; gen_nth; ring. Qed.
End Cross.

Section Order.
Variable R : realDomainType.
Implicit Types (a b v : seq R) (lo hi x : R).

Lemma std_minE x y : std_min x y = Num.min x y.
Proof. by rewrite /std_min minElt; case: ltgtP. Qed.
Lemma std_maxE x y : std_max x y = Num.max x y.
Proof. by rewrite /std_max maxElt. Qed.

Lemma size_vclamp v lo hi : size (vclamp v lo hi) = size v.
Proof. by rewrite /vclamp !size_vmap2 !size_nseq !minnn. Qed.

Lemma nth_vclamp v lo hi i : (i < size v)%N ->
  nth 0 (vclamp v lo hi) i = Num.min (Num.max (nth 0 v i) lo) hi.
Proof.
move=> h; rewrite /vclamp (nth_vmap2 _ 0 0) ?size_vmap2 ?size_nseq ?minnn //.
by rewrite (nth_vmap2 _ 0 0) ?size_nseq // !nth_nseq h std_minE std_maxE.
Qed.

Lemma vmaxelem_fold x s :
  let m := foldl (fun best y : R => if best < y then y else best) x s in
  m \in x :: s /\ forall y, y \in x :: s -> y <= m.
Proof.
elim: s x => [|y s IH] x /=; first by split=> [|y]; rewrite !inE // => /eqP ->.
have [] := IH (if x < y then y else x); set m := foldl _ _ _ => h1 h2; split.
  by move: h1; rewrite !inE; case: ifP => _ /orP [/eqP ->|->]; rewrite ?eqxx ?orbT.
move=> z; rewrite !inE => /or3P [/eqP ->|/eqP ->|hz].
- apply: le_trans (h2 _ (mem_head _ _)); by case: ltP => // /ltW.
- apply: le_trans (h2 _ (mem_head _ _)); by case: ltP.
- by apply: h2; rewrite inE hz orbT.
Qed.

Lemma vmaxelemP v : v != [::] -> vmaxelem v \in v /\ forall y, y \in v -> y <= vmaxelem v.
Proof. by case: v => // x s _; exact: vmaxelem_fold. Qed.

Lemma scale_elements_ge v x : x \in v -> `|x| <= scale_elements v.
Proof.
move=> h; have hv : vmap (fun y : R => `|y|) v != [::] by case: v h.
by have [_ ] := vmaxelemP hv; apply; apply: map_f.
Qed.

Lemma scale_elements_ge0 v : 0 <= scale_elements v.
Proof.
case: v => [|x s]; first by rewrite /scale_elements /vmaxelem /=.
by apply: le_trans (scale_elements_ge (mem_head x s)); exact: normr_ge0.
Qed.

Lemma scale_elements_eq0 v : (scale_elements v == 0) = all (fun x => x == 0) v.
Proof.
apply/idP/idP => [/eqP h|h].
  by apply/allP => x hx; rewrite -normr_le0 -h scale_elements_ge.
case: (v =P [::]) => [->|/eqP hv]; first by rewrite /scale_elements /vmaxelem /=.
have hv' : vmap (fun y : R => `|y|) v != [::] by case: (v) hv.
have [hm _] := vmaxelemP hv'.
by move/mapP: hm => [x hx] e; rewrite /scale_elements e normr_eq0 (allP h).
Qed.
End Order.

Section Root.
Variable R : rcfType.
Implicit Types (a b c u v w : seq R) (s : R) (n : nat).

Lemma dot_sym n a b : size a = n -> size b = n -> vdot id a b = vdot id b a.
Proof. by move=> sa sb; rewrite !(@vdot_idE _ n) //; apply: eq_bigr => i _; rewrite mulrC. Qed.

Lemma dot_addl n a b c : size a = n -> size b = n -> size c = n ->
  vdot id (vadd a b) c = vdot id a c + vdot id b c.
Proof.
move=> sa sb sc; rewrite !(@vdot_idE _ n) ?(size_vadd sa sb) // -big_split /=.
by apply: eq_bigr => i _; rewrite (nth_vadd _ sa sb) mulrDl.
Qed.
Lemma dot_subl n a b c : size a = n -> size b = n -> size c = n ->
  vdot id (vsub a b) c = vdot id a c - vdot id b c.
Proof.
move=> sa sb sc; rewrite !(@vdot_idE _ n) ?(size_vsub sa sb) // -sumrB.
by apply: eq_bigr => i _; rewrite (nth_vsub _ sa sb) mulrBl.
Qed.
Lemma dot_scalel n s a b : size a = n -> size b = n ->
  vdot id (vscalel s a) b = s * vdot id a b.
Proof.
move=> sa sb; rewrite !(@vdot_idE _ n) ?size_map // big_distrr.
by rewrite /=; apply: eq_bigr => i _; rewrite nth_vscalel mulrA.
Qed.
Lemma dot_scale n s a b : size a = n -> size b = n ->
  vdot id (vscale a s) b = s * vdot id a b.
Proof.
move=> sa sb; rewrite !(@vdot_idE _ n) ?size_map // big_distrr.
by apply: eq_bigr => i _; rewrite nth_vscale mulrAC mulrC.
Qed.

Lemma dot_ge0 v : 0 <= vdot id v v.
Proof. by rewrite (@vdot_idE _ (size v)) // sumr_ge0 // => i _; rewrite -expr2 sqr_ge0. Qed.

Lemma dot_eq0 v : (vdot id v v == 0) = all (fun x => x == 0) v.
Proof.
rewrite (@vdot_idE _ (size v)) // psumr_eq0 => [|i _]; last by rewrite -expr2 sqr_ge0.
apply/allP/(all_nthP 0) => h i.
  by move=> hi; have := h (Ordinal hi) (mem_index_enum _); rewrite /= mulf_eq0 orbb.
by rewrite /= => _; rewrite (eqP (h i (ltn_ord i))) mulr0.
Qed.

Lemma cauchy n a b : size a = n -> size b = n ->
  vdot id a b ^+ 2 <= vdot id a a * vdot id b b.
Proof.
move=> sa sb; have [b0|b0] := eqVneq (vdot id b b) 0.
  have z : vdot id a b = 0.
    move/eqP: b0; rewrite dot_eq0 => /allP z; rewrite (@vdot_idE _ n) // big1 // => i _.
    by rewrite (eqP (z _ (mem_nth 0 _))) ?mulr0 ?sb.
  by rewrite b0 z mulr0 expr0n.
have bp : 0 < vdot id b b by rewrite lt_def b0 dot_ge0.
set w := vsub (vscalel (vdot id b b) a) (vscalel (vdot id a b) b).
have sA : size (vscalel (vdot id b b) a) = n by rewrite size_map.
have sB : size (vscalel (vdot id a b) b) = n by rewrite size_map.
have sw : size w = n by rewrite (size_vsub sA sB).
have := dot_ge0 w.
have -> : vdot id w w = vdot id b b * (vdot id a a * vdot id b b - vdot id a b ^+ 2).
  rewrite {1}/w (dot_subl sA sB sw) (dot_scalel _ sa sw) (dot_scalel _ sb sw).
  rewrite (dot_sym sa sw) (dot_sym sb sw) /w !(dot_subl sA sB) //.
  rewrite !(dot_scalel _ sa) // !(dot_scalel _ sb) // (dot_sym sb sa); ring.
by rewrite pmulr_rge0 // subr_ge0.
Qed.

Lemma length_sq v : vlength v ^+ 2 = vdot id v v.
Proof. by rewrite /vlength sqr_sqrtr ?dot_ge0. Qed.
Lemma length_ge0 v : 0 <= vlength v.
Proof. exact: sqrtr_ge0. Qed.
Lemma length_eq0 v : (vlength v == 0) = all (fun x => x == 0) v.
Proof. by rewrite /vlength sqrtr_eq0 -dot_eq0 eq_le dot_ge0 andbT. Qed.

Lemma length_mapmul v s : vlength [seq x * s | x <- v] = vlength v * `|s|.
Proof.
apply/eqP; rewrite -(@eqr_expn2 _ 2) ?mulr_ge0 ?length_ge0 //.
rewrite exprMn !length_sq -normrX ger0_norm ?sqr_ge0 //.
have sv : size [seq x * s | x <- v] = size v by rewrite size_map.
by rewrite (dot_scale _ (erefl (size v)) sv) (dot_sym (erefl _) sv) (dot_scale _ (erefl _) (erefl _)); apply/eqP; ring.
Qed.
Lemma length_mapmull v s : vlength [seq s * x | x <- v] = vlength v * `|s|.
Proof. by rewrite -length_mapmul; congr vlength; apply: eq_map => x; rewrite mulrC. Qed.

Lemma triangle n a b : size a = n -> size b = n ->
  vlength (vadd a b) <= vlength a + vlength b.
Proof.
move=> sa sb; rewrite -(@ler_pexpn2r _ 2) ?nnegrE ?addr_ge0 ?length_ge0 //.
rewrite sqrrD !length_sq (dot_addl sa sb (size_vadd sa sb)).
rewrite (dot_sym sa (size_vadd sa sb)) (dot_sym sb (size_vadd sa sb)).
rewrite !(dot_addl sa sb) // (dot_sym sb sa).
have -> : vdot id a a + vdot id a b + (vdot id a b + vdot id b b)
  = vdot id a a + (vdot id a b) *+ 2 + vdot id b b by ring.
rewrite ler_add2r ler_add2l ler_pmuln2r //.
apply: le_trans (ler_norm _) _.
rewrite -(@ler_pexpn2r _ 2) ?nnegrE ?mulr_ge0 ?length_ge0 //.
by rewrite -normrX ger0_norm ?sqr_ge0 // exprMn !length_sq; apply: cauchy sa sb.
Qed.

Lemma clamp_gt0 tmin tmax v : 0 < tmin -> tmin <= tmax -> 0 < std_clamp (scale_elements v) tmin tmax.
Proof.
move=> h1 h2; rewrite /std_clamp; case: ifP => // /negbT; rewrite -leNgt => h3; case: ifP => _; first exact: lt_le_trans h1 h2.
exact: lt_le_trans h1 h3.
Qed.

Lemma length_preciseE tmin tmax v : 0 < tmin -> tmin <= tmax ->
  length_precise tmin tmax v = Some (vlength v).
Proof.
move=> h1 h2; rewrite /length_precise /vdivs.
have hp := clamp_gt0 v h1 h2; set s := std_clamp _ _ _ in hp *.
rewrite (gt_eqF hp); congr Some.
by rewrite length_mapmul normrV ?unitfE ?gt_eqF // gtr0_norm // mulfVK ?gt_eqF.
Qed.

Lemma normalizeE v : ~~ all (fun x => x == 0) v ->
  vnormalize v = Some [seq x / vlength v | x <- v].
Proof. by rewrite -length_eq0 /vnormalize /vdivs => /negbTE ->. Qed.

Lemma length_pos v : ~~ all (fun x => x == 0) v -> 0 < vlength v.
Proof. by move=> h; rewrite lt_def length_ge0 length_eq0 h. Qed.

Lemma length_normalized v : ~~ all (fun x => x == 0) v -> vlength [seq x / vlength v | x <- v] = 1.
Proof.
move=> h; have hp := length_pos h.
by rewrite length_mapmul normrV ?unitfE ?gt_eqF // gtr0_norm // mulfV ?gt_eqF.
Qed.

Lemma all0_div v s : s != 0 -> all (fun x => x == 0) [seq x / s | x <- v] = all (fun x => x == 0) v.
Proof.
move=> h; rewrite all_map; apply: eq_all => x /=.
by rewrite mulf_eq0 invr_eq0 (negbTE h) orbF.
Qed.

Lemma normalize_preciseE v d :
  normalize_precise_or v d = if all (fun x => x == 0) v then d else [seq x / vlength v | x <- v].
Proof.
rewrite /normalize_precise_or /vdivs scale_elements_eq0; case: ifP => // h.
have s0 : scale_elements v != 0 by rewrite scale_elements_eq0 h.
have sp : 0 < scale_elements v by rewrite lt_def s0 scale_elements_ge0.
rewrite length_eq0 (all0_div _ s0) h /= -map_comp; apply: eq_map => x /=.
rewrite length_mapmul normrV ?unitfE // (gtr0_norm sp).
by field; rewrite s0 gt_eqF // length_pos // h.
Qed.

Lemma normalize_precise0E v :
  normalize_precise v = if all (fun x => x == 0) v then unit0 R (size v) else [seq x / vlength v | x <- v].
Proof. exact: normalize_preciseE. Qed.

Lemma size_normalize_precise v : (0 < size v)%N -> size (normalize_precise v) = size v.
Proof.
move=> h; rewrite normalize_precise0E; case: ifP => _; last by rewrite size_map.
by rewrite size_set_nth size_nseq; case: (size v) h => // k _; rewrite maxnSS max0n.
Qed.

Lemma length_unit0 n : (0 < n)%N -> vlength (unit0 R n) = 1.
Proof.
case: n => // n _; rewrite /unit0 /= /vlength /length_squared (@vdot_idE _ n.+1) /= ?size_nseq //.
by rewrite big_ord_recl /= mulr1 big1 ?addr0 ?sqrtr1 // => i _; rewrite nth_nseq; case: ifP; rewrite mulr0.
Qed.
End Root.

Section GramSchmidt.
Variable R : rcfType.
Variable n : nat.
Implicit Types (u v w : seq R) (us vs prev : seq (seq R)).

Local Notation rv := (@rv R n).


Lemma rv_sub u v : size u = n -> size v = n -> rv (vsub u v) = rv u - rv v.
Proof. by move=> su sv; apply/rowP => i; rewrite !mxE (nth_vsub _ su sv). Qed.
Lemma rv_scalel s u : rv (vscalel s u) = s *: rv u.
Proof. by apply/rowP => i; rewrite !mxE nth_vscalel. Qed.
Lemma rv_eq0 u : size u = n -> (rv u == 0) = all (fun x => x == 0) u.
Proof.
move=> su; apply/eqP/(all_nthP 0) => [/rowP h i hi|h].
  by rewrite su in hi; have := h (Ordinal hi); rewrite !mxE /= => ->.
by apply/rowP => i; rewrite !mxE; apply/eqP/h; rewrite su.
Qed.

Lemma gs_projE u v : size u = n -> size v = n -> ~~ all (fun x => x == 0) u ->
  gs_proj u v = Some (vscalel (vdot id v u / vdot id u u) u).
Proof.
move=> su sv h; rewrite /gs_proj normalize_precise0E (negbTE h) /sdiv.
have hl := length_pos h.
have sm : size [seq x / vlength u | x <- u] = n by rewrite size_map.
rewrite (dot_sym su sm) (dot_sym sv sm) (dot_scale _ su su) (dot_scale _ su sv).
have hd : vdot id u u != 0 by rewrite dot_eq0.
rewrite mulf_eq0 invr_eq0 (gt_eqF hl) (negbTE hd) /=; congr (Some (vscalel _ _)).
rewrite (dot_sym su sv).
move: (vdot id v u) (vdot id u u) hd (vlength u) hl => x y hy l hl.
by field; rewrite hy gt_eqF.
Qed.

Lemma gs_proj_zero u v : size u = n -> size v = n -> all (fun x => x == 0) u -> gs_proj u v = None.
Proof.
move=> su sv h; rewrite /gs_proj /sdiv.
case: (posnP n) => n0; first have hz (t : seq R) : vdot id [::] t = 0 by rewrite /vdot /vmul /vmap2; case: (vmap id t).
  by rewrite (size0nil (etrans su n0)) hz eqxx.
have sm : size (normalize_precise u) = n by rewrite size_normalize_precise su.
rewrite (@vdot_idE _ n u) // big1 ?eqxx // => i _.
by rewrite (eqP (all_nthP 0 h i _)) ?mul0r ?su.
Qed.

Definition good prev :=
  [/\ all (fun u => size u == n) prev,
      pairwise (fun u v => vdot id u v == 0) prev &
      all (fun u => ~~ all (fun x => x == 0) u) prev].

Lemma gs_inner_spec prev v done :
  good (done ++ prev) -> size v = n -> all (fun u => vdot id u v == 0) done ->
  exists2 w, gs_inner prev v = Some w
    & [/\ size w = n, all (fun u => vdot id u w == 0) (done ++ prev) &
          rv w - rv v \in <<[seq rv u | u <- prev]>>%VS].
Proof.
elim: prev v done => [|u prev IH] v done gd sv hd /=.
  by exists v => //; split; rewrite ?cats0 // subrr mem0v.
have [/allP gs gp /allP gn] := gd.
have su : size u = n by apply/eqP/gs; rewrite mem_cat mem_head orbT.
have nu : ~~ all (fun x => x == 0) u by apply: gn; rewrite mem_cat mem_head orbT.
rewrite gs_projE //.
have ss c : size (vscalel c u) = n by rewrite size_map.
set c := _ / _; set v' := vsub v (vscalel c u).
have sv' : size v' = n by rewrite /v' (size_vsub sv (ss c)).
have gd' : good (rcons done u ++ prev) by rewrite cat_rcons.
have duu : vdot id u u != 0 by rewrite dot_eq0.
case: (IH v' (rcons done u) gd' sv').
  apply/allP => x; rewrite mem_rcons inE => hx.
  have sx : size x = n.
    by case/orP: hx => [/eqP -> //|hx]; apply/eqP/gs; rewrite mem_cat hx.
  rewrite (dot_sym sx sv') (dot_subl sv (ss c) sx) (dot_scalel _ su sx).
  case/orP: hx => [/eqP ->|hx]; first by rewrite /c mulfVK ?subrr.
  rewrite (dot_sym sv sx) (eqP (allP hd x hx)) sub0r oppr_eq0 mulf_eq0; apply/orP; right.
  rewrite (dot_sym su sx); move: gp; rewrite pairwise_cat => /and3P [/allrelP h _ _].
  by apply: h => //; exact: mem_head.
move=> w -> [sw hw hs]; exists w => //; split=> //; first by rewrite -cat_rcons.
rewrite span_cons.
have -> : rv w - rv v = - c *: rv u + (rv w - rv v').
  by rewrite /v' (rv_sub sv (ss c)) rv_scalel scaleNr opprB [RHS]addrCA addKr.
apply: memv_add => //; exact: rpredZ (memv_line _).
Qed.

Lemma good_rcons prev w : good prev -> size w = n -> all (fun u => vdot id u w == 0) prev ->
  ~~ all (fun x => x == 0) w -> good (rcons prev w).
Proof.
move=> [g1 g2 g3] sw h hn; split; rewrite -cats1 ?all_cat ?g1 ?g3 /= ?sw ?eqxx ?hn //.
by rewrite pairwise_cat g2 /= !andbT; apply/allrelP => x y hx; rewrite inE => /eqP ->; apply: (allP h).
Qed.

(* For every list of inputs processed after [done] (whose span is that of the inputs [vs0]) *)
Lemma gs_outer_spec vs done vs0 :
  good done -> size done = size vs0 -> (forall k, <<[seq rv u | u <- take k done]>> = <<[seq rv v | v <- take k vs0]>>)%VS ->
  all (fun v => size v == n) vs -> free [seq rv v | v <- vs0 ++ vs] ->
  exists2 us, gs_outer done vs = Some us
   & [/\ good us, size us = size (vs0 ++ vs) &
         forall k, (<<[seq rv u | u <- take k us]>> = <<[seq rv v | v <- take k (vs0 ++ vs)]>>)%VS].
Proof.
elim: vs done vs0 => [|v vs IH] done vs0 gd sz hs hsz hf /=.
  by exists done => //; rewrite cats0.
move: hsz => /= /andP [/eqP sv hsz].
have gd' : good ([::] ++ done) by [].
have [w -> [sw hw hsp]] := gs_inner_spec gd' sv isT.
have hall : (<<[seq rv u | u <- done]>> = <<[seq rv v | v <- vs0]>>)%VS.
  by have := hs (size vs0); rewrite take_size -sz take_size.
have nw : ~~ all (fun x => x == 0) w.
  apply/negP; rewrite -(rv_eq0 sw) => /eqP w0.
  move: hsp; rewrite w0 sub0r rpredN hall.
  have : free (rv v :: [seq rv v | v <- vs0]).
    move: hf; rewrite map_cat /= => hf.
    have := hf; rewrite -cat_rcons => /catl_free.
    by rewrite (perm_free (Y := rv v :: [seq rv v | v <- vs0])) // perm_rcons.
  by rewrite free_cons => /andP [/negbTE ->].
have := IH (rcons done w) (rcons vs0 v).
rewrite cat_rcons; apply=> //; first exact: good_rcons.
- by rewrite !size_rcons sz.
move=> k; case: (leqP k (size done)) => hk.
  by rewrite -!cats1 !takel_cat // -?sz.
rewrite !take_oversize ?size_rcons -?sz // !map_rcons -!cats1 !span_cat !span_seq1 hall.
apply/eqP; rewrite eqEsubv; apply/andP; split; rewrite subv_add addvSl /=.
  rewrite -memvE -[rv w](subrK (rv v)); apply: memv_add; last exact: memv_line.
  by rewrite -hall.
rewrite -memvE -[rv v](subrK (rv w)); apply: memv_add; last exact: memv_line.
by rewrite -opprB rpredN -hall.
Qed.

Lemma gs_spec vs : all (fun v => size v == n) vs -> free [seq rv v | v <- vs] ->
  exists2 us, gram_schmidt vs = Some us
   & [/\ good us, size us = size vs &
         forall k, (<<[seq rv u | u <- take k us]>> = <<[seq rv v | v <- take k vs]>>)%VS].
Proof. by move=> h1 h2; apply: (@gs_outer_spec vs [::] [::]). Qed.

Lemma dot_rv u v : size u = n -> size v = n -> vdot id u v = (rv u *m (rv v)^T) 0 0.
Proof. by move=> su sv; rewrite (@vdot_idE _ n) // mxE; apply: eq_bigr => i _; rewrite !mxE. Qed.

Lemma span_ortho_zero prev w : all (fun u => size u == n) prev -> size w = n ->
  all (fun u => vdot id u w == 0) prev -> rv w \in <<[seq rv u | u <- prev]>>%VS ->
  all (fun x => x == 0) w.
Proof.
move=> hs sw ho hin; have hc := @coord_span _ _ _ (in_tuple [seq rv u | u <- prev]) _ hin; rewrite -dot_eq0 (dot_rv sw sw) {1}hc mulmx_suml summxE.
rewrite big1 // => i _; have hi : (i < size prev)%N by have := ltn_ord i; rewrite [X in (i < X)%N -> _]size_map.
rewrite (nth_map [::]) // -scalemxAl mxE -dot_rv //.
  by rewrite (eqP (all_nthP [::] ho i hi)) mulr0.
exact: (eqP (all_nthP [::] hs i hi)).
Qed.

Lemma gs_inner_zero prev v : all (fun u => size u == n) prev -> size v = n ->
  has (fun u => all (fun x => x == 0) u) prev -> gs_inner prev v = None.
Proof.
elim: prev v => // u prev IH v /= /andP [/eqP su hs] sv.
case: (boolP (all _ u)) => hu /=; first by rewrite gs_proj_zero.
by move=> hz; rewrite gs_projE // IH // (@size_vsub _ n) // size_map.
Qed.

Lemma free_rcons (X : seq 'rV[R]_n) x : free (rcons X x) = (x \notin <<X>>%VS) && free X.
Proof. by rewrite (perm_free (Y := x :: X)) ?perm_rcons // free_cons. Qed.

Lemma gs_outer_safe vs done vs0 :
  good done -> (<<[seq rv u | u <- done]>> = <<[seq rv v | v <- vs0]>>)%VS ->
  all (fun v => size v == n) vs -> free [seq rv v | v <- vs0] ->
  isSome (gs_outer done vs) = free [seq rv v | v <- vs0 ++ take (size vs).-1 vs].
Proof.
elim: vs done vs0 => [|v vs IH] done vs0 gd hall hsz hf /=; first by rewrite cats0.
move: hsz => /= /andP [/eqP sv hsz].
have gd' : good ([::] ++ done) by [].
have [w -> [sw hw hsp]] := gs_inner_spec gd' sv isT.
case: (vs =P [::]) => [->|/eqP vs0n]; first by rewrite /= cats0.
have -> : vs0 ++ take (size vs) (v :: vs) = rcons vs0 v ++ take (size vs).-1 vs.
  by rewrite cat_rcons; case: (vs) vs0n.
case: (boolP (rv v \in <<[seq rv v | v <- vs0]>>%VS)) => hin.
  have hw0 : all (fun x => x == 0) w.
    apply: (@span_ortho_zero done) => //; first by case: gd.
    by rewrite -[rv w](subrK (rv v)) rpredD // hall.
  have -> : free [seq rv u | u <- rcons vs0 v ++ take (size vs).-1 vs] = false.
    apply/negP; rewrite map_cat => /catl_free; by rewrite map_rcons free_rcons hin.
  case: (vs) vs0n hsz => // v' vs' _ /= /andP [/eqP sv' _].
  rewrite gs_inner_zero // -?cats1 ?all_cat ?has_cat /= ?hw0 ?orbT //.
  by have [-> _ _] := gd; rewrite sw eqxx.
have nw : ~~ all (fun x => x == 0) w.
  apply/negP; rewrite -(rv_eq0 sw) => /eqP w0.
  by move: hsp; rewrite w0 sub0r rpredN hall; apply/negP.
apply: IH => //; first exact: good_rcons.
  rewrite !map_rcons -!cats1 !span_cat !span_seq1 hall.
  apply/eqP; rewrite eqEsubv; apply/andP; split; rewrite subv_add addvSl /=.
    rewrite -memvE -[rv w](subrK (rv v)); apply: memv_add; last exact: memv_line.
    by rewrite -hall.
  rewrite -memvE -[rv v](subrK (rv w)); apply: memv_add; last exact: memv_line.
  by rewrite -opprB rpredN -hall.
by rewrite map_rcons free_rcons hin.
Qed.

Lemma gs_safe vs : all (fun v => size v == n) vs ->
  isSome (gram_schmidt vs) = free [seq rv v | v <- take (size vs).-1 vs].
Proof. by move=> h; rewrite /gram_schmidt (@gs_outer_safe vs [::] [::]) // /free /= span_nil dimv0. Qed.
End GramSchmidt.

Section InPlace.
Variable R : rcfType.
Lemma gs_in_placeE (done vs : seq (seq R)) :
  gs_in_place (size vs) (size done) (done ++ vs) = gs_outer done vs.
Proof.
elim: vs done => [|v vs IH] done /=; first by rewrite cats0.
rewrite take_size_cat // nth_cat ltnn subnn /=.
case: (gs_inner done v) => // w.
rewrite -IH size_rcons; congr gs_in_place.
by rewrite cat_rcons; elim: (done) => //= x d ->.
Qed.
End InPlace.
