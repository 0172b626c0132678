(* Properties C58, C59: orthographic and perspective projections *)
From Coq Require Import Reals.
From mathcomp Require Import all_ssreflect all_algebra.
From mathcomp Require Import ring.
From Verif Require Import M_Vec M_Mat M_Quat M_Transform Spec RealStruct P_Vec P_Mat P_Transform P_Rot2 P_Proj.
Set Implicit Arguments. Unset Strict Implicit. Unset Printing Implicit Defensive.
Import Order.Theory GRing.Theory Num.Theory.
Local Open Scope ring_scope.

(** * C58 Orthographic projection *)
(* d-dimensional box between lo and hi; every target matrix shape the builder converts to *)
Theorem C58_image (F : fieldType) (follow rm : bool) (jk : F) (r c : nat) (lo hi p : seq F) (pn pf : F) :
  2%:R != 0 :> F -> shape follow (size lo) r c -> frows follow r c = (size lo).+1 ->
  (0 < size lo)%N -> size hi = size lo -> size p = size lo ->
  (forall j, (j < size lo)%N -> nth 0 lo j != nth 0 hi j) ->
  exists m q, [/\ orthographic follow rm jk r c lo hi pn pf = Some m,
    transform follow (size lo) r c m p = Some q, size q = size lo,
    forall j, (j < (size lo).-1)%N -> nth 0 q j = 2%:R * ((nth 0 p j - nth 0 lo j) / (nth 0 hi j - nth 0 lo j)) - 1 &
    nth 0 q (size lo).-1 = pn + (pf - pn) * ((nth 0 p (size lo).-1 - nth 0 lo (size lo).-1) /
                                             (nth 0 hi (size lo).-1 - nth 0 lo (size lo).-1))].
Proof.
move=> n2 hs ea d0 eh ep hne.
have := orthographic_affine rm jk pn pf hs ea d0 eh n2; case: ifP => [_|/negP []]; last first.
  by apply/allP => j; rewrite mem_iota => /andP [_ /hne].
case=> m e h; exists m; eexists; split; [exact: e|exact: (affine_full h)|by rewrite size_mkseq| |].
  move=> j hj; have hj' : (j < size lo)%N by rewrite (leq_trans hj) // leq_pred.
  rewrite nth_mkseq // (bigD1 (Ordinal hj')) //= eqxx big1 ?addr0; last first.
    by move=> l; rewrite -val_eqE /= => /negbTE ->; rewrite mulr0.
  have := hne _ hj'; rewrite /ortho_offset /ortho_scale (ltn_eqF hj) -subr_eq0 -[X in X != 0]opprB oppr_eq0.
  by move: (nth 0 p j) (nth 0 lo j) (nth 0 hi j) => x a b h0; field; rewrite n2 h0.
have hj' : ((size lo).-1 < size lo)%N by rewrite prednK.
rewrite nth_mkseq // (bigD1 (Ordinal hj')) //= eqxx big1 ?addr0; last first.
  by move=> l; rewrite -val_eqE /= => /negbTE ->; rewrite mulr0.
have := hne _ hj'; rewrite /ortho_offset /ortho_scale eqxx -subr_eq0 -[X in X != 0]opprB oppr_eq0.
by move: (nth 0 p _) (nth 0 lo _) (nth 0 hi _) => x a b h0; field; rewrite n2 h0.
Qed.
Print Assumptions C58_image.

(* the corners, and a point in the box exactly when its image is in the projected box *)
Theorem C58_corners (F : fieldType) (follow rm : bool) (jk : F) (r c : nat) (lo hi : seq F) (pn pf : F) :
  2%:R != 0 :> F -> shape follow (size lo) r c -> frows follow r c = (size lo).+1 ->
  (0 < size lo)%N -> size hi = size lo ->
  (forall j, (j < size lo)%N -> nth 0 lo j != nth 0 hi j) ->
  exists2 m, orthographic follow rm jk r c lo hi pn pf = Some m &
    transform follow (size lo) r c m lo = Some (rcons (nseq (size lo).-1 (-1)) pn) /\
    transform follow (size lo) r c m hi = Some (rcons (nseq (size lo).-1 1) pf).
Proof.
move=> n2 hs ea d0 eh hne.
have sz x y : size (rcons (nseq (size lo).-1 x) y : seq F) = size lo by rewrite size_rcons size_nseq prednK.
have [m [q [e e1 s1 h1 l1]]] := C58_image rm jk pn pf n2 hs ea d0 eh (erefl _) hne.
have [m' [q' [e' e2 s2 h2 l2]]] := C58_image rm jk pn pf n2 hs ea d0 eh eh hne.
move: e'; rewrite e => -[em]; subst m'; exists m => //; rewrite e1 e2; split; congr Some;
  apply: (@eq_from_nth _ 0); rewrite ?sz // ?s1 ?s2 => j hj; rewrite nth_rcons size_nseq nth_nseq.
  case: ltnP => hj'; first by rewrite h1 // subrr mul0r mulr0 sub0r.
  have -> : j = (size lo).-1 by apply/eqP; rewrite eqn_leq hj' andbT -ltnS prednK.
  by rewrite l1 eqxx subrr mul0r mulr0 addr0.
have dv i : (i < size lo)%N -> (nth 0 hi i - nth 0 lo i) / (nth 0 hi i - nth 0 lo i) = 1.
  by move=> /hne; rewrite eq_sym => hi'; rewrite divff // subr_eq0.
case: ltnP => hj'; first by rewrite h2 // dv // mulr1 mulr2n addrK.
have -> : j = (size lo).-1 by apply/eqP; rewrite eqn_leq hj' andbT -ltnS prednK.
by rewrite l2 eqxx dv ?prednK // mulr1 addrC subrK.
Qed.
Print Assumptions C58_corners.

Theorem C58_box (F : realFieldType) (follow rm : bool) (jk : F) (r c : nat) (lo hi p : seq F) (pn pf : F) :
  shape follow (size lo) r c -> frows follow r c = (size lo).+1 ->
  (0 < size lo)%N -> size hi = size lo -> size p = size lo -> pn < pf ->
  (forall j, (j < size lo)%N -> nth 0 lo j < nth 0 hi j) ->
  exists m q, [/\ orthographic follow rm jk r c lo hi pn pf = Some m,
    transform follow (size lo) r c m p = Some q,
    forall j, (j < (size lo).-1)%N -> (-1 <= nth 0 q j <= 1) = (nth 0 lo j <= nth 0 p j <= nth 0 hi j) &
    (pn <= nth 0 q (size lo).-1 <= pf) =
    (nth 0 lo (size lo).-1 <= nth 0 p (size lo).-1 <= nth 0 hi (size lo).-1)].
Proof.
move=> hs ea d0 eh ep hp hlt; have n2 : 2%:R != 0 :> F by rewrite pnatr_eq0.
have hne j : (j < size lo)%N -> nth 0 lo j != nth 0 hi j by move=> /hlt; rewrite lt_neqAle => /andP [].
have [m [q [e e1 s1 h1 l1]]] := C58_image rm jk pn pf n2 hs ea d0 eh ep hne.
have E (a b x : F) : a < b -> (a <= x <= b) = (0 <= (x - a) / (b - a) <= 1).
  move=> ab; have ba : 0 < b - a by rewrite subr_gt0.
  by rewrite pmulr_lge0 ?invr_gt0 // subr_ge0 ler_pdivr_mulr // mul1r ler_add2r.
exists m, q; split=> //.
  move=> j hj; rewrite h1 // (E (nth 0 lo j)); last by apply: hlt; rewrite (leq_trans hj) // leq_pred.
  rewrite ler_subr_addr addrC subrr ler_subl_addr -mulr2n pmulr_rge0 ?ltr0n //.
  by rewrite -[X in _ * _ <= X]mulr1 ler_pmul2l ?ltr0n.
rewrite l1 (E (nth 0 lo _)); last by apply: hlt; rewrite prednK.
rewrite -[X in X <= _]addr0 ler_add2l pmulr_rge0 ?subr_gt0 //; congr (_ && _).
by rewrite addrC -ler_subr_addr -[X in _ <= X]mulr1 ler_pmul2l // subr_gt0.
Qed.
Print Assumptions C58_box.

(* a box with an empty extent divides by zero *)
Theorem C58_flat (F : fieldType) (follow rm : bool) (jk : F) (r c : nat) (lo hi : seq F) (pn pf : F) (j : nat) :
  size hi = size lo -> (j < size lo)%N -> nth 0 lo j = nth 0 hi j ->
  orthographic follow rm jk r c lo hi pn pf = None.
Proof.
move=> e hj h; rewrite /orthographic /sdivv mem0_sub // ifT //.
by apply/allPn; exists j; rewrite ?mem_iota // h eqxx.
Qed.
Print Assumptions C58_flat.

Example C58_example :
  obind (fun m => transform true 3 4 4 m [:: 3%:Q; 5%:Q; 12%:Q])
    (orthographic true false 0 4 4 [:: 1; 2%:Q; 10%:Q] [:: 5%:Q; 6%:Q; 14%:Q] 0 1) = Some [:: 0; 1 / 2%:Q; 1 / 2%:Q].
Proof. by apply/eqP; vm_compute. Qed.

(** * C59 Perspective projection *)
Arguments tan : clear scopes.
Arguments PI : clear scopes.
(* the slope of the side planes of the first axis, half the field of view away from the last axis *)
Definition half_width (fov : R) : R := tan (`|fov| / 2%:R).
(* near and far plane on the same side, the near plane closer *)
Definition planes (N Fa : R) : bool := (0 < N < Fa) || (Fa < N < 0).


Lemma half_width_gt0 (fov : R) : 0 < `|fov| < PI -> 0 < half_width fov.
Proof.
move=> /andP [h1 h2]; rewrite /half_width; apply/RltE; apply: tan_gt_0.
  by apply/RltE; apply: divr_gt0 => //; rewrite ltr0n.
have -> : Rdiv PI 2 = (PI : R) / 2%:R.
  by rewrite /Rdiv RmultE RinvE //; apply/eqP; rewrite (pnatr_eq0 R_numDomainType 2).
apply/RltE; by rewrite ltr_pmul2r // invr_gt0 ltr0n.
Qed.
Lemma planes_ne (N Fa : R) : planes N Fa -> [/\ N != 0, Fa != 0, Fa - N != 0 & 0 < N * Fa].
Proof.
case/orP=> /andP [h1 h2].
  have h := lt_trans h1 h2; split; [exact: lt0r_neq0|exact: lt0r_neq0|by rewrite subr_eq0 gt_eqF|exact: mulr_gt0].
have h := lt_trans h1 h2; split; [exact: ltr0_neq0|exact: ltr0_neq0|by rewrite subr_eq0 lt_eqF|].
by rewrite nmulr_rgt0.
Qed.
Lemma same_side (N z : R) : 0 < N * z -> (if N < 0 then -1 else 1) * z = `|z|.
Proof.
move=> h; case: ltP => hN.
  by have hz : z < 0 by [rewrite nmulr_rgt0 in h]; rewrite mulN1r ltr0_norm.
have N0 : 0 < N by rewrite lt_neqAle hN andbT; apply/eqP => e; rewrite -e mul0r ltxx in h.
by rewrite pmulr_rgt0 // in h; rewrite mul1r gtr0_norm.
Qed.

(* the image of a point on the side of the planes: the first coordinates are measured by the size of the frustum at
   that depth, the last one is the hyperbolic depth *)
Theorem C59_image (follow rm : bool) (jk fov : R) (ratios p : seq R) (N Fa n f : R) :
  0 < `|fov| < PI -> (0 < size ratios)%N -> all (fun x => x != 0) ratios -> planes N Fa ->
  size p = (size ratios).+1 -> 0 < N * nth 0 p (size ratios) ->
  let z := nth 0 p (size ratios) in
  exists m q, [/\ perspective tan follow rm jk fov ratios N Fa n f = Some m,
    transform follow (size ratios).+1 (size ratios).+2 (size ratios).+2 m p = Some q, size q = (size ratios).+1,
    forall j, (j < size ratios)%N ->
      nth 0 q j = nth 0 p j / (`|z| * half_width fov * (nth 0 ratios j / nth 0 ratios 0)) &
    nth 0 q (size ratios) = (Fa * f - N * n) / (Fa - N) - Fa * N * (f - n) / ((Fa - N) * z)].
Proof.
move=> hf r0 hall hpl sp hz z; have [hN hF hFN _] := planes_ne hpl.
have hw := half_width_gt0 hf; have hwe : tan (2%:R^-1 * `|fov|) = half_width fov by rewrite mulrC.
have w0 : tan (2%:R^-1 * `|fov|) != 0 by rewrite hwe; apply: lt0r_neq0.
have hFN' : Fa != N by rewrite -subr_eq0.
have [m e h] := perspectiveP follow rm jk n f hFN' r0 hall w0.
have z0 : z != 0 by apply/eqP => z0; rewrite -/z z0 mulr0 ltxx in hz.
exists m; eexists; split; first exact: e.
- by have := h p sp; rewrite /= -/z (negbTE z0); apply.
- by rewrite size_mkseq.
- move=> j hj; rewrite nth_mkseq ?(leqW hj) //= hj hwe (same_side hz).
  have hr : nth 0 ratios j != 0 by have /allP := hall; apply; apply: mem_nth.
  have hr0 : nth 0 ratios 0 != 0 by have /allP := hall; apply; apply: mem_nth.
  have hz' : `|z| != 0 by rewrite normr_eq0.
  move: (half_width fov) (lt0r_neq0 hw) (nth 0 ratios j) hr (nth 0 ratios 0) hr0 (nth 0 p j) `|z| hz' => w1 h1 a h2 b h3 x y h4.
  by field; rewrite h1 h2 h3 h4.
rewrite nth_mkseq //= ltnn -/z; set C := (if _ then _ else _).
have C0 : C != 0 by rewrite /C; case: ifP => _; rewrite ?oppr_eq0 oner_eq0.
by move: C C0 {e} => C C0; field; rewrite C0 hFN z0.
Qed.
Print Assumptions C59_image.

Theorem C59_near_far (follow rm : bool) (jk fov : R) (ratios p : seq R) (N Fa n f : R) :
  0 < `|fov| < PI -> (0 < size ratios)%N -> all (fun x => x != 0) ratios -> planes N Fa ->
  size p = (size ratios).+1 ->
  exists2 m, perspective tan follow rm jk fov ratios N Fa n f = Some m &
    (nth 0 p (size ratios) = N -> exists2 q,
       transform follow (size ratios).+1 (size ratios).+2 (size ratios).+2 m p = Some q & nth 0 q (size ratios) = n) /\
    (nth 0 p (size ratios) = Fa -> exists2 q,
       transform follow (size ratios).+1 (size ratios).+2 (size ratios).+2 m p = Some q & nth 0 q (size ratios) = f).
Proof.
move=> hf r0 hall hpl sp; have [hN hF hFN hNF] := planes_ne hpl.
have hwe : tan (2%:R^-1 * `|fov|) = half_width fov by rewrite mulrC.
have w0 : tan (2%:R^-1 * `|fov|) != 0 by rewrite hwe; apply: lt0r_neq0; apply: half_width_gt0.
have hFN' : Fa != N by rewrite -subr_eq0.
have [m e _] := perspectiveP follow rm jk n f hFN' r0 hall w0.
exists m => //; split=> hz.
- have hs : 0 < N * nth 0 p (size ratios) by rewrite hz -expr2 exprn_even_gt0.
  have [m' [q [e' eq _ _ d]]] := C59_image follow rm jk n f hf r0 hall hpl sp hs.
  move: e'; rewrite e => -[em]; subst m'; exists q => //; rewrite d hz; by field; rewrite hN hFN.
- have hs : 0 < N * nth 0 p (size ratios) by rewrite hz.
  have [m' [q [e' eq _ _ d]]] := C59_image follow rm jk n f hf r0 hall hpl sp hs.
  move: e'; rewrite e => -[em]; subst m'; exists q => //; rewrite d hz; by field; rewrite hF hFN.
Qed.
Print Assumptions C59_near_far.

(* farther points get the depth value nearer to the one of the far plane *)
Theorem C59_depth_order (follow rm : bool) (jk fov : R) (ratios p1 p2 : seq R) (N Fa n f : R) :
  0 < `|fov| < PI -> (0 < size ratios)%N -> all (fun x => x != 0) ratios -> planes N Fa ->
  size p1 = (size ratios).+1 -> size p2 = (size ratios).+1 ->
  0 < N * nth 0 p1 (size ratios) -> 0 < N * nth 0 p2 (size ratios) ->
  exists m q1 q2, [/\ perspective tan follow rm jk fov ratios N Fa n f = Some m,
    transform follow (size ratios).+1 (size ratios).+2 (size ratios).+2 m p1 = Some q1,
    transform follow (size ratios).+1 (size ratios).+2 (size ratios).+2 m p2 = Some q2,
    n < f -> (nth 0 q1 (size ratios) < nth 0 q2 (size ratios)) = (`|nth 0 p1 (size ratios)| < `|nth 0 p2 (size ratios)|) &
    f < n -> (nth 0 q2 (size ratios) < nth 0 q1 (size ratios)) = (`|nth 0 p1 (size ratios)| < `|nth 0 p2 (size ratios)|)].
Proof.
move=> hf r0 hall hpl s1 s2 hz1 hz2; have [hN hF hFN hNF] := planes_ne hpl.
have [m [q1 [e e1 _ _ d1]]] := C59_image follow rm jk n f hf r0 hall hpl s1 hz1.
have [m' [q2 [e' e2 _ _ d2]]] := C59_image follow rm jk n f hf r0 hall hpl s2 hz2.
move: e'; rewrite e => -[em]; subst m'; exists m, q1, q2; rewrite d1 d2.
move: (nth 0 p1 _) (nth 0 p2 _) hz1 hz2 => z1 z2 h1 h2.
have z10 : z1 != 0 by apply/eqP => z0; rewrite z0 mulr0 ltxx in h1.
have z20 : z2 != 0 by apply/eqP => z0; rewrite z0 mulr0 ltxx in h2.
pose C : R := if N < 0 then -1 else 1.
have CC : C * C = 1 by rewrite /C; case: ifP => _; rewrite ?mulrNN mulr1.
have CN : 0 < C * N by rewrite (same_side (_ : 0 < N * N)) ?normr_gt0 // -expr2 exprn_even_gt0.
have C1 : 0 < C * z1 by rewrite same_side // normr_gt0.
have C2 : 0 < C * z2 by rewrite same_side // normr_gt0.
have CD : 0 < C * (Fa - N).
  rewrite /C; case/orP: hpl => /andP [a1 a2]; first by rewrite [N < 0]ltNge (ltW a1) /= mul1r subr_gt0.
  by rewrite a2 mulN1r oppr_gt0 subr_lt0.
have K : 0 < Fa * N / (C * (Fa - N) * (C * z1) * (C * z2)).
  by rewrite [Fa * N]mulrC; apply: divr_gt0 => //; apply: mulr_gt0 => //; apply: mulr_gt0.
have D : ((Fa * f - N * n) / (Fa - N) - Fa * N * (f - n) / ((Fa - N) * z2)) -
         ((Fa * f - N * n) / (Fa - N) - Fa * N * (f - n) / ((Fa - N) * z1)) =
         Fa * N / (C * (Fa - N) * (C * z1) * (C * z2)) * ((f - n) * (C * z2 - C * z1)).
  have C0 : C != 0 by apply/eqP => C0; move: CC; rewrite C0 mul0r => /eqP; rewrite eq_sym oner_eq0.
  transitivity (Fa * N / ((Fa - N) * z1 * z2) * ((f - n) * (z2 - z1)) / (C * C)).
    by rewrite CC divr1; field; rewrite z10 z20 hFN.
  by move: C0; generalize C => C' C0; field; rewrite C0 z10 z20 hFN.
rewrite -(same_side h1) -(same_side h2) -/C; split=> //.
  by move=> hnf; rewrite -subr_gt0 D pmulr_rgt0 // pmulr_rgt0 ?subr_gt0.
by move=> hnf; rewrite -subr_lt0 D pmulr_rlt0 // nmulr_rlt0 ?subr_lt0 ?subr_gt0.
Qed.
Print Assumptions C59_depth_order.

(* the cross-section of the frustum at depth z reaches |z| tan(fov/2) on the first axis, and on the others in
   proportion to the ratios: it is mapped to [-1, 1], and a fraction s of it to s. *)
Theorem C59_sides (follow rm : bool) (jk fov : R) (ratios p : seq R) (N Fa n f s : R) (j : nat) :
  0 < `|fov| < PI -> (0 < size ratios)%N -> all (fun x => x != 0) ratios -> planes N Fa ->
  size p = (size ratios).+1 -> 0 < N * nth 0 p (size ratios) -> (j < size ratios)%N ->
  let z := nth 0 p (size ratios) in
  exists m q, [/\ perspective tan follow rm jk fov ratios N Fa n f = Some m,
    transform follow (size ratios).+1 (size ratios).+2 (size ratios).+2 m p = Some q &
    nth 0 q j = s <-> nth 0 p j = s * (`|z| * half_width fov) * (nth 0 ratios j / nth 0 ratios 0)].
Proof.
move=> hf r0 hall hpl sp hz hj z.
have [m [q [e e1 _ h _]]] := C59_image follow rm jk n f hf r0 hall hpl sp hz.
exists m, q; split=> //; rewrite h // -/z.
have hr : nth 0 ratios j != 0 by have /allP := hall; apply; apply: mem_nth.
have hr0 : nth 0 ratios 0 != 0 by have /allP := hall; apply; apply: mem_nth.
have hz' : `|z| != 0 by rewrite normr_eq0; apply/eqP => z0; rewrite -/z z0 mulr0 ltxx in hz.
have hw := lt0r_neq0 (half_width_gt0 hf).
move: (half_width fov) hw `|z| hz' (nth 0 p j) => w1 hw y hz' x.
have k0 : y * w1 * (nth 0 ratios j / nth 0 ratios 0) != 0.
  by rewrite !mulf_neq0 // invr_neq0.
have -> : s * (y * w1) * (nth 0 ratios j / nth 0 ratios 0) = s * (y * w1 * (nth 0 ratios j / nth 0 ratios 0)) by exact/esym/mulrA.
by split=> [<-|->]; [rewrite mulfVK|rewrite mulfK].
Qed.
Print Assumptions C59_sides.

(* negating the ratio of an axis other than the first mirrors the image on that axis and nothing else *)
Theorem C59_mirror_partial (follow rm : bool) (jk fov : R) (ratios p : seq R) (N Fa n f : R) (i : nat) :
  0 < `|fov| < PI -> (0 < i < size ratios)%N -> all (fun x => x != 0) ratios -> planes N Fa ->
  size p = (size ratios).+1 -> 0 < N * nth 0 p (size ratios) ->
  let d := (size ratios).+1 in
  exists m m' q, [/\ perspective tan follow rm jk fov ratios N Fa n f = Some m,
    perspective tan follow rm jk fov (set_nth 0 ratios i (- nth 0 ratios i)) N Fa n f = Some m',
    transform follow d d.+1 d.+1 m p = Some q &
    transform follow d d.+1 d.+1 m' p = Some (set_nth 0 q i (- nth 0 q i))].
Proof.
move=> hf /andP [i0 hi] hall hpl sp hz d; have r0 := ltn_trans i0 hi.
set ratios' := set_nth 0 ratios i _.
have sr : size ratios' = size ratios by rewrite size_set_nth; apply/maxn_idPr.
have hall' : all (fun x => x != 0) ratios'.
  apply/(all_nthP 0) => j; rewrite sr => hj; rewrite nth_set_nth /=.
  by case: ifP => _; rewrite ?oppr_eq0; have /allP := hall; apply; apply: mem_nth.
have [m [q [e e1 sq h hd]]] := C59_image follow rm jk n f hf r0 hall hpl sp hz.
have r0' : (0 < size ratios')%N by rewrite sr.
have sp' : size p = (size ratios').+1 by rewrite sr.
have hz' : 0 < N * nth 0 p (size ratios') by rewrite sr.
have [m' [q' [e' e1' sq' h' hd']]] := C59_image follow rm jk n f hf r0' hall' hpl sp' hz'.
exists m, m', q; split=> //; move: e1' sq' h' hd'; rewrite sr /d => -> sq' h' hd'; congr Some.
apply: (@eq_from_nth _ 0); first by rewrite sq' size_set_nth sq; apply/esym/maxn_idPr; rewrite leqW.
move=> j; rewrite sq' ltnS leq_eqVlt nth_set_nth /= => /orP [/eqP ->|hj].
  by rewrite (gtn_eqF hi) hd hd'.
rewrite h' // !nth_set_nth /= (ltn_eqF i0); case: (j =P i) => [->|_]; last by rewrite h.
by rewrite h // mulNr mulrN invrN mulrN.
Qed.
Print Assumptions C59_mirror_partial.

(* ... but negating the first ratio mirrors every other axis and leaves the first one alone, although the
   documentation says that negative ratios invert the image on the axis which has the negative value *)
Theorem C59_mirror_first (follow rm : bool) (jk fov : R) (ratios p : seq R) (N Fa n f : R) :
  0 < `|fov| < PI -> (0 < size ratios)%N -> all (fun x => x != 0) ratios -> planes N Fa ->
  size p = (size ratios).+1 -> 0 < N * nth 0 p (size ratios) ->
  let d := (size ratios).+1 in
  exists m m' q q', [/\ perspective tan follow rm jk fov ratios N Fa n f = Some m,
    perspective tan follow rm jk fov (set_nth 0 ratios 0 (- nth 0 ratios 0)) N Fa n f = Some m',
    transform follow d d.+1 d.+1 m p = Some q, transform follow d d.+1 d.+1 m' p = Some q' &
    [/\ nth 0 q' 0 = nth 0 q 0, nth 0 q' (size ratios) = nth 0 q (size ratios) &
        forall j, (0 < j < size ratios)%N -> nth 0 q' j = - nth 0 q j]].
Proof.
move=> hf r0 hall hpl sp hz d.
set ratios' := set_nth 0 ratios 0 _.
have sr : size ratios' = size ratios by rewrite size_set_nth; apply/maxn_idPr.
have hall' : all (fun x => x != 0) ratios'.
  apply/(all_nthP 0) => j; rewrite sr => hj; rewrite nth_set_nth /=.
  by case: ifP => _; rewrite ?oppr_eq0; have /allP := hall; apply; apply: mem_nth.
have [m [q [e e1 sq h hd]]] := C59_image follow rm jk n f hf r0 hall hpl sp hz.
have r0' : (0 < size ratios')%N by rewrite sr.
have sp' : size p = (size ratios').+1 by rewrite sr.
have hz' : 0 < N * nth 0 p (size ratios') by rewrite sr.
have [m' [q' [e' e1' sq' h' hd']]] := C59_image follow rm jk n f hf r0' hall' hpl sp' hz'.
exists m, m', q, q'; split=> //; move: e1' sq' h' hd'; rewrite sr /d // => e1' sq' h' hd'; split; last 1 first.
- by move=> j /andP [j0 hj]; rewrite h // h' // !nth_set_nth /= (gtn_eqF j0) invrN !mulrN invrN mulrN.
- have hr0 : nth 0 ratios 0 != 0 by have /allP := hall; apply; apply: mem_nth.
  by rewrite h // h' // !nth_set_nth /= !divff // oppr_eq0.
by rewrite hd hd'.
Qed.
Print Assumptions C59_mirror_first.

Lemma fov1 : 0 < `|1 : R| < PI.
Proof.
rewrite normr1 ltr01 /=; apply/RltE; apply: (Rlt_trans _ (PI / 2)); last exact: PI2_Rlt_PI.
exact: PI2_1.
Qed.
Theorem C59_mirror_refuted : exists (ratios p : seq R) (m q : _),
  [/\ nth 0 ratios 0 < 0, 0 < nth 0 p 0, perspective tan true true 0 1 ratios 1 2%:R 0 1 = Some m,
      transform true (size p) (size p).+1 (size p).+1 m p = Some q & 0 < nth 0 q 0].
Proof.
pose ratios := [:: -1; 1] : seq R; pose p := [:: 1; 1; 1] : seq R.
have hall : all (fun x => x != 0) ratios by rewrite /= oppr_eq0 oner_eq0.
have hpl : planes 1 2%:R by rewrite /planes ltr01 (ltr_nat R_numDomainType 1 2).
have hz : (0 : R) < 1 * nth 0 p (size ratios) by rewrite mul1r ltr01.
have [m [q [e e1 _ h _]]] := C59_image true true 0 0 1 fov1 (isT : 0 < size ratios)%N hall hpl (erefl : size p = (size ratios).+1) hz.
exists ratios, p, m, q; split=> //; [by rewrite /= oppr_lt0 ltr01|exact: ltr01|].
by rewrite h // divff ?oppr_eq0 ?oner_eq0 // !mulr1 mul1r normr1 mul1r invr_gt0 half_width_gt0 // fov1.
Qed.
Print Assumptions C59_mirror_refuted.

Lemma half_width_norm (fov : R) : half_width `|fov| = half_width fov. Proof. by rewrite /half_width normr_id. Qed.
Arguments half_width_norm : clear scopes.

(* two dimensions: the sign of the field of view has no effect *)
Theorem C59_2d (follow rm : bool) (jk fov x z N Fa n f : R) :
  0 < `|fov| < PI -> planes N Fa -> 0 < N * z ->
  exists2 m, perspective2d tan follow rm jk fov N Fa n f = Some m &
    transform follow 2 3 3 m [:: x; z] =
    Some [:: x / (`|z| * half_width fov); (Fa * f - N * n) / (Fa - N) - Fa * N * (f - n) / ((Fa - N) * z)].
Proof.
move=> hf hpl hz; rewrite /perspective2d; set s := (if _ then _ else _).
have s0 : s != 0 by rewrite /s; case: ifP => _; rewrite ?oppr_eq0 oner_eq0.
have hall : all (fun x => x != 0) [:: s] by rewrite /= s0.
have hf' : 0 < `|(`|fov|)| < PI by rewrite normr_id.
have hz' : 0 < N * nth 0 [:: x; z] (size [:: s]) by [].
have [m [q [e e1 sq h hd]]] := C59_image follow rm jk n f hf' (isT : 0 < size [:: s])%N hall hpl (erefl : size [:: x; z] = (size [:: s]).+1) hz'.
exists m => //; rewrite e1; congr Some; move: (h 0%N isT) hd sq; rewrite /= half_width_norm divff // mulr1.
by case: q {e1 h} => [|a [|b []]] //= -> ->.
Qed.
Print Assumptions C59_2d.

(* three dimensions: a negative aspect ratio mirrors the second axis, and so does a negative field of view *)
Theorem C59_3d (follow rm : bool) (jk fov aspect x y z N Fa n f : R) :
  0 < `|fov| < PI -> aspect != 0 -> planes N Fa -> 0 < N * z ->
  exists2 m, perspective3d tan follow rm jk fov aspect N Fa n f = Some m &
    transform follow 3 4 4 m [:: x; y; z] =
    Some [:: x / (`|z| * half_width fov); (if fov < 0 then -1 else 1) * aspect * y / (`|z| * half_width fov);
             (Fa * f - N * n) / (Fa - N) - Fa * N * (f - n) / ((Fa - N) * z)].
Proof.
move=> hf a0 hpl hz; rewrite /perspective3d (negbTE a0); set s := (if _ then _ else _).
have s0 : s != 0 by rewrite /s; case: ifP => _; rewrite ?oppr_eq0 oner_eq0.
have ss : s^-1 = s by rewrite /s; case: ifP => _; rewrite ?invrN invr1.
have hall : all (fun x => x != 0) [:: s; 1 / aspect] by rewrite /= s0 mul1r invr_eq0 a0.
have hf' : 0 < `|(`|fov|)| < PI by rewrite normr_id.
have rs0 : (0 < size [:: s; (1 / aspect)%R])%N by [].
have hz' : 0 < N * nth 0 [:: x; y; z] (size [:: s; 1 / aspect]) by [].
have [m [q [e e1 sq h hd]]] :=
  C59_image follow rm jk n f hf' rs0 hall hpl (erefl : size [:: x; y; z] = (size [:: s; 1 / aspect]).+1) hz'.
exists m => //; rewrite e1; congr Some; move: (h 0%N isT) (h 1%N isT) hd sq; rewrite /= half_width_norm divff // mulr1.
case: q {e1 h} => [|a [|b [|c []]]] //= -> -> -> _; congr [:: _; _; _]; rewrite ss mul1r.
have hz0 : `|z| != 0 by rewrite normr_eq0; apply/eqP => z0; rewrite z0 mulr0 ltxx in hz.
have hw := lt0r_neq0 (half_width_gt0 hf).
move: (half_width fov) hw `|z| hz0 => w1 h1 z1 h2; rewrite -[in RHS]ss.
by field; rewrite a0 s0 h1 h2.
Qed.
Print Assumptions C59_3d.

(* no matrix without a field of view, between equal planes or with a zero ratio; no image in the plane of the eye *)
Theorem C59_degenerate (follow rm : bool) (jk fov : R) (ratios : seq R) (N Fa n f : R) :
  (N = Fa -> perspective tan follow rm jk fov ratios N Fa n f = None) /\
  (0 \in ratios -> perspective tan follow rm jk fov ratios N Fa n f = None) /\
  perspective tan follow rm jk 0 ratios N Fa n f = None.
Proof.
rewrite /perspective; split=> [->|]; first by rewrite subrr eqxx.
split=> [h|]; first by case: ifP => // _; rewrite /sdivv h.
case: ifP => // _; case: (sdivv _ _) => // a; rewrite normr0 mulr0.
have -> : tan 0 = 0 by exact: tan_0.
by rewrite eqxx.
Qed.
Print Assumptions C59_degenerate.

(* the hypotheses can be met on both sides of the eye *)
Example C59_example : [/\ 0 < `|1 : R| < PI, planes 1 2%:R & planes (-1) (- 2%:R)].
Proof.
split; [exact: fov1|by rewrite /planes ltr01 (ltr_nat R_numDomainType 1 2)|].
have h : (- 2%:R : R) < -1 by rewrite ltr_opp2 (ltr_nat R_numDomainType 1 2).
by rewrite /planes h oppr_lt0 ltr01 orbT.
Qed.
