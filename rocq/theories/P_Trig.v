(* Lemmas about the exponential, logarithm and angle of quaternions over Coq's real numbers *)
From Coq Require Import Reals Lra.
From mathcomp Require Import all_ssreflect all_algebra.
From mathcomp Require Import ring.
From Verif Require Import M_Vec M_Mat M_Quat M_Transform M_Trig Spec SpecQuat RealStruct P_Vec P_Mat P_Transform P_Quat P_Rot P_Rot2 Props_Quat Props_Rotation.
Set Implicit Arguments. Unset Strict Implicit. Unset Printing Implicit Defensive.
Import Order.Theory GRing.Theory Num.Theory.
Local Open Scope ring_scope.

Arguments exp : clear scopes.
Arguments ln : clear scopes.
Arguments acos : clear scopes.
Arguments atan : clear scopes.

Lemma expD (a b : R) : exp (a + b) = exp a * exp b. Proof. exact: exp_plus. Qed.
Lemma exp0 : exp (0 : R) = 1. Proof. exact: exp_0. Qed.
Lemma exp_gt0 (a : R) : (0 : R) < exp a. Proof. by apply/RltE; apply: exp_pos. Qed.
Lemma exp_neq0 (a : R) : exp a != 0. Proof. by rewrite gt_eqF // exp_gt0. Qed.
Lemma expK (a : R) : ln (exp a) = a. Proof. exact: ln_exp. Qed.
Lemma lnK (a : R) : (0 : R) < a -> exp (ln a) = a. Proof. by move/RltE => h; apply: exp_ln. Qed.

Lemma cos_norm (t : R) : cos `|t| = cos t.
Proof. by have [h|h] := ger0P t => //; rewrite cosN. Qed.
Lemma sin_norm (t : R) : `|t| * sin t = t * sin `|t|.
Proof. by have [h|h] := ger0P t => //; rewrite sinN mulrN mulNr. Qed.

Lemma sgn_sin (t x : R) : t != 0 -> t / `|t| * x * sin `|t| = sin t * x.
Proof.
move=> h; have hp : `|t| != 0 by rewrite normr_eq0.
rewrite mulrAC; congr (_ * x); apply: (mulfI hp); rewrite sin_norm.
by move: (`|t|) hp (sin _) => p hp st; field.
Qed.

(* acos on [-1, 1] *)
Lemma acosP (x : R) : (-1 : R) <= x -> x <= (1 : R) ->
  [/\ (0 : R) <= acos x, acos x <= (PI : R), cos (acos x) = x & (0 : R) <= sin (acos x)].
Proof.
move=> /RleE h1 /RleE h2; have [b1 b2] := acos_bound x.
split; try exact/RleE; first exact: cos_acos.
by apply/RleE; apply: sin_ge_0.
Qed.
Lemma acosK (t : R) : (0 : R) <= t -> t <= (PI : R) -> acos (cos t) = t.
Proof. by move=> /RleE h1 /RleE h2; apply: acos_cos. Qed.
Lemma sin_pos (t : R) : (0 : R) < t -> t < (PI : R) -> (0 : R) < sin t.
Proof. by move=> /RltE h1 /RltE h2; apply/RltE; apply: sin_gt_0. Qed.

(* unit vectors and the polar form of a vector *)
Definition unit3 (n : seq R) : Prop := size n = 3%N /\ dot3 n n = 1.
Lemma dot3_vdot (u : seq R) : size u = 3%N -> dot3 u u = vdot id u u.
Proof. by move=> su; rewrite /dot3 (@vdot_idE _ 3). Qed.
Lemma length_dot3 (u : seq R) : size u = 3%N -> vlength u = Num.sqrt (dot3 u u).
Proof. by move=> su; rewrite dot3_vdot. Qed.
Lemma unit3_ex : unit3 [:: 1; 0; 0].
Proof. by split=> //; rewrite /dot3 !big_ord_recl big_ord0 /= !mulr0 mulr1 !addr0. Qed.
Lemma scale_unit3 (t : R) n : unit3 n -> vlength (vscalel t n) = `|t|.
Proof.
move=> [sn n1]; rewrite length_dot3 ?size_map // (_ : dot3 _ _ = t ^+ 2) ?sqrtr_sqr //.
rewrite -[RHS]mulr1 -n1 /dot3 mulr_sumr; apply: eq_bigr => i _; rewrite !nth_vscalel; ring.
Qed.
Lemma polar (v : seq R) : size v = 3%N -> unit3 (normalize_precise v) /\ v = vscalel (vlength v) (normalize_precise v).
Proof.
move=> sv; rewrite normalize_precise0E sv; case: ifP => h.
  have e0 : vlength v = 0 by apply/eqP; rewrite length_eq0.
  rewrite e0; split; first exact: unit3_ex.
  move: h; rewrite (seq3 0 sv) /= => /and4P [/eqP -> /eqP -> /eqP -> _].
  by rewrite /vscalel /= !mul0r.
have hl : vlength v != 0 by rewrite length_eq0 h.
split.
  split; first by rewrite size_map.
  have -> : dot3 [seq x / vlength v | x <- v] [seq x / vlength v | x <- v] = dot3 v v / vlength v ^+ 2.
    rewrite /dot3 mulr_suml; apply: eq_bigr => i _; rewrite !(nth_map 0) ?sv //.
    by move: (nth 0 v i) (vlength v) hl => a l hl; field.
  by rewrite length_dot3 // sqr_sqrtr ?divff // ?dot3_vdot ?dot_ge0 // dot_eq0 h.
apply: (@eq_from_nth _ 0); rewrite ?size_map // => i hi; rewrite nth_vscalel (nth_map 0) // mulrC mulfVK //.
Qed.
Lemma normalize_scale (t : R) n : unit3 n -> normalize_precise (vscalel t n) = if t == 0 then [:: 1; 0; 0] else [seq t / `|t| * x | x <- n].
Proof.
move=> hn; have [sn n1] := hn; rewrite normalize_precise0E scale_unit3 // -length_eq0 scale_unit3 // normr_eq0 size_map sn.
case: ifP => h //; rewrite /vscalel -map_comp; apply: eq_map => x /=; by rewrite mulrAC.
Qed.

(* exp (s + t n) for a unit vector n *)
Definition hpolar (s t : R) (n : seq R) : hq R_ringType :=
  hscale (exp s) (cos t, sin t * nth 0 n 0, sin t * nth 0 n 1, sin t * nth 0 n 2).
Definition hsv (s : R) (v : seq R) : hq R_ringType := (s, nth 0 v 0, nth 0 v 1, nth 0 v 2).
Arguments hpolar : clear scopes.
Arguments hsv : clear scopes.
Lemma qs_mkq sf (x : hq R_ringType) : qs (mkq sf x) = x.1.1.1. Proof. by case: x => [[[a b] c] d]; case: sf. Qed.
Lemma of_scalar_vectorE (jk : R) sf s v : size v = 3%N -> of_scalar_vector jk sf s v = mkq sf (hsv s v).
Proof. by move=> /(seq3 0) ->; rewrite /of_scalar_vector of_canonicalE. Qed.
Lemma qvector_hsv sf s v : size v = 3%N -> qvector (mkq sf (hsv s v)) = v.
Proof. by move=> sv; rewrite qvector_mkq -(seq3 0 sv). Qed.
Lemma hsvE (x : hq R_ringType) : exists s v, size v = 3%N /\ x = hsv s v.
Proof. by case: x => [[[a b] c] d]; exists a, [:: b; c; d]. Qed.
Lemma unit3_sum n : unit3 n -> nth 0 n 0 * nth 0 n 0 + nth 0 n 1 * nth 0 n 1 + nth 0 n 2 * nth 0 n 2 = 1.
Proof. by move=> [_ <-]; rewrite /dot3 !big_ord_recl big_ord0 addr0 addrA. Qed.

Section Lims.
Variables (tmin tmax : R).
Hypotheses (h0 : (0 : R) < tmin) (h1 : tmin <= tmax).
Lemma qexpP (jk : R) sf s t n : unit3 n -> qexp exp cos sin tmin tmax jk (mkq sf (hsv s (vscalel t n))) = Some (mkq sf (hpolar s t n)).
Proof.
move=> hn; have [sn n1] := hn; rewrite /qexp qs_mkq qvector_hsv ?size_map // length_preciseE // sfirst_mkq scale_unit3 // cos_norm.
rewrite normalize_scale // of_scalar_vectorE; last by case: ifP; rewrite !size_map.
rewrite sqmul_mkq qconvert_mkq /hpolar; congr (Some (mkq _ (hscale _ (_, _, _, _)))); rewrite /vscale !(nth_map 0);
  try (by case: ifP; rewrite ?size_map // sn).
all: case: ifP => [/eqP ->|h]; first by rewrite normr0 sin_0' mulr0 mul0r.
all: by rewrite (nth_map 0) ?sn // sgn_sin // h.
Qed.
End Lims.

Lemma hnorm_polar s t n : unit3 n -> hnorm (hpolar s t n) = exp s ^+ 2.
Proof.
move=> /unit3_sum h; rewrite /hpolar /=; have := cs1 t; move: (cos t) (sin t) (exp s) (nth 0 n 0) (nth 0 n 1) (nth 0 n 2) h => c si e x y z h h2.
have -> : e * c * (e * c) + e * (si * x) * (e * (si * x)) + e * (si * y) * (e * (si * y)) + e * (si * z) * (e * (si * z)) =
  e ^+ 2 * (c * c + si * si * (x * x + y * y + z * z)) by ring.
by rewrite h mulr1 h2 mulr1.
Qed.
Lemma hpolarM s t s' t' n : unit3 n -> hmul (hpolar s t n) (hpolar s' t' n) = hpolar (s + s') (t + t') n.
Proof.
move=> /unit3_sum h; rewrite /hpolar /= expD cosD sinD; move: (nth 0 n 0) (nth 0 n 1) (nth 0 n 2) h => x y z h.
move: (exp s) (exp s') (cos t) (cos t') (sin t) (sin t') => a b c d e f.
congr (_, _, _, _); try ring.
have -> : a * c * (b * d) - a * (e * x) * (b * (f * x)) - a * (e * y) * (b * (f * y)) - a * (e * z) * (b * (f * z)) =
  a * b * (c * d - e * f * (x * x + y * y + z * z)) by ring.
by rewrite h mulr1.
Qed.
Lemma vscale_vscalel (t : R) n : vscale n t = vscalel t n.
Proof. by apply: eq_map => x; rewrite mulrC. Qed.
Lemma hpolarE s t n : size n = 3%N -> hpolar s t n = hsv (exp s * cos t) (vscalel (exp s * sin t) n).
Proof. by move=> sn; rewrite /hpolar /hsv !nth_vscalel /= !mulrA. Qed.
Lemma hpolar_neq0 s t n : unit3 n -> hpolar s t n != hzero R_ringType.
Proof. by move=> hn; rewrite -hnorm_eq0 hnorm_polar // expf_neq0 // exp_neq0. Qed.
Lemma hnorm_hsv s v : size v = 3%N -> hnorm (hsv s v) = s ^+ 2 + vlength v ^+ 2.
Proof.
move=> sv; rewrite length_dot3 // sqr_sqrtr ?dot3_vdot ?dot_ge0 // -dot3_vdot // /dot3 !big_ord_recl big_ord0 /= addr0 expr2 !addrA; reflexivity.
Qed.

Section Log.
Variables (tmin tmax : R).
Hypotheses (h0 : (0 : R) < tmin) (h1 : tmin <= tmax).
Lemma qlogP (jk : R) sf x : x != hzero R_ringType -> exists l t n,
  [/\ unit3 n, (0 : R) <= t, t <= (PI : R), x = hpolar l t n &
      qlog ln acos tmin tmax jk (mkq sf x) = Some (mkq sf (hsv l (vscalel t n)))].
Proof.
have [s [v [sv ->]]] := hsvE x; rewrite -hnorm_eq0 hnorm_hsv // => nz.
have [hn ev] := polar sv; set n := normalize_precise v in hn ev; have [sn n1] := hn.
set L := vlength v in nz ev *; set r := Num.sqrt (s ^+ 2 + L ^+ 2).
have L0 : (0 : R) <= L by rewrite /L /vlength sqrtr_ge0.
have ge0 : (0 : R) <= s ^+ 2 + L ^+ 2 by rewrite addr_ge0 ?sqr_ge0.
have rr : r ^+ 2 = s ^+ 2 + L ^+ 2 by rewrite /r sqr_sqrtr.
have r0 : (0 : R) < r by rewrite sqrtr_gt0 lt_def nz.
have bnd : `|s| <= r by rewrite -[`|s|]sqrtr_sqr; apply: ler_wsqrtr; rewrite ler_addl sqr_ge0.
have [a1 a2] : (-1 : R) <= s / r /\ s / r <= (1 : R).
  by move: bnd; rewrite ler_norml => /andP [b1 b2]; rewrite ler_pdivl_mulr // mulN1r b1 ler_pdivr_mulr // mul1r b2.
have [t0 t1 ct st] := acosP a1 a2; set t := acos (s / r) in t0 t1 ct st *.
have rs : r * sin t = L.
  apply/eqP; rewrite -(@eqr_expn2 _ 2) // ?mulr_ge0 ?(ltW r0) //.
  have e : sin t ^+ 2 = 1 - (s / r) ^+ 2 by rewrite -ct -(cs1 t); ring.
  rewrite exprMn e; have -> : r ^+ 2 * (1 - (s / r) ^+ 2) = r ^+ 2 - s ^+ 2.
    by move: (r) r0 => r1 r10; field; rewrite gt_eqF.
  by rewrite rr [_ + L ^+ 2]addrC addrK.
exists (ln r), t, n; split=> //.
  have e : r * cos t = s by rewrite ct mulrC mulfVK ?gt_eqF.
  by rewrite hpolarE // lnK // rs e -ev.
rewrite /qlog qs_mkq qvector_hsv // length_preciseE // sfirst_mkq /= -/L -/r /sdiv gt_eqF // -/t.
by rewrite of_scalar_vectorE ?size_map // vscale_vscalel.
Qed.
Lemma qlog_polar (jk : R) sf s t n : unit3 n -> (0 : R) <= t -> t < (PI : R) ->
  qlog ln acos tmin tmax jk (mkq sf (hpolar s t n)) = Some (mkq sf (hsv s (vscalel t n))).
Proof.
move=> hn t0 t1; have [sn n1] := hn; rewrite hpolarE // /qlog qs_mkq qvector_hsv ?size_map // length_preciseE // sfirst_mkq /=.
have st : (0 : R) <= sin t.
  by move: t0; rewrite le_eqVlt => /orP [/eqP <-|t0]; [rewrite sin_0'|apply/ltW/sin_pos].
have -> : Num.sqrt ((exp s * cos t) ^+ 2 + vlength (vscalel (exp s * sin t) n) ^+ 2) = exp s.
  rewrite scale_unit3 // real_normK ?num_real // !exprMn -mulrDr [X in _ * X](_ : _ = 1) ?mulr1 ?sqrtr_sqr.
    by rewrite ger0_norm // ltW // exp_gt0.
  by rewrite !expr2 cs1.
rewrite /sdiv (negbTE (exp_neq0 s)) [_ * cos t]mulrC mulfK ?exp_neq0 // acosK ?(ltW t1) // expK.
rewrite of_scalar_vectorE; last by rewrite normalize_scale //; case: ifP; rewrite !size_map.
suff -> : hsv s (vscale (normalize_precise (vscalel (exp s * sin t) n)) t) = hsv s (vscalel t n) by [].
rewrite normalize_scale // mulf_eq0 (negbTE (exp_neq0 s)) /= vscale_vscalel.
move: t0; rewrite le_eqVlt => /orP [/eqP <-|t0].
  by rewrite sin_0' eqxx /hsv !nth_vscalel !mul0r.
have hs := sin_pos t0 t1; rewrite gt_eqF // ger0_norm ?mulr_ge0 ?(ltW (exp_gt0 _)) //.
rewrite divff ?mulf_neq0 ?exp_neq0 ?gt_eqF //; congr (hsv _ (vscalel _ _)).
by rewrite -[RHS]map_id; apply: eq_map => x; rewrite mul1r.
Qed.
End Log.
