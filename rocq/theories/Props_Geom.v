(* Theorems about the geometry classes: C45 - C51. Points, directions and normals are lists of coordinates;
   [rv n p] is the row vector with these coordinates. *)
From mathcomp Require Import all_ssreflect all_algebra.
From mathcomp Require Import ring.
From Verif Require Import Spec M_Vec P_Vec M_Mat P_Mat M_LU P_LU M_QR M_SVD P_SVD2 M_Geom P_Geom Props_Vec.
Set Implicit Arguments. Unset Strict Implicit. Unset Printing Implicit Defensive.
Import Order.Theory GRing.Theory Num.Theory.
Local Open Scope ring_scope.

(** * C45: Bezier curves *)
Theorem C45_bernstein (R : comRingType) (n : nat) (cp : seq (seq R)) (t : R) i :
  cp != [::] -> all (fun p => size p == n) cp -> (i < n)%N ->
  let N := (size cp).-1 in
  nth 0 (bezier cp t) i = \sum_(k < N.+1) t ^+ k * (1 - t) ^+ (N - k) * nth 0 (nth [::] cp k) i *+ 'C(N, k).
Proof.
move=> c0 /(all_nthP [::]) h hi; have s0 : (0 < size cp)%N by case: cp c0 {h}.
have [_ e] := @bezierP R n cp t s0 (fun j hj => eqP (h j hj)); rewrite /= prednK //.
have := congr1 (fun u : 'rV_n => u 0 (Ordinal hi)) e; rewrite mxE /= summxE => ->.
by apply: eq_bigr => k _; rewrite !mxE /bernstein /= mulrnAl.
Qed.
Print Assumptions C45_bernstein.

Theorem C45_ends (R : comRingType) (n : nat) (cp : seq (seq R)) :
  cp != [::] -> all (fun p => size p == n) cp ->
  bezier cp 0 = head [::] cp /\ bezier cp 1 = last [::] cp.
Proof.
move=> c0 hs; have s0 : (0 < size cp)%N by case: cp c0 {hs}.
have hs' := fun j hj => eqP (all_nthP [::] hs j hj).
have h t x : x \in cp -> (forall i, (i < n)%N -> nth 0 (bezier cp t) i = nth 0 x i) -> bezier cp t = x.
  move=> xc e; have [sb _] := @bezierP R n cp t s0 hs'; apply: (@eq_from_nth _ 0); first by rewrite sb (eqP (allP hs _ xc)).
  by rewrite sb.
split.
  rewrite -nth0; apply: h => [|i hi]; first exact: mem_nth.
  rewrite (C45_bernstein 0 c0 hs hi) big_ord_recl big1 ?addr0 => [|k _]; last by rewrite exprS !mul0r mul0rn.
  by rewrite expr0 subr0 expr1n !mul1r bin0.
rewrite -nth_last; apply: h => [|i hi]; first by rewrite mem_nth ?prednK.
rewrite (C45_bernstein 1 c0 hs hi) big_ord_recr big1 ?add0r => [|k _].
  by rewrite /= subnn expr0 expr1n !mul1r binn add0r.
by rewrite /= subrr -(subnSK (ltn_ord k)) [X in _ * X * _]exprS !(mul0r, mulr0) mul0rn.
Qed.
Print Assumptions C45_ends.

(* an affine image of the curve is the curve of the affine images *)
Theorem C45_affine (R : comRingType) (n m : nat) (M : 'M[R]_(n, m)) (b : 'rV_m) (cp cp' : seq (seq R)) (t : R) :
  cp != [::] -> all (fun p => size p == n) cp -> all (fun p => size p == m) cp' -> size cp' = size cp ->
  (forall k, (k < size cp)%N -> rv m (nth [::] cp' k) = rv n (nth [::] cp k) *m M + b) ->
  rv m (bezier cp' t) = rv n (bezier cp t) *m M + b.
Proof.
move=> c0 hs hs' sz h; have s0 : (0 < size cp)%N by case: cp c0 {hs sz h}.
have [_ ->] := @bezierP R n cp t s0 (fun j hj => eqP (all_nthP [::] hs j hj)).
have s0' : (0 < size cp')%N by rewrite sz.
have [_ ->] := @bezierP R m cp' t s0' (fun j hj => eqP (all_nthP [::] hs' j hj)).
rewrite sz (eq_bigr (fun k : 'I_(size cp) => (bernstein (size cp).-1 t k *: rv n (nth [::] cp k)) *m M + bernstein (size cp).-1 t k *: b)); last first.
  by move=> k _; rewrite h // scalerDr scalemxAl.
rewrite big_split /= -mulmx_suml -scaler_suml; congr (_ + _).
rewrite -[RHS]scale1r; congr (_ *: _).
rewrite -[in LHS](prednK s0) /=; set N := (size cp).-1.
transitivity ((1 - t + t) ^+ N); last by rewrite subrK expr1n.
by rewrite exprDn; apply: eq_bigr => k _; rewrite /bernstein mulrC.
Qed.
Print Assumptions C45_affine.

Theorem C45_bounds (R : realDomainType) (n : nat) (cp : seq (seq R)) (t lo hi : R) i :
  cp != [::] -> all (fun p => size p == n) cp -> (i < n)%N -> 0 <= t <= 1 ->
  (forall p, p \in cp -> lo <= nth 0 p i <= hi) -> lo <= nth 0 (bezier cp t) i <= hi.
Proof.
move=> c0 hs hi' /andP [t0 t1] h; rewrite (C45_bernstein t c0 hs hi'); set N := (size cp).-1.
have s0 : (0 < size cp)%N by case: cp c0 {hs h N}.
have w0 (k : 'I_N.+1) : 0 <= t ^+ k * (1 - t) ^+ (N - k) *+ 'C(N, k).
  by rewrite mulrn_wge0 // mulr_ge0 // exprn_ge0 // subr_ge0.
have w1 : \sum_(k < N.+1) t ^+ k * (1 - t) ^+ (N - k) *+ 'C(N, k) = 1.
  transitivity ((1 - t + t) ^+ N); last by rewrite subrK expr1n.
  by rewrite exprDn; apply: eq_bigr => k _; rewrite mulrC.
have hk (k : 'I_N.+1) : lo <= nth 0 (nth [::] cp k) i <= hi.
  by apply: h; apply: mem_nth; rewrite -(prednK s0).
apply/andP; split.
  rewrite -[X in X <= _]mul1r -[X in X * _ <= _]w1 mulr_suml; apply: ler_sum => k _.
  by rewrite -[X in _ <= X]mulrnAl ler_wpmul2l //; have /andP [] := hk k.
rewrite -[X in _ <= X]mul1r -[X in _ <= X * _]w1 mulr_suml; apply: ler_sum => k _.
by rewrite -[X in X <= _]mulrnAl ler_wpmul2l //; have /andP [] := hk k.
Qed.
Print Assumptions C45_bounds.

(* a quadratic curve in the plane at 1/2 *)
Example C45_ex : let cp := [:: [:: 0; 0]; [:: 1; 2%:Q]; [:: 3%:Q; 0]] in
  all (fun p => size p == 2%N) cp /\ bezier cp (1 / 2%:Q) = [:: 5%:Q / 4%:Q; 1].
Proof. by split=> //; apply/eqP; vm_compute. Qed.

(** * C46: lines, segments, hyperplanes *)
(* x lies on the line with the given base and direction *)
Definition on_line (R : rcfType) n (l : line R) (x : seq R) :=
  exists t, rv n x = rv n (base l) + t *: rv n (direction l).
Definition line_wf (R : rcfType) n (l : line R) := [/\ size (direction l) = n, size (base l) = n & vlength (direction l) = 1].
Definition plane_wf (R : rcfType) n (pl : hyperplane R) := size (normal pl) = n /\ vlength (normal pl) = 1.
(* x lies on the hyperplane: { x | normal . x = scalar } *)
Definition on_plane (R : rcfType) n (pl : hyperplane R) (x : seq R) := dotp (rv n (normal pl)) (rv n x) = scalar pl.

Lemma dot1 (R : rcfType) n (v : seq R) : size v = n -> vlength v = 1 -> dotp (rv n v) (rv n v) = 1.
Proof. by move=> sv h; rewrite vlength_sq // h expr1n. Qed.

Lemma rv_point_at (R : rcfType) n (l : line R) t : line_wf n l ->
  size (point_at l t) = n /\ rv n (point_at l t) = rv n (base l) + t *: rv n (direction l).
Proof.
move=> [sd sb _]; split; first by apply: size_vadd; rewrite ?size_vscalel.
by rewrite rv_add ?size_vscalel // rv_scalel.
Qed.

(* PointAt parametrises the line by the distance from the base *)
Theorem C46_line (R : rcfType) n (l : line R) : line_wf n l ->
  [/\ forall t, on_line n l (point_at l t),
      forall x, size x = n -> on_line n l x -> exists t, x = point_at l t,
      point_at l 0 = base l &
      forall s t, vdistance (point_at l s) (point_at l t) = `|s - t|].
Proof.
move=> w; have [sd sb d1] := w; have pa := fun t => rv_point_at t w; split.
- by move=> t; exists t; have [_ ->] := pa t.
- by move=> x sx [t e]; exists t; have [s1 e1] := pa t; apply: (rv_inj sx s1); rewrite e e1.
- by have [s1 e1] := pa 0; apply: (rv_inj s1 sb); rewrite e1 scale0r addr0.
- move=> s t; have [s1 e1] := pa s; have [s2 e2] := pa t.
  rewrite /vdistance (@vlength_rv _ n) ?(@size_vsub _ n) // rv_sub // e1 e2 opprD addrACA subrr add0r -scalerBl.
  by rewrite dotpZl dotpZr (dot1 sd d1) mulr1 -expr2 sqrtr_sqr.
Qed.
Print Assumptions C46_line.

Lemma vlength_distC (R : rcfType) n (p q : seq R) : size p = n -> size q = n -> vlength (vsub p q) = vlength (vsub q p).
Proof.
by move=> sp sq; rewrite !(@vlength_rv _ n) ?(@size_vsub _ n) // !rv_sub // -opprB dotpNl dotpC dotpNl opprK.
Qed.

Lemma segment_dirP (R : rcfType) n (p q : seq R) : size p = n -> size q = n -> (0 < n)%N ->
  let d := normalize_precise (vsub q p) in
  [/\ size d = n, vlength d = 1 & rv n q = rv n p + vdistance p q *: rv n d].
Proof.
move=> sp sq n0 d; have sv : size (vsub q p) = n by apply: size_vsub.
have L : vdistance p q = vlength (vsub q p) by apply: vlength_distC sp sq.
split; first by rewrite size_normalize_precise sv.
  by have [|_ []] := @C12_normalize_precise_unit R (vsub q p); rewrite ?sv.
rewrite L /d normalize_precise0E; case: ifP => h.
  have /eqP l0 : vlength (vsub q p) == 0 by rewrite length_eq0.
  have := h; rewrite -(rv_eq0 sv) rv_sub // subr_eq0 => /eqP ->.
  by rewrite l0 scale0r addr0.
by rewrite rv_divs scalerA divff ?length_eq0 ?h // scale1r rv_sub // [RHS]addrC subrK.
Qed.

(* Through: the line passes through both points *)
Theorem C46_through (R : rcfType) n (p q : seq R) : (0 < n)%N -> size p = n -> size q = n ->
  let l := line_through p q in
  [/\ line_wf n l, point_at l 0 = p & point_at l (vdistance p q) = q].
Proof.
move=> n0 sp sq; have [sd d1 e] := segment_dirP sp sq n0; set l := line_through p q.
have w : line_wf n l by split.
have [_ _ h0 _] := C46_line w; split=> //.
by have [s1 e1] := rv_point_at (vdistance p q) w; apply: (rv_inj s1 sq); rewrite e1 e.
Qed.
Print Assumptions C46_through.

(* segments: end points, length, and the interpolation parameter *)
Theorem C46_segment (R : rcfType) (tmin tmax : R) n (s : segment R) :
  0 < tmin -> tmin <= tmax -> size (point1 s) = n -> size (point2 s) = n ->
  [/\ interpol s 0 = point1 s, interpol s 1 = point2 s,
      segment_length s = vdistance (point1 s) (point2 s),
      (point1 s = point2 s -> forall x, interpol_of tmin tmax s x = None) &
      (point1 s != point2 s ->
         (forall t, interpol_of tmin tmax s (interpol s t) = Some t) /\
         (* the parameter of the closest point of the line *)
         (forall x, size x = n -> exists2 t, interpol_of tmin tmax s x = Some t &
            forall u, vdistance x (interpol s t) <= vdistance x (interpol s u)))].
Proof.
move=> t0 t1 s1 s2.
have si t : size (interpol s t) = n by apply: size_vadd; rewrite size_vscalel.
have ri t : rv n (interpol s t) = t *: rv n (point2 s) + (1 - t) *: rv n (point1 s).
  by rewrite rv_add ?size_vscalel // !rv_scalel.
have sd : size (vsub (point2 s) (point1 s)) = n by apply: size_vsub.
have L : segment_length s = vdistance (point1 s) (point2 s) by exact: vlength_distC s2 s1.
split=> //.
- by apply: (rv_inj (si 0) s1); rewrite ri scale0r subr0 scale1r add0r.
- by apply: (rv_inj (si 1) s2); rewrite ri subrr scale0r scale1r addr0.
- move=> e x; rewrite /interpol_of length_preciseE //= /vdivs.
  have -> // : vlength (vsub (point2 s) (point1 s)) == 0.
  by rewrite length_eq0 -(rv_eq0 sd) rv_sub // e subrr.
move=> ne; set d := rv n (point2 s) - rv n (point1 s).
have d0 : d != 0 by rewrite subr_eq0; apply: contra ne => /eqP e; apply/eqP; apply: (rv_inj s1 s2); rewrite e.
have rd : rv n (vsub (point2 s) (point1 s)) = d by rewrite rv_sub.
have dd := dotp_gt0 d0.
have L0 : vlength (vsub (point2 s) (point1 s)) != 0 by rewrite length_eq0 -(rv_eq0 sd) rd.
have IE x : size x = n -> interpol_of tmin tmax s x = Some (dotp (rv n x - rv n (point1 s)) d / dotp d d).
  move=> sx; rewrite /interpol_of length_preciseE //= /vdivs (negbTE L0) /= /sdiv (negbTE L0); congr Some.
  have so : size (vsub x (point1 s)) = n by apply: size_vsub.
  have sq : size [seq y / vlength (vsub (point2 s) (point1 s)) | y <- vsub (point2 s) (point1 s)] = n by rewrite size_map; exact: sd.
  rewrite (vdot_rv so sq) rv_divs rd dotpZr rv_sub //.
  have -> : dotp d d = vlength (vsub (point2 s) (point1 s)) ^+ 2 by rewrite -rd vlength_sq.
  by move: (vlength _) (dotp _ _) L0 => l x' l0; field; rewrite l0.
split=> [t|x sx].
  rewrite IE // ri; congr Some.
  have -> : t *: rv n (point2 s) + (1 - t) *: rv n (point1 s) - rv n (point1 s) = t *: d.
    by apply/rowP => i; rewrite !mxE; ring.
  by rewrite dotpZl mulfK // gt_eqF.
rewrite IE //; eexists; first by [].
move=> u; rewrite /vdistance !(@vlength_rv _ n) ?(@size_vsub _ n) // ler_wsqrtr // !rv_sub // !ri.
set w := rv n x - rv n (point1 s); set t := _ / _.
have e a : rv n x - (a *: rv n (point2 s) + (1 - a) *: rv n (point1 s)) = w - a *: d.
  rewrite /w /d scalerBr scalerBl scale1r; apply/rowP => i; rewrite !mxE; ring.
have ht : dotp w d = t * dotp d d by rewrite /t divfK // gt_eqF.
rewrite !e {IE rd e d0}; clearbody t w d; rewrite !(dotpBl, dotpBr, dotpZl, dotpZr) (dotpC d w) ht.
move: (dotp w w) (dotp d d) dd => a b b0; rewrite -subr_ge0.
set x' := (X in 0 <= X); have -> : x' = (t - u) ^+ 2 * b by rewrite /x'; ring.
by rewrite mulr_ge0 ?sqr_ge0 // ltW.
Qed.
Print Assumptions C46_segment.

(* base, direction, length *)
Theorem C46_segment_from (R : rcfType) n (b d : seq R) (len : R) : size b = n -> size d = n -> vlength d = 1 -> 0 <= len ->
  let s := segment_from b d len in
  [/\ point1 s = b, segment_length s = len & 0 < len -> segment_direction s = d].
Proof.
move=> sb sd d1 l0 s; have sbd : size (vadd b (vscale d len)) = n by apply: size_vadd; rewrite ?size_vscale.
have e : vsub (vadd b (vscale d len)) b = vscale d len.
  apply: (@rv_inj _ n); rewrite ?(@size_vsub _ n) ?size_vscale // rv_sub // rv_add ?size_vscale //.
  by rewrite addrC addKr.
have L : segment_length s = len by rewrite /segment_length /= e length_mapmul d1 mul1r ger0_norm.
split=> // lp; rewrite /segment_direction /= e normalize_precise0E -length_eq0.
have L' : vlength (vscale d len) = len by rewrite -e.
rewrite L' gt_eqF //; rewrite -map_comp -[RHS]map_id; apply: eq_map => x /=.
by rewrite mulfK // gt_eqF.
Qed.
Print Assumptions C46_segment_from.

(* hyperplanes: Distance is the signed Euclidean distance, zero exactly on the plane; Base is on the plane *)
Theorem C46_plane (R : rcfType) n (pl : hyperplane R) x : plane_wf n pl -> size x = n ->
  [/\ plane_distance pl x = 0 <-> on_plane n pl x,
      on_plane n pl (plane_base pl),
      (forall y, size y = n -> on_plane n pl y -> `|plane_distance pl x| <= vdistance x y) &
      exists2 y, size y = n /\ on_plane n pl y & vdistance x y = `|plane_distance pl x|].
Proof.
move=> [sn n1] sx; have nn := dot1 sn n1.
have D y : size y = n -> plane_distance pl y = dotp (rv n (normal pl)) (rv n y) - scalar pl.
  by move=> sy; rewrite /plane_distance (@vdot_rv _ n) // dotpC.
split.
- rewrite D // /on_plane; split=> [/eqP|->]; first by rewrite subr_eq0 => /eqP.
  by rewrite subrr.
- by rewrite /on_plane /plane_base rv_scale dotpZr nn mulr1.
- move=> y sy hy; have -> : plane_distance pl x = dotp (rv n (normal pl)) (rv n (vsub x y)).
    by rewrite D // rv_sub // dotpBr hy.
  have := (C10_cauchy_schwarz sn (size_vsub sx sy)); rewrite n1 mul1r (@vdot_rv _ n) // ?size_vsub //.
  exact: size_vsub.
- exists (vsub x (vscale (normal pl) (plane_distance pl x))).
    split; first by apply: size_vsub; rewrite ?size_vscale.
    rewrite /on_plane rv_sub ?size_vscale // rv_scale dotpBr dotpZr nn mulr1 D //.
    by rewrite opprB addrC subrK.
  rewrite /vdistance (@vlength_rv _ n) ?(@size_vsub _ n) ?size_vscale // !rv_sub ?(@size_vsub _ n) ?size_vscale // rv_scale.
  by rewrite opprB addrC subrK dotpZl dotpZr nn mulr1 -expr2 sqrtr_sqr.
Qed.
Print Assumptions C46_plane.
Theorem C46_plane_from (R : rcfType) n (b nn : seq R) x : size b = n -> size nn = n -> size x = n ->
  on_plane n (plane_from b nn) b /\
  (on_plane n (plane_from b nn) x <-> dotp (rv n x - rv n b) (rv n nn) = 0).
Proof.
move=> sb sn sx; rewrite /on_plane /= (@vdot_rv _ n) //; split=> //.
rewrite dotpBl (dotpC (rv n x)) (dotpC (rv n b)); split=> [->|/eqP]; first by rewrite subrr.
by rewrite subr_eq0 => /eqP.
Qed.
Print Assumptions C46_plane_from.

Lemma rv2E (R : rcfType) (a b : seq R) : size a = 2%N -> size b = 2%N ->
  dotp (rv 2 a) (rv 2 b) = nth 0 a 0 * nth 0 b 0 + nth 0 a 1 * nth 0 b 1.
Proof. by move=> sa sb; rewrite /dotp !big_ord_recr big_ord0 /= !mxE add0r. Qed.

(* 2D: a line and the hyperplane made from it have the same points, and back *)
Theorem C46_line_plane (R : rcfType) (l : line R) x : line_wf 2 l -> size x = 2%N ->
  plane_wf 2 (plane_of_line l) /\ (on_plane 2 (plane_of_line l) x <-> on_line 2 l x).
Proof.
move=> [sd sb d1] sx; have dd := dot1 sd d1.
move: dd; rewrite rv2E // => dd; split.
  split=> //; rewrite (@vlength_rv _ 2) // rv2E //=; move: dd; move: (nth 0 _ 0) (nth 0 _ 1) => a b dd.
  by rewrite -[RHS]sqrtr1 -dd; congr Num.sqrt; ring.
rewrite /on_plane /plane_of_line /= (@vdot_rv _ 2) // !rv2E //=.
set d0 := nth 0 (direction l) 0 in dd *; set d1' := nth 0 (direction l) 1 in dd *.
split=> [e|[t /rowP e]].
  exists (d0 * (nth 0 x 0 - nth 0 (base l) 0) + d1' * (nth 0 x 1 - nth 0 (base l) 1)).
  apply/rowP => -[[|[|i]] hi] //; rewrite !mxE /= -?/d0 -?/d1'.
    rewrite mulrDl -[LHS]mulr1 -dd; move: e; move: (nth 0 x 0) (nth 0 x 1) (nth 0 (base l) 0) (nth 0 (base l) 1) dd => a b p q dd e.
    have {}e : d0 * (b - q) = d1' * (a - p) by rewrite !mulrBr; move/eqP: e; rewrite -subr_eq0 => /eqP e; apply/eqP; rewrite -subr_eq0 -e; apply/eqP; ring.
    have -> : d1' * (b - q) * d0 = d1' * (d1' * (a - p)) by rewrite -e; ring.
    rewrite -[X in _ = X + _]mulr1 -dd; ring.
  rewrite mulrDl -[LHS]mulr1 -dd; move: e; move: (nth 0 x 0) (nth 0 x 1) (nth 0 (base l) 0) (nth 0 (base l) 1) dd => a b p q dd e.
  have {}e : d0 * (b - q) = d1' * (a - p) by rewrite !mulrBr; move/eqP: e; rewrite -subr_eq0 => /eqP e; apply/eqP; rewrite -subr_eq0 -e; apply/eqP; ring.
  have -> : d0 * (a - p) * d1' = d0 * (d0 * (b - q)) by rewrite e; ring.
  rewrite -[X in _ = X + _]mulr1 -dd; ring.
have := e 0; have := e 1; rewrite !mxE /= -/d0 -/d1' => -> ->; move: (nth 0 (base l) 0) (nth 0 (base l) 1) => p q; rewrite /d0 /d1'; move: (nth 0 _ 0) (nth 0 _ 1) => a b; ring.
Qed.
Print Assumptions C46_line_plane.
Theorem C46_plane_line (R : rcfType) (pl : hyperplane R) x : plane_wf 2 pl -> size x = 2%N ->
  line_wf 2 (line_of_plane pl) /\ (on_line 2 (line_of_plane pl) x <-> on_plane 2 pl x).
Proof.
move=> w sx; have [sn n1] := w; have nn := dot1 sn n1.
have wl : line_wf 2 (line_of_plane pl).
  split=> //=; first by rewrite size_vscale.
  rewrite (@vlength_rv _ 2) // rv2E //=; move: nn; rewrite rv2E //; move: (nth 0 _ 0) (nth 0 _ 1) => a b nn.
  by rewrite -[RHS]sqrtr1 -nn; congr Num.sqrt; ring.
split=> //; have [_ h] := C46_line_plane wl sx; rewrite -h {h}.
rewrite /on_plane /= (@vdot_rv _ 2) // ?size_vscale // rv_scale dotpZr !rv2E //=.
move: nn; rewrite rv2E //; move: (nth 0 _ 0) (nth 0 _ 1) (nth 0 x 0) (nth 0 x 1) (scalar pl) => a b p q s nn.
have -> : s * (- a * a + - b * b) = - s * (a * a + b * b) by ring.
rewrite nn mulr1; have -> : - a * p + - b * q = - (a * p + b * q) by ring.
split=> [/eqP|->]; last by [].
by rewrite eqr_opp => /eqP.
Qed.
Print Assumptions C46_plane_line.
Example C46_ex (R : rcfType) : line_wf 2 (Line [:: 3%:R / 5%:R; 4%:R / 5%:R] [:: 1; 2%:R] : line R) /\
  plane_wf 3 (Plane [:: 0; 3%:R / 5%:R; 4%:R / 5%:R] 7%:R : hyperplane R).
Proof.
split; split=> //; rewrite /vlength /length_squared /vdot /vsum /= /vsum /vmul /vmap2 /= -[RHS]sqrtr1; congr Num.sqrt; by field.
Qed.

(** * C47: plane and line *)
Lemma hit_paramE (R : rcfType) n (pl : hyperplane R) (l : line R) : plane_wf n pl -> size (direction l) = n -> size (base l) = n ->
  hit_param pl l = if dotp (rv n (normal pl)) (rv n (direction l)) == 0 then None
    else Some ((scalar pl - dotp (rv n (normal pl)) (rv n (base l))) / dotp (rv n (normal pl)) (rv n (direction l))).
Proof.
move=> [sn n1] sd sb; rewrite /hit_param (vdot_rv sn sd).
have sp : size (plane_base pl) = n by rewrite size_vscale.
by rewrite (vdot_rv sn (size_vsub sp sb)) rv_sub // rv_scale dotpBr dotpZr (dot1 sn n1) mulr1.
Qed.

Lemma common_point (R : rcfType) n (pl : hyperplane R) (l : line R) x t : 
  rv n x = rv n (base l) + t *: rv n (direction l) -> dotp (rv n (normal pl)) (rv n (direction l)) != 0 ->
  on_plane n pl x <-> t = (scalar pl - dotp (rv n (normal pl)) (rv n (base l))) / dotp (rv n (normal pl)) (rv n (direction l)).
Proof.
move=> e nd; rewrite /on_plane e dotpDr dotpZr; move: (dotp _ _) (dotp _ _) (scalar pl) nd => b d s nd; split=> [<-|->].
  by rewrite addrC addKr mulfK.
by rewrite divfK // addrC subrK.
Qed.

Theorem C47_plane_line (R : rcfType) n (pl : hyperplane R) (l : line R) x : plane_wf n pl -> line_wf n l ->
  hit_plane_line pl l = Some x <->
  [/\ size x = n, on_plane n pl x, on_line n l x &
      forall y, size y = n -> on_plane n pl y -> on_line n l y -> y = x].
Proof.
move=> wp wl; have [sd sb d1] := wl; rewrite /hit_plane_line (hit_paramE wp sd sb); case: eqP => [nd|/eqP nd].
  split=> // -[sx px [t lx] h].
  have [s1 e1] := rv_point_at (t + 1) wl.
  have ex : point_at l (t + 1) = x.
    apply: h => //; last by exists (t + 1).
    by move: px; rewrite /on_plane lx e1 !dotpDr !dotpZr nd !mulr0.
  have : rv n (direction l) == 0.
    have := congr1 (rv n) ex; rewrite e1 lx scalerDl scale1r => /addrI /eqP.
    by rewrite -subr_eq0 addrC addKr.
  by rewrite -dotp_eq0 (dot1 sd d1) oner_eq0.
set t := _ / _; have [s1 e1] := rv_point_at t wl; split=> [[<-]|[sx px [u ux] _]].
  split=> //; first exact/(common_point e1 nd).
    by exists t.
  move=> y sy py [u uy]; apply: (rv_inj sy s1); rewrite e1 uy; congr (_ + _ *: _).
  exact/(common_point uy nd).
by congr Some; apply: (rv_inj s1 sx); rewrite e1 ux; congr (_ + _ *: _); symmetry; apply/(common_point ux nd).
Qed.
Print Assumptions C47_plane_line.
(* nothing is returned exactly for lines parallel to the plane *)
Theorem C47_parallel (R : rcfType) n (pl : hyperplane R) (l : line R) : plane_wf n pl -> line_wf n l ->
  hit_plane_line pl l = None <-> dotp (rv n (normal pl)) (rv n (direction l)) = 0.
Proof.
by move=> wp [sd sb d1]; rewrite /hit_plane_line (hit_paramE wp sd sb); case: eqP.
Qed.
Print Assumptions C47_parallel.
Example C47_ex (R : rcfType) : plane_wf 2 (Plane [:: 1; 0] 5%:R : hyperplane R) /\ line_wf 2 (Line [:: 1; 0] [:: 0; 3%:R] : line R) /\
  hit_plane_line (Plane [:: 1; 0] 5%:R) (Line [:: 1; 0] [:: 0; 3%:R] : line R) = Some [:: 5%:R; 3%:R].
Proof.
have wp : plane_wf 2 (Plane [:: 1; 0] 5%:R : hyperplane R).
  by split=> //; rewrite /vlength /length_squared /vdot /= /vsum /= add0r !mulr1 mulr0 addr0 sqrtr1.
have wl : line_wf 2 (Line [:: 1; 0] [:: 0; 3%:R] : line R) by case: wp.
split=> //; split=> //; rewrite /hit_plane_line (hit_paramE wp) // !rv2E //= !mulr0 !addr0 mulr1 oner_eq0.
by rewrite divr1 mul0r addr0 subr0 /point_at /vadd /vscale /vmap2 /= mulr1 mulr0 add0r addr0.
Qed.

(** * C48: plane with ray and segment *)
Definition on_ray (R : rcfType) n (l : line R) (x : seq R) :=
  exists2 t, 0 <= t & rv n x = rv n (base l) + t *: rv n (direction l).
Theorem C48_ray (R : rcfType) n (pl : hyperplane R) (l : line R) x : plane_wf n pl -> line_wf n l ->
  hit_plane_ray pl l = Some x <->
  [/\ size x = n, on_plane n pl x, on_ray n l x &
      forall y, size y = n -> on_plane n pl y -> on_ray n l y -> y = x].
Proof.
move=> wp wl; have [sd sb d1] := wl; rewrite /hit_plane_ray (hit_paramE wp sd sb); case: eqP => [nd|/eqP nd].
  split=> // -[sx px [t t0 lx] h].
  have [s1 e1] := rv_point_at (t + 1) wl.
  have ex : point_at l (t + 1) = x.
    apply: h => //; last by exists (t + 1) => //; rewrite addr_ge0.
    by move: px; rewrite /on_plane lx e1 !dotpDr !dotpZr nd !mulr0.
  have : rv n (direction l) == 0.
    have := congr1 (rv n) ex; rewrite e1 lx scalerDl scale1r => /addrI /eqP.
    by rewrite -subr_eq0 addrC addKr.
  by rewrite -dotp_eq0 (dot1 sd d1) oner_eq0.
set t := _ / _; have [s1 e1] := rv_point_at t wl; split.
  case: ifP => // t0 [<-]; split=> //; first exact/(common_point e1 nd).
    by exists t.
  move=> y sy py [u u0 uy]; apply: (rv_inj sy s1); rewrite e1 uy; congr (_ + _ *: _).
  exact/(common_point uy nd).
move=> [sx px [u u0 ux] _]; have eu : u = t by apply/(common_point ux nd).
by rewrite -eu u0; congr Some; have [s2 e2] := rv_point_at u wl; apply: (rv_inj s2 sx); rewrite e2 ux.
Qed.
Print Assumptions C48_ray.

(* segments: the code covers the half-open segment without its second end point *)
Definition in_segment (R : rcfType) n (s : segment R) (x : seq R) (P : R -> bool) :=
  exists2 t, P t & rv n x = rv n (point1 s) + t *: (rv n (point2 s) - rv n (point1 s)).
Definition half_open (R : rcfType) (t : R) := 0 <= t < 1.
Definition closed (R : rcfType) (t : R) := 0 <= t <= 1.

Lemma segment_lineP (R : rcfType) n (s : segment R) : (0 < n)%N -> size (point1 s) = n -> size (point2 s) = n -> point1 s != point2 s ->
  let L := vdistance (point1 s) (point2 s) in
  [/\ line_wf n (segment_line s), 0 < L & rv n (direction (segment_line s)) = L^-1 *: (rv n (point2 s) - rv n (point1 s))].
Proof.
move=> n0 s1 s2 ne L; have [sd d1 e] := segment_dirP s1 s2 n0.
have L0 : 0 < L.
  rewrite /L lt_def length_ge0 andbT length_eq0 -(rv_eq0 (size_vsub s1 s2)) rv_sub // subr_eq0.
  by apply: contra ne => /eqP h; apply/eqP; apply: rv_inj h.
split; [by split|by []|].
by rewrite e [X in L^-1 *: X]addrC addKr scalerA mulVf ?scale1r // gt_eqF.
Qed.

Theorem C48_segment_partial (R : rcfType) n (pl : hyperplane R) (s : segment R) x :
  plane_wf n pl -> (0 < n)%N -> size (point1 s) = n -> size (point2 s) = n -> point1 s != point2 s ->
  hit_plane_segment pl s = Some x <->
  [/\ size x = n, on_plane n pl x, in_segment n s x (@half_open R) &
      forall y, size y = n -> on_plane n pl y -> in_segment n s y (@half_open R) -> y = x].
Proof.
move=> wp n0 s1 s2 ne; have [wl L0 ed] := segment_lineP n0 s1 s2 ne; have [sd sb d1] := wl.
set L := vdistance _ _ in L0 ed.
have Ln : L != 0 by rewrite gt_eqF.
have eseg (t : R) : t *: (rv n (point2 s) - rv n (point1 s)) = (t * L) *: rv n (direction (segment_line s)).
  by rewrite ed scalerA mulfK.
have unit : rv n (direction (segment_line s)) == 0 -> False.
  by rewrite -dotp_eq0 (dot1 sd d1) oner_eq0.
rewrite /hit_plane_segment (hit_paramE wp sd sb); case: eqP => [nd|/eqP nd].
  split=> // -[sx px [t /andP [t0 t1] lx] h].
  pose pt (u : R) := point_at (segment_line s) (u * L).
  have hp u : half_open u -> pt u = x.
    move=> hu; have [s3 e3] := rv_point_at (u * L) wl; apply: h => //.
      by move: px; rewrite /on_plane lx e3 eseg !dotpDr !dotpZr nd !mulr0.
    by exists u => //; rewrite e3 eseg.
  have h2 : (2%:R : R) != 0 by rewrite pnatr_eq0.
  have e : pt 0 = pt (2%:R^-1) by rewrite !hp // /half_open ?lexx ?ltr01 // invr_ge0 ler0n invf_lt1 ?ltr0n // ltr1n.
  have := congr1 (rv n) e; rewrite (rv_point_at _ wl).2 (rv_point_at _ wl).2 => /addrI /eqP.
  rewrite mul0r scale0r eq_sym scaler_eq0 mulf_eq0 invr_eq0 (negbTE h2) (negbTE Ln) /=.
  by move=> /unit.
set t := _ / _; have [s3 e3] := rv_point_at t wl; rewrite -/L; split.
  case: ifP => // /andP [t0 tL] [<-].
  split=> //; first exact/(common_point e3 nd).
    exists (t / L); first by rewrite /half_open divr_ge0 ?(ltW L0) //= ltr_pdivr_mulr // mul1r.
    by rewrite eseg divfK.
  move=> y sy py [u u0 uy]; apply: (rv_inj sy s3); rewrite e3 uy eseg; congr (_ + _ *: _).
  by apply/(@common_point _ _ _ (segment_line s) y _ _ nd) => //; rewrite uy eseg.
move=> [sx px [u /andP [u0 u1] ux] _]; rewrite eseg in ux.
have eu : u * L = t by apply/(@common_point _ _ _ (segment_line s) x _ ux nd).
rewrite -eu mulr_ge0 ?(ltW L0) //= -[X in _ < X]mul1r ltr_pmul2r // u1; congr Some.
by have [s4 e4] := rv_point_at (u * L) wl; apply: (rv_inj s4 sx); rewrite e4 ux.
Qed.
Print Assumptions C48_segment_partial.

(* a plane through the second end point only is missed *)
Theorem C48_end_missed (R : rcfType) n (pl : hyperplane R) (s : segment R) :
  plane_wf n pl -> (0 < n)%N -> size (point1 s) = n -> size (point2 s) = n -> ~ on_plane n pl (point1 s) ->
  on_plane n pl (point2 s) ->
  hit_plane_segment pl s = None /\ in_segment n s (point2 s) (@closed R) /\
  forall y, size y = n -> on_plane n pl y -> in_segment n s y (@closed R) -> y = point2 s.
Proof.
move=> wp n0 s1 s2 p1 p2; have ne : point1 s != point2 s by apply: contra_notN p1 => /eqP ->.
have U (t : R) : scalar pl = dotp (rv n (normal pl)) (rv n (point1 s) + t *: (rv n (point2 s) - rv n (point1 s))) -> t = 1.
  move: p1 p2; rewrite /on_plane dotpDr dotpZr dotpBr => p1 ->; move: (dotp _ _) (scalar pl) p1 => a b ab e.
  have : (1 - t) * (b - a) = 0 by rewrite mulrBl mul1r {1}e; ring.
  by move/eqP; rewrite mulf_eq0 !subr_eq0 => /orP [/eqP //|/eqP h]; case: ab.
split; last split.
- case E: hit_plane_segment => [x|] //; move/(C48_segment_partial _ wp n0 s1 s2 ne): E => [sx px [t /andP [_ t1] ex] _].
  by move: t1; rewrite (U t) ?ltxx // -ex.
- by exists 1; [rewrite /closed ler01 lexx|rewrite scale1r addrC subrK].
- move=> y sy py [t _ ey]; apply: (rv_inj sy s2); rewrite ey (U t) -?ey //.
  by rewrite scale1r addrC subrK.
Qed.
Print Assumptions C48_end_missed.
Theorem C48_segment_refuted (R : rcfType) : exists (pl : hyperplane R) s x,
  [/\ plane_wf 2 pl, on_plane 2 pl x /\ in_segment 2 s x (@closed R),
      forall y, size y = 2%N -> on_plane 2 pl y -> in_segment 2 s y (@closed R) -> y = x & hit_plane_segment pl s = None].
Proof.
pose pl : hyperplane R := Plane [:: 1; 0] 1; pose s := Segment [:: 0; 0] [:: 1; 0] : segment R.
have [wp _] := C47_ex R; have {}wp : plane_wf 2 pl by case: wp.
have p1 : ~ on_plane 2 pl (point1 s).
  by rewrite /on_plane rv2E //= !mulr0 addr0 => /eqP; rewrite eq_sym oner_eq0.
have p2 : on_plane 2 pl (point2 s) by rewrite /on_plane rv2E //= mulr0 addr0 mulr1.
have [h1 [h2 h3]] := @C48_end_missed R 2 pl s wp isT erefl erefl p1 p2.
by exists pl, s, (point2 s); split.
Qed.
Print Assumptions C48_segment_refuted.

(** * C49: lines and segments in the plane *)
Theorem C49_line_line (R : rcfType) (l r : line R) x : line_wf 2 l -> line_wf 2 r ->
  hit_line_line l r = Some x <->
  [/\ size x = 2%N, on_line 2 l x, on_line 2 r x & forall y, size y = 2%N -> on_line 2 l y -> on_line 2 r y -> y = x].
Proof.
move=> wl wr; have H y (sy : size y = 2%N) := C46_line_plane wl sy.
have wp : plane_wf 2 (plane_of_line l) by case: (H [:: 0; 0]).
rewrite /hit_line_line (C47_plane_line _ wp wr); split=> -[sx h1 h2 h3]; split=> //.
- by apply/(H x sx).2.
- by move=> y sy l1 l2; apply: h3 => //; apply/(H y sy).2.
- by apply/(H x sx).2.
- by move=> y sy l1 l2; apply: h3 => //; apply/(H y sy).2.
Qed.
Print Assumptions C49_line_line.

Definition det2d (R : rcfType) (a b : 'rV[R]_2) : R := a 0 0 * b 0 1 - a 0 1 * b 0 0.
Lemma det2dZ (R : rcfType) (p q : R) a b : det2d (p *: a) (q *: b) = p * q * det2d a b.
Proof. rewrite /det2d !mxE; move: (a 0 0) (a 0 1) (b 0 0) (b 0 1) => x y z w; ring. Qed.
Definition edge (R : rcfType) n (s : segment R) : 'rV[R]_n := rv n (point2 s) - rv n (point1 s).

Lemma is_withinP (R : rcfType) n neg0 (s : segment R) x t :
  size (point1 s) = n -> size (point2 s) = n -> size x = n -> point1 s != point2 s ->
  rv n x = rv n (point1 s) + t *: edge n s -> is_within neg0 s x = (0 <= t <= 1).
Proof.
move=> s1 s2 sx ne ex; rewrite /is_within; set e := vsub (point2 s) (point1 s).
have se : size e = n by apply: size_vsub.
have n0 : (0 < n)%N by case: n s1 s2 {ex sx se} => // /size0nil h1 /size0nil h2; rewrite h1 h2 eqxx in ne.
have ee : rv n e = edge n s by rewrite /e rv_sub.
clearbody e.
have nabs i : nth 0 [seq `|x| | x <- e] i = `|nth 0 e i|.
  have [h|h] := ltnP i n; first by rewrite (nth_map 0) ?se.
  by rewrite !nth_default ?size_map ?se // normr0.
have [||/andP [_ kn] kmax] := @max_elementP R 0 [seq `|x| | x <- e]; first by rewrite size_map se.
  by move=> i; rewrite nabs normr_real.
move: kn kmax; set k := max_element 0 _ => kn kmax; rewrite size_map se in kn kmax.
have lk : 0 < `|nth 0 e k|.
  rewrite normr_gt0; apply: contra ne => /eqP ek; apply/eqP; apply: (rv_inj s1 s2); symmetry; apply/eqP.
  rewrite -subr_eq0 -/(edge n s) -ee; apply/eqP/rowP => i; rewrite !mxE; apply/eqP; rewrite -normr_eq0 -normr_le0.
  by rewrite normr_id; have := kmax i (ltn_ord i); rewrite !nabs ek normr0.
have -> : nth 0 (vsub x (point1 s)) k = t * nth 0 e k.
  have := congr1 (fun v : 'rV_n => v 0 (Ordinal kn)) ex.
  by rewrite (nth_vsub _ sx s1) -ee !mxE /= => ->; rewrite addrC addKr.
have -> : copysign neg0 1 (nth 0 e k) * (t * nth 0 e k) = t * `|nth 0 e k|.
  by rewrite -{2}(copysign1_mul neg0 (nth 0 e k)) mulrCA [_ * (`|_| * _)]mulrCA copysign1 mulr1.
rewrite pmulr_lge0 //; congr (_ && _).
by rewrite -[X in _ * _ <= X]mul1r ler_pmul2r.
Qed.

(* IsWithin of a ray, for a point of its carrier line: exactly the points ahead of the base. No Intersect calls it. *)
Theorem C49_ray_within (R : rcfType) n neg0 (r : line R) x t :
  size (base r) = n -> size (direction r) = n -> size x = n -> rv n (direction r) != 0 ->
  rv n x = rv n (base r) + t *: rv n (direction r) -> is_within_ray neg0 r x = (0 <= t).
Proof.
move=> s1 se sx ne ex; rewrite /is_within_ray; move: se ne ex; set e := direction r => se ne ex.
have n0 : (0 < n)%N by case: n se ne {ex sx s1} => // _ /eqP []; apply/rowP => -[].
have nabs i : nth 0 [seq `|x| | x <- e] i = `|nth 0 e i|.
  have [h|h] := ltnP i n; first by rewrite (nth_map 0) ?se.
  by rewrite !nth_default ?size_map ?se // normr0.
have [||/andP [_ kn] kmax] := @max_elementP R 0 [seq `|x| | x <- e]; first by rewrite size_map se.
  by move=> i; rewrite nabs normr_real.
move: kn kmax; set k := max_element 0 _ => kn kmax; rewrite size_map se in kn kmax.
have lk : 0 < `|nth 0 e k|.
  rewrite normr_gt0; apply: contra ne => /eqP ek.
  apply/eqP/rowP => i; rewrite !mxE; apply/eqP; rewrite -normr_eq0 -normr_le0.
  by rewrite normr_id; have := kmax i (ltn_ord i); rewrite !nabs ek normr0.
have -> : nth 0 (vsub x (base r)) k = t * nth 0 e k.
  have := congr1 (fun v : 'rV_n => v 0 (Ordinal kn)) ex.
  by rewrite (nth_vsub _ sx s1) !mxE /= => ->; rewrite addrC addKr.
have -> : copysign neg0 1 (nth 0 e k) * (t * nth 0 e k) = t * `|nth 0 e k|.
  by rewrite -{2}(copysign1_mul neg0 (nth 0 e k)) mulrCA [_ * (`|_| * _)]mulrCA copysign1 mulr1.
by rewrite pmulr_lge0.
Qed.
Print Assumptions C49_ray_within.

Example C49_ray_within_ex (R : rcfType) :
  is_within_ray false (Line [:: 3%:R; - 4%:R] [:: 1; 0 : R]) [:: 4%:R; - 4%:R] = true /\
  is_within_ray false (Line [:: 3%:R; - 4%:R] [:: 1; 0 : R]) [:: - 2%:R; 4%:R] = false.
Proof.
have E y : rv 2 [:: 1 + y * 3%:R; y * - 4%:R] = rv 2 [:: 1; 0] + y *: rv 2 [:: 3%:R; - 4%:R : R].
  by apply/rowP => -[[|[|]]] // h; rewrite !mxE /= ?add0r.
have nz : rv 2 [:: 3%:R; - 4%:R : R] != 0.
  by apply/eqP => /rowP /(_ 0); rewrite !mxE /= => /eqP; rewrite pnatr_eq0.
split.
- rewrite (@C49_ray_within R 2 false _ _ 1) ?ler01 //= -E !mul1r; congr (rv 2 [:: _; _]).
- rewrite (@C49_ray_within R 2 false _ _ (-1)) ?oppr_ge0 ?ler10 //= -E !mulN1r opprK; congr (rv 2 [:: _; _]).
  by rewrite -(opprB 3%:R 1) -(natrB R (isT : (1 <= 3)%N)).
Qed.

Lemma on_segment_line (R : rcfType) n (s : segment R) x : (0 < n)%N -> size (point1 s) = n -> size (point2 s) = n -> point1 s != point2 s ->
  on_line n (segment_line s) x <-> exists t, rv n x = rv n (point1 s) + t *: edge n s.
Proof.
move=> n0 s1 s2 ne; have [wl L0 ed] := segment_lineP n0 s1 s2 ne; have Ln := gt_eqF L0.
split=> -[t e]; first by exists (t / vdistance (point1 s) (point2 s)); rewrite e ed scalerA.
by exists (t * vdistance (point1 s) (point2 s)); rewrite e ed scalerA mulfK // Ln.
Qed.

(* a segment consisting of one point is given the direction (1, 0) *)
Definition carrier (R : rcfType) (s : segment R) : 'rV[R]_2 :=
  if point1 s == point2 s then \row_j (if j == 0 then 1 else 0) else edge 2 s.
Lemma degenerate_dir (R : rcfType) (s : segment R) : size (point1 s) = 2%N -> point1 s = point2 s ->
  segment_direction s = [:: 1; 0] /\ vsub (point2 s) (point1 s) = [:: 0; 0].
Proof.
rewrite /segment_direction => s1 <-; have -> : vsub (point1 s) (point1 s) = [:: 0; 0].
  by apply: (@eq_from_nth _ 0) => [|[|[|i]]]; rewrite (size_vsub s1 s1) // (nth_vsub _ s1 s1) subrr.
by rewrite normalize_precise0E /= eqxx.
Qed.
Lemma within_closed (R : rcfType) neg0 (s : segment R) x :
  size (point1 s) = 2%N -> size (point2 s) = 2%N -> size x = 2%N -> on_line 2 (segment_line s) x ->
  is_within neg0 s x <-> in_segment 2 s x (@closed R).
Proof.
move=> s1 s2 sx; have [dg|ne] := eqVneq (point1 s) (point2 s); last first.
  move/(on_segment_line _ (isT : (0 < 2)%N) s1 s2 ne) => [t et]; rewrite (is_withinP neg0 s1 s2 sx ne et).
  split=> [h|[u hu eu]]; first by exists t.
  by move: hu; rewrite /closed -(is_withinP neg0 s1 s2 sx ne eu) (is_withinP neg0 s1 s2 sx ne et).
have [ed ee] := degenerate_dir s1 dg.
rewrite /on_line /= ed => -[t et].
have x0 : nth 0 x 0 - nth 0 (point1 s) 0 = t.
  by move/rowP/(_ 0): et; rewrite !mxE /= mulr1 => ->; rewrite addrC addKr.
rewrite /is_within ee (_ : max_element _ _ = 0%N); last by rewrite /max_element /for_loop /= normr0 ltxx.
rewrite (nth_vsub _ sx s1) x0 /= normr0 -eq_le; split.
  move=> /eqP h; have t0 : t = 0.
    by have := copysign1 neg0 (0 : R); have := congr1 (fun z => copysign neg0 1 0 * z) h; rewrite mulr0 mulrA => e e1; move: e; rewrite e1 mul1r.
  by exists 0; [rewrite /closed lexx ler01|rewrite et t0 !scale0r].
move=> [u _]; rewrite dg subrr scaler0 addr0 -dg => /rowP /(_ 0); rewrite !mxE /= => e.
by rewrite -x0 e subrr mulr0.
Qed.
Lemma closed_on_line (R : rcfType) (s : segment R) x :
  size (point1 s) = 2%N -> size (point2 s) = 2%N -> in_segment 2 s x (@closed R) -> on_line 2 (segment_line s) x.
Proof.
move=> s1 s2 [t _ et]; have [dg|ne] := eqVneq (point1 s) (point2 s); last first.
  by apply/on_segment_line => //; exists t.
by exists 0; rewrite /= et dg subrr scaler0 scale0r.
Qed.
Lemma carrierP (R : rcfType) (s : segment R) : size (point1 s) = 2%N -> size (point2 s) = 2%N ->
  line_wf 2 (segment_line s) /\ exists2 p, p != 0 & rv 2 (direction (segment_line s)) = p *: carrier s.
Proof.
move=> s1 s2; have [dg|ne] := eqVneq (point1 s) (point2 s); last first.
  have [wl L0 ed] := segment_lineP (isT : (0 < 2)%N) s1 s2 ne; split=> //.
  by rewrite /carrier (negbTE ne); exists (vdistance (point1 s) (point2 s))^-1; rewrite ?invr_eq0 ?gt_eqF.
have [ed ee] := degenerate_dir s1 dg; split.
  by split=> //=; rewrite ed //; apply: (@length_unit0 R 2).
exists 1; rewrite ?oner_eq0 // scale1r /carrier dg eqxx /= ed.
by apply/rowP => -[[|[|i]] hi] //; rewrite !mxE.
Qed.

Theorem C49_segment_segment (R : rcfType) neg0 neg1 (l r : segment R) x :
  size (point1 l) = 2%N -> size (point2 l) = 2%N -> size (point1 r) = 2%N -> size (point2 r) = 2%N ->
  hit_segment_segment neg0 neg1 l r = Some x <->
  [/\ size x = 2%N, det2d (carrier l) (carrier r) != 0, in_segment 2 l x (@closed R) & in_segment 2 r x (@closed R)].
Proof.
move=> l1 l2 r1 r2; have [wl [p p0 el]] := carrierP l1 l2; have [wr [q q0 er]] := carrierP r1 r2.
have H y := C49_line_line y wl wr.
have wp : plane_wf 2 (plane_of_line (segment_line l)) by case: (C46_line_plane wl (erefl : size [:: 0; 0] = 2%N)).
have par : hit_line_line (segment_line l) (segment_line r) = None <-> det2d (carrier l) (carrier r) = 0.
  rewrite /hit_line_line (C47_parallel wp wr).
  have -> : dotp (rv 2 (normal (plane_of_line (segment_line l)))) (rv 2 (direction (segment_line r))) =
            det2d (rv 2 (direction (segment_line l))) (rv 2 (direction (segment_line r))).
    have [sd _ _] := wl; have [sd' _ _] := wr; rewrite rv2E // /det2d !mxE /=.
    move: (nth 0 _ 0) (nth 0 _ 1) (nth 0 _ 0) (nth 0 _ 1) => a b c d; ring.
  rewrite el er det2dZ; split=> [/eqP|->]; last by rewrite mulr0.
  by rewrite !mulf_eq0 (negbTE p0) (negbTE q0) => /eqP.
rewrite /hit_segment_segment; split.
  case E: hit_line_line => [y|] //; case: ifP => // /andP [yl yr] [<-].
  have [sy ol or' _] := (H y).1 E.
  by split=> //; [apply/eqP => /par; rewrite E|apply/(within_closed neg0)|apply/(within_closed neg1)].
move=> [sx nd cl cr].
case E: hit_line_line => [y|]; last by move/par: E nd => ->; rewrite eqxx.
have [_ _ _ uniq] := (H y).1 E.
have ol := closed_on_line l1 l2 cl; have or' := closed_on_line r1 r2 cr.
rewrite -(uniq x sx ol or').
have /within_closed -> // : in_segment 2 l x (@closed R) by []; have /within_closed -> // : in_segment 2 r x (@closed R) by [].
Qed.
Print Assumptions C49_segment_segment.
(* line and segment: again without the second end point *)
Theorem C48_line_segment_partial (R : rcfType) (l : line R) (s : segment R) x : line_wf 2 l ->
  size (point1 s) = 2%N -> size (point2 s) = 2%N -> point1 s != point2 s ->
  hit_line_segment l s = Some x <->
  [/\ size x = 2%N, on_line 2 l x, in_segment 2 s x (@half_open R) &
      forall y, size y = 2%N -> on_line 2 l y -> in_segment 2 s y (@half_open R) -> y = x].
Proof.
move=> wl s1 s2 ne; have H y (sy : size y = 2%N) := C46_line_plane wl sy.
have wp : plane_wf 2 (plane_of_line l) by case: (H [:: 0; 0]).
rewrite /hit_line_segment (C48_segment_partial _ wp) //; split=> -[sx h1 h2 h3]; split=> //.
- by apply/(H x sx).2.
- by move=> y sy a b; apply: h3 => //; apply/(H y sy).2.
- by apply/(H x sx).2.
- by move=> y sy a b; apply: h3 => //; apply/(H y sy).2.
Qed.
Print Assumptions C48_line_segment_partial.
(* end points count for two segments *)
Example C49_ex (R : rcfType) : hit_segment_segment false true
  (Segment [:: 0; 0] [:: 2%:R; 0]) (Segment [:: 2%:R; 2%:R] [:: 2%:R; 0] : segment R) = Some [:: 2%:R; 0].
Proof.
have h2 : (2%:R : R) != 0 by rewrite pnatr_eq0.
apply/C49_segment_segment => //.
have n1 : [:: 0; 0] != [:: 2%:R; 0] :> seq R by apply: contra h2 => /eqP [] <-.
have n2 : [:: 2%:R; 2%:R] != [:: 2%:R; 0] :> seq R by apply: contra h2 => /eqP [] ->.
rewrite /carrier /= (negbTE n1) (negbTE n2).
split=> //; first by rewrite (_ : det2d _ _ = - (2%:R * 2%:R)); [rewrite oppr_eq0 mulf_neq0|rewrite /det2d !mxE /=; ring].
  by exists 1; [rewrite /closed ler01 lexx|apply/rowP => i; rewrite !mxE /=; ring].
by exists 1; [rewrite /closed ler01 lexx|apply/rowP => i; rewrite !mxE /=; ring].
Qed.

(** * C50: ray and triangle *)
(* the determinant that decides whether ray and plane of the triangle are parallel: edge1 . (direction x edge2) *)
Definition triple (R : rcfType) (a b c : seq R) : R :=
  nth 0 a 0 * (nth 0 b 1 * nth 0 c 2 - nth 0 b 2 * nth 0 c 1) + nth 0 a 1 * (nth 0 b 2 * nth 0 c 0 - nth 0 b 0 * nth 0 c 2) +
  nth 0 a 2 * (nth 0 b 0 * nth 0 c 1 - nth 0 b 1 * nth 0 c 0).
(* barycentric coordinates 1 - u - v, u, v and ray parameter d >= lo *)
Definition hits_at (R : rcfType) (r : line R) (t : triangle R) (x : seq R) (lo : R) :=
  exists u v d, [/\ 0 <= u, 0 <= v, u + v <= 1 & lo <= d] /\
    rv 3 x = rv 3 (base r) + d *: rv 3 (direction r) /\
    rv 3 x = (1 - u - v) *: rv 3 (ca t) + u *: rv 3 (cb t) + v *: rv 3 (cc t).
Definition tri_wf (R : rcfType) n (t : triangle R) := [/\ size (ca t) = n, size (cb t) = n & size (cc t) = n].

Theorem C50_ray_triangle_partial (R : rcfType) (eps : R) (r : line R) (t : triangle R) x : 0 < eps ->
  size (direction r) = 3%N -> size (base r) = 3%N -> tri_wf 3 t ->
  hit_ray_triangle eps r t = Some x <->
  [/\ size x = 3%N, eps <= `|triple (vsub (cb t) (ca t)) (direction r) (vsub (cc t) (ca t))| & hits_at r t x eps].
Proof.
case: r t => [d0 b0] [A B C] e0 /= sd sb [/= sA sB sC].
rewrite /hit_ray_triangle /hits_at /point_at /=.
move: sd sb sA sB sC => /(seq3 0) -> /(seq3 0) -> /(seq3 0) -> /(seq3 0) -> /(seq3 0) ->.
move: (nth 0 d0 0) (nth 0 d0 1) (nth 0 d0 2) (nth 0 b0 0) (nth 0 b0 1) (nth 0 b0 2) => dx dy dz px py pz.
move: (nth 0 A 0) (nth 0 A 1) (nth 0 A 2) (nth 0 B 0) (nth 0 B 1) (nth 0 B 2) (nth 0 C 0) (nth 0 C 1) (nth 0 C 2) => ax ay az bx by' bz cx cy cz.
rewrite !cross3E /vsub /vscale /vadd /vmap2 /triple /vdot /vsum /= !add0r.
set D := (bx - ax) * _ + _ + _.
set NU := (px - ax) * (dy * (cz - az) - dz * (cy - ay)) + _ + _.
set NV := dx * ((py - ay) * (bz - az) - (pz - az) * (by' - ay)) + _ + _.
set ND := (cx - ax) * ((py - ay) * (bz - az) - (pz - az) * (by' - ay)) + _ + _.
case: ltP => [hD|hD]; first by split=> // -[].
have D0 : D != 0 by rewrite -normr_gt0; apply: lt_le_trans hD.
have FX : D * (px - ax) + ND * dx = NU * (bx - ax) + NV * (cx - ax) by rewrite /D /ND /NU /NV; ring.
have FY : D * (py - ay) + ND * dy = NU * (by' - ay) + NV * (cy - ay) by rewrite /D /ND /NU /NV; ring.
have FZ : D * (pz - az) + ND * dz = NU * (bz - az) + NV * (cz - az) by rewrite /D /ND /NU /NV; ring.
rewrite !mul1r ![D^-1 * _]mulrC.
have div p q dd a b c : D * (p - a) + ND * dd = NU * (b - a) + NV * (c - a) ->
    q = p + ND / D * dd -> q = (1 - NU / D - NV / D) * a + NU / D * b + NV / D * c.
  move=> h ->; have -> : ND / D * dd = D^-1 * (NU * (b - a) + NV * (c - a) - D * (p - a)) by rewrite -h; ring.
  by field.
split.
  case: ifP => // /negbT; rewrite negb_or -!leNgt => /andP [u0 u1].
  case: ifP => // /negbT; rewrite negb_or -!leNgt => /andP [v0 uv1].
  case: ltP => // hd [<-]; split=> //; exists (NU / D), (NV / D), (ND / D); split=> //; split.
    by apply/rowP => -[[|[|[|i]]] hi] //; rewrite !mxE /=.
  by apply/rowP => -[[|[|[|i]]] hi] //; rewrite !mxE /=; [exact: (div _ _ _ _ _ _ FX)|exact: (div _ _ _ _ _ _ FY)|exact: (div _ _ _ _ _ _ FZ)].
move=> [sx _ [u [v [d [[u0 v0 uv hd] [e1 e2]]]]]].
have /rowP e := etrans (esym e1) e2.
have := e 0; have := e 1; have := e (2%:R : 'I_3); rewrite !mxE /= => ez ey ex.
have px' : px = (1 - u - v) * ax + u * bx + v * cx - d * dx by rewrite -ex; ring.
have py' : py = (1 - u - v) * ay + u * by' + v * cy - d * dy by rewrite -ey; ring.
have pz' : pz = (1 - u - v) * az + u * bz + v * cz - d * dz by rewrite -ez; ring.
have -> : NU / D = u by apply: (canLR (mulfK D0)); rewrite /NU /D px' py' pz'; ring.
have -> : NV / D = v by apply: (canLR (mulfK D0)); rewrite /NV /D px' py' pz'; ring.
have -> : ND / D = d by apply: (canLR (mulfK D0)); rewrite /ND /D px' py' pz'; ring.
rewrite !ltNge u0 v0 uv hd (le_trans _ uv) ?ler_addl //=; congr Some.
apply: (@rv_inj _ 3) => //; rewrite e1.
by apply/rowP => -[[|[|[|i]]] hi] //; rewrite !mxE /=.
Qed.
Print Assumptions C50_ray_triangle_partial.

Definition unit_tri (R : rcfType) (h : R) : triangle R := Triangle [:: 0; 0; 0] [:: h; 0; 0] [:: 0; 1; 0].
(* a ray starting on the triangle, or hitting it closer than eps, is missed *)
Theorem C50_near_refuted (R : rcfType) (eps : R) : 0 < eps -> eps <= 1 -> exists (r : line R) t x,
  [/\ line_wf 3 r, tri_wf 3 t, triple (vsub (cb t) (ca t)) (direction r) (vsub (cc t) (ca t)) != 0, hits_at r t x 0 &
      hit_ray_triangle eps r t = None].
Proof.
move=> e0 e1; exists (Line [:: 0; 0; 1] [:: 2%:R^-1; 2%:R^-1; 0]), (unit_tri 1), [:: 2%:R^-1; 2%:R^-1; 0].
have h2 : 0 <= (2%:R^-1 : R) by rewrite invr_ge0 ler0n.
have h22 : (2%:R^-1 + 2%:R^-1 : R) = 1 by field.
split; [split=> //|by []| | | ].
- by rewrite /vlength /length_squared /vdot /vsum /= -[RHS]sqrtr1; congr Num.sqrt; ring.
- by rewrite (_ : triple _ _ _ = -1) ?oppr_eq0 ?oner_eq0 // /triple /vsub /vmap2 /=; ring.
- exists (2%:R^-1), (2%:R^-1), 0; split; first by rewrite h2 h22 !lexx.
  by split; apply/rowP => -[[|[|[|i]]] hi] //; rewrite !mxE /=; field.
case E: hit_ray_triangle => [x|] //; have [] := (@C50_ray_triangle_partial R eps (Line [:: 0; 0; 1] [:: 2%:R^-1; 2%:R^-1; 0]) (unit_tri 1) x e0 erefl erefl _).1 E => //.
move=> _ _ [u [v [d [[u0 v0 uv hd] [f1 f2]]]]].
have /rowP /(_ (2%:R : 'I_3)) := etrans (esym f1) f2; rewrite !mxE /= !mulr0 !addr0 add0r mulr1 => d0.
by move: hd; rewrite d0 leNgt e0.
Qed.
Print Assumptions C50_near_refuted.
(* a triangle that is small compared with eps is missed even when the hit is far away *)
Theorem C50_small_refuted (R : rcfType) (eps : R) : 0 < eps -> eps <= 1 -> exists (r : line R) t x,
  [/\ line_wf 3 r, tri_wf 3 t, triple (vsub (cb t) (ca t)) (direction r) (vsub (cc t) (ca t)) != 0, hits_at r t x 1 &
      hit_ray_triangle eps r t = None].
Proof.
move=> e0 e1; pose h : R := eps / 2%:R; pose r : line R := Line [:: 0; 0; 1] [:: h / 2%:R; 2%:R^-1; -1].
exists r, (unit_tri h), [:: h / 2%:R; 2%:R^-1; 0].
have h2 : 0 <= (2%:R^-1 : R) by rewrite invr_ge0 ler0n.
have h22 : (2%:R^-1 + 2%:R^-1 : R) = 1 by field.
have h0 : 0 < h by rewrite divr_gt0 ?ltr0n.
have tr : triple (vsub (cb (unit_tri h)) (ca (unit_tri h))) (direction r) (vsub (cc (unit_tri h)) (ca (unit_tri h))) = - h.
  by rewrite /triple /vsub /vmap2 /=; ring.
split; [split=> //|by []| | | ].
- by rewrite /vlength /length_squared /vdot /vsum /= -[RHS]sqrtr1; congr Num.sqrt; ring.
- by rewrite tr oppr_eq0 gt_eqF.
- exists (2%:R^-1), (2%:R^-1), 1; split; first by rewrite h2 h22 !lexx.
  by split; apply/rowP => -[[|[|[|i]]] hi] //; rewrite !mxE /=; field.
case E: hit_ray_triangle => [x|] //; have [] := (@C50_ray_triangle_partial R eps r (unit_tri h) x e0 erefl erefl _).1 E => //.
by rewrite tr normrN gtr0_norm // leNgt /h ltr_pdivr_mulr ?ltr0n // ltr_pmulr // ltr1n.
Qed.
Print Assumptions C50_small_refuted.
Example C50_ex (R : rcfType) (eps : R) : 0 < eps -> eps <= 1 -> exists x,
  hit_ray_triangle eps (Line [:: 0; 0; 1] [:: 4%:R^-1; 4%:R^-1; -2%:R]) (unit_tri 1) = Some x.
Proof.
move=> e0 e1; exists [:: 4%:R^-1; 4%:R^-1; 0]; apply/C50_ray_triangle_partial => //; split=> //.
  by rewrite (_ : triple _ _ _ = -1) ?normrN1 // /triple /vsub /vmap2 /=; ring.
exists (4%:R^-1), (4%:R^-1), 2%:R; split; first (split; rewrite ?invr_ge0 ?ler0n //).
- by rewrite (_ : _ + _ = 2%:R^-1); [rewrite invf_le1 ?ltr0n // ler1n|field].
- by apply: le_trans e1 _; rewrite ler1n.
by split; apply/rowP => -[[|[|[|i]]] hi] //; rewrite !mxE /=; field.
Qed.

(** * C51: area and centroid *)
Theorem C51_area (R : rcfType) (tmin tmax : R) n (t : triangle R) : 0 < tmin -> tmin <= tmax -> tri_wf n t ->
  let e1 := rv n (cb t) - rv n (ca t) in
  let e2 := rv n (cc t) - rv n (ca t) in
  area tmin tmax t = Some (Num.sqrt (dotp e1 e1 * dotp e2 e2 - dotp e1 e2 ^+ 2) / 2%:R).
Proof.
move=> t0 t1 [sa sb sc] e1 e2; rewrite /area /heron.
rewrite !length_preciseE //=.
have q0 := vlength_sq (size_vsub sa sb); have q1 := vlength_sq (size_vsub sa sc); have q2 := vlength_sq (size_vsub sb sc).
move: q0 q1 q2; rewrite !rv_sub //.
have -> : rv n (ca t) - rv n (cb t) = - e1 by rewrite opprB.
have -> : rv n (ca t) - rv n (cc t) = - e2 by rewrite opprB.
have -> : rv n (cb t) - rv n (cc t) = e1 - e2 by rewrite /e1 /e2 opprB addrA subrK.
have C : dotp e1 e2 ^+ 2 <= dotp e1 e1 * dotp e2 e2.
  have s1 := size_vsub sb sa; have s2 := size_vsub sc sa; have := cauchy s1 s2.
  by rewrite !(vdot_rv s1 s1, vdot_rv s1 s2, vdot_rv s2 s2) !rv_sub.
clearbody e1 e2.
have N (u : 'rV[R]_n) : dotp (- u) (- u) = dotp u u by rewrite dotpNl dotpC dotpNl opprK.
rewrite !N dotpBl !dotpBr (dotpC e2 e1) {N}.
move: (vlength _) (vlength _) (vlength _) C => x y z; move: (dotp e1 e1) (dotp e2 e2) (dotp e1 e2) => p q r C ex ey ez; rewrite {e1 e2}.
set H := (X in 0 <= X); rewrite -/H.
have -> : H = (p * q - r ^+ 2) / 2%:R ^+ 2.
  have -> : r = (z ^+ 2 + y ^+ 2 - x ^+ 2) / 2%:R by rewrite -ex -ey -ez; field.
  by rewrite ex ey /H; field.
by rewrite divr_ge0 ?exprn_ge0 ?ler0n ?subr_ge0 // sqrtrM ?subr_ge0 // sqrtrV ?sqr_ge0 // sqrtr_sqr ger0_norm ?ler0n.
Qed.
Print Assumptions C51_area.
Theorem C51_area2 (R : rcfType) (tmin tmax : R) (t : triangle R) : 0 < tmin -> tmin <= tmax -> tri_wf 2 t ->
  area tmin tmax t = Some (`|det2d (rv 2 (cb t) - rv 2 (ca t)) (rv 2 (cc t) - rv 2 (ca t))| / 2%:R).
Proof.
move=> t0 t1 w; rewrite (C51_area t0 t1 w); congr (Some (_ / _)); rewrite -sqrtr_sqr; congr Num.sqrt.
rewrite /dotp !big_ord_recr !big_ord0 /= !add0r /det2d; move: (rv 2 (cb t) - _) (rv 2 (cc t) - _) => a b.
rewrite (_ : widen_ord _ _ = 0); last by apply/val_inj.
rewrite (_ : ord_max = 1); last by apply/val_inj.
move: (a 0 0) (a 0 1) (b 0 0) (b 0 1) => x y z w'; ring.
Qed.
Print Assumptions C51_area2.
Theorem C51_area3 (R : rcfType) (tmin tmax : R) (t : triangle R) : 0 < tmin -> tmin <= tmax -> tri_wf 3 t ->
  area tmin tmax t = Some (vlength (cross3 (vsub (cb t) (ca t)) (vsub (cc t) (ca t))) / 2%:R).
Proof.
move=> t0 t1 w; have [sa sb sc] := w; rewrite (C51_area t0 t1 w); congr (Some (_ / _)); rewrite /vlength; congr Num.sqrt.
have s1 := size_vsub sb sa; have s2 := size_vsub sc sa.
have [_ _ _ e _] := C13_cross3 s1 s2 s1; rewrite /length_squared e.
by rewrite !(vdot_rv s1 s1, vdot_rv s1 s2, vdot_rv s2 s2) !rv_sub.
Qed.
Print Assumptions C51_area3.
Theorem C51_centroid (R : rcfType) n (t : triangle R) : tri_wf n t -> exists g,
  [/\ centroid t = Some g, size g = n & rv n (ca t) + rv n (cb t) + rv n (cc t) = 3%:R *: rv n g].
Proof.
move=> [sa sb sc]; rewrite /centroid /vdivs pnatr_eq0 /=; eexists; split; first by [].
  by rewrite size_map (size_vadd (size_vadd sa sb) sc).
apply/rowP => i; rewrite !mxE (nth_map 0) ?(size_vadd (size_vadd sa sb) sc) // (nth_vadd _ (size_vadd sa sb) sc) (nth_vadd _ sa sb).
by rewrite mulrC divfK // pnatr_eq0.
Qed.
Print Assumptions C51_centroid.
Example C51_ex (R : rcfType) : area 1 1 (Triangle [:: 0; 0] [:: 3%:R; 0] [:: 0; 4%:R] : triangle R) = Some 6%:R.
Proof.
rewrite C51_area2 ?ltr01 //; congr Some; rewrite /det2d !mxE /= (_ : _ - _ = 12%:R); last by ring.
by rewrite ger0_norm ?ler0n //; field.
Qed.
