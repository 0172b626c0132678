(* Property C60: the look-at (view) transform *)
From mathcomp Require Import all_ssreflect all_algebra.
From mathcomp Require Import ring.
From Verif Require Import M_Vec M_Mat M_Cross M_Quat M_Transform Spec P_Vec P_Mat P_Det P_Cross P_Transform P_Rot2 P_Proj P_View P_View2 Props_Det.
Set Implicit Arguments. Unset Strict Implicit. Unset Printing Implicit Defensive.
Import Order.Theory GRing.Theory Num.Theory.
Local Open Scope ring_scope.

(* what the caller has to supply: d >= 2 dimensions, a target matrix holding a translation, and d - 2 basis vectors
   that are independent of each other and of the look direction *)
Definition posed (R : rcfType) (follow : bool) (r c : nat) (eye target : seq R) (bases : seq (seq R)) (flips : seq bool) : Prop :=
  let d := size eye in
  [/\ [/\ (1 < d)%N, shape follow d r c & frows follow r c = d.+1],
      size target = d, size bases = (d - 2)%N /\ (forall v, v \in bases -> size v = d), size flips = d &
      free [seq rv d v | v <- vsub eye target :: bases]].
(* the condition inherited from the cross product (C14): at most five dimensions, or nonzero leading minors *)
Definition cross_works (R : rcfType) (eye target : seq R) (bases : seq (seq R)) : Prop :=
  let d := size eye in let args := rcons bases (vsub eye target) in
  (d <= 5)%N \/ forall idx k, (idx < d)%N -> (0 < k)%N -> (k + 3 <= d)%N ->
     \det (\matrix_(i < k, j < k) nth 0 (nth [::] args i) (bump idx j)) != 0.

Section Camera.
Variable R : rcfType.
Implicit Types (eye target p q : seq R) (bases : seq (seq R)) (flips : seq bool).

Lemma dot_sub2 d (a b x : seq R) : size a = d -> size b = d -> size x = d ->
  \sum_(l < d) nth 0 a l * nth 0 x l + - vdot id b x = vdot id (vsub a b) x.
Proof. by move=> sa sb sx; rewrite (dot_subl sa sb sx) (@vdot_idE _ d a). Qed.

Lemma camera_axes follow rm jk r c eye target bases flips :
  posed follow r c eye target bases flips -> cross_works eye target bases ->
  exists m cols n, [/\ size eye = n.+1, view follow rm jk r c eye target bases flips = Some m,
    forall p, size p = n.+1 -> transform follow n.+1 r c m p = Some (mkseq (fun j => vdot id (vsub p eye) (nth [::] cols j)) n.+1),
    (\det (mxof n.+1 n.+1 m) = (-1) ^+ (n + count id flips)) &
  [/\ forall j, (j <= n)%N -> size (nth [::] cols j) = n.+1,
      forall i j, (i <= n)%N -> (j <= n)%N -> vdot id (nth [::] cols i) (nth [::] cols j) = (i == j)%:R,
      forall j, (j <= n)%N -> vdot id (vsub eye target) (nth [::] cols j) =
         if j == n then flip_sign R flips n * vlength (vsub eye target) else 0,
      forall i, (i < n.-1)%N -> vdot id (nth [::] bases i) (nth [::] cols 0) = 0 /\
        (forall j, (i.+1 < j < n)%N -> vdot id (nth [::] bases i) (nth [::] cols j) = 0) &
      forall i, (i < n.-1)%N -> 0 < flip_sign R flips i.+1 * vdot id (nth [::] bases i) (nth [::] cols i.+1)]].
Proof.
rewrite /posed /cross_works; case se: (size eye) => [|n]; first by case=> [[]].
case=> [[n0 hs ea] st [sb hb] sf hf] hg; rewrite ltnS in n0.
have hm : minors_ok n (rcons bases (vsub eye target)).
  case: hg => [h|h]; [by left|right=> idx k k0 hk; apply: h => //].
  by rewrite addnS ltnS.
have sb' : size bases = n.-1 by rewrite sb subn2.
have [cols e [[sc scj _] h1 h2 h3 h4]] := view_rotation_spec n0 jk flips se st sb' hb hf hm.
have hdet := view_orientation n0 se st sb' hb hf hm sf e.
have := @view_affine R follow rm jk r c eye target bases flips cols; rewrite se => va.
have [m em hA] := va isT hs ea e sc scj.
exists m, cols, n; split=> //; last 1 first.
- rewrite -hdet; have [w hm'] := hA; have [/andP [a1 a2] /andP [b1 b2]] := shape_dims hs.
  have hf' (i j : 'I_n.+1) : fget follow m i j = nth 0 (nth [::] cols j) i.
    by rewrite hm' ?(leq_trans (ltn_ord _) a1) ?(leq_trans (ltn_ord _) b1) // !ltn_ord.
  case: (follow) hf' => hf'; [rewrite -[RHS]det_tr|]; congr (\det _); apply/matrixP => i j; rewrite !mxE.
    exact: hf'.
  exact: hf' j i.
move=> p sp; rewrite (affine_full hA) //; congr Some.
apply/eq_in_map => j; rewrite mem_iota add0n => /andP [_ hj].
by rewrite (@dot_sub2 n.+1) ?scj.
Qed.


(** * C60 *)
Theorem C60_eye_partial follow rm jk r c eye target bases flips :
  posed follow r c eye target bases flips -> cross_works eye target bases ->
  exists2 m, view follow rm jk r c eye target bases flips = Some m &
    transform follow (size eye) r c m eye = Some (nseq (size eye) 0).
Proof.
move=> hp hg; have [m [cols [n [se em ht _ [scj _ _ _ _]]]]] := camera_axes rm jk hp hg.
exists m => //; rewrite se ht //; congr Some.
apply: (@eq_from_nth _ 0); rewrite size_mkseq ?size_nseq // => j hj.
rewrite nth_nseq hj nth_mkseq // (dot_subl se se) ?scj // subrr //.
Qed.
Print Assumptions C60_eye_partial.

(* the camera looks down the last axis, towards negative values unless that axis is flipped *)
Theorem C60_target_partial follow rm jk r c eye target bases flips :
  posed follow r c eye target bases flips -> cross_works eye target bases ->
  exists2 m, view follow rm jk r c eye target bases flips = Some m &
    transform follow (size eye) r c m target =
    Some (rcons (nseq (size eye).-1 0) ((if nth false flips (size eye).-1 then 1 else -1) * vdistance eye target)).
Proof.
move=> hp hg; have [m [cols [n [se em ht _ [scj _ hl _ _]]]]] := camera_axes rm jk hp hg.
have [_ st _ _ _] := hp; rewrite se in st.
exists m => //; rewrite se ht //; congr Some.
apply: (@eq_from_nth _ 0); rewrite size_mkseq ?size_rcons ?size_nseq // => j hj.
rewrite nth_mkseq // nth_rcons size_nseq nth_nseq /=.
have -> : vdot id (vsub target eye) (nth [::] cols j) = - vdot id (vsub eye target) (nth [::] cols j).
  by rewrite !(dot_subl st se, dot_subl se st) ?scj // opprB.
rewrite hl //; move: hj; rewrite ltnS leq_eqVlt => /orP [/eqP ->|h]; last by rewrite h (ltn_eqF h) oppr0.
rewrite ltnn eqxx.
by rewrite /flip_sign /vdistance; case: ifP => _; rewrite ?mulN1r ?opprK mul1r.
Qed.
Print Assumptions C60_target_partial.

Theorem C60_isometry_partial follow rm jk r c eye target bases flips p1 p2 :
  posed follow r c eye target bases flips -> cross_works eye target bases ->
  size p1 = size eye -> size p2 = size eye ->
  exists m q1 q2, [/\ view follow rm jk r c eye target bases flips = Some m,
    transform follow (size eye) r c m p1 = Some q1, transform follow (size eye) r c m p2 = Some q2 &
    vdistance q1 q2 = vdistance p1 p2].
Proof.
move=> hp hg; have [m [cols [n [se em ht _ [scj ho _ _ _]]]]] := camera_axes rm jk hp hg.
rewrite se => s1 s2; exists m; do 2! eexists; split; [by []|exact: ht|exact: ht|].
rewrite /vdistance /vlength /length_squared; congr (Num.sqrt _).
set q1 := mkseq _ _; set q2 := mkseq _ _.
have sq1 : size q1 = n.+1 by rewrite size_mkseq.
have sq2 : size q2 = n.+1 by rewrite size_mkseq.
have sv := size_vsub s1 s2.
pose C : 'M[R]_n.+1 := \matrix_(i, j) nth 0 (nth [::] cols i) j.
have CC : C^T *m C = 1%:M.
  apply: mulmx1C; apply/matrixP => i j; rewrite !mxE -(ho i j) -1?ltnS // (@vdot_idE _ n.+1) ?scj -1?ltnS //.
  by apply: eq_bigr => k _; rewrite !mxE.
have e : rv n.+1 (vsub q1 q2) = rv n.+1 (vsub p1 p2) *m C^T.
  apply/rowP => j; rewrite !mxE (nth_vsub _ sq1 sq2) !nth_mkseq //.
  have hj : (j <= n)%N by rewrite -ltnS.
  rewrite !(dot_subl _ se) ?scj // opprB addrA subrK -(dot_subl s1 s2) ?scj // (@vdot_idE _ n.+1) ?scj //.
  by apply: eq_bigr => k _; rewrite !mxE.
have -> : vdot id (vsub q1 q2) (vsub q1 q2) = (rv n.+1 (vsub q1 q2) *m (rv n.+1 (vsub q1 q2))^T) 0 0.
  by rewrite (@dot_rv _ n.+1) // (size_vsub sq1 sq2).
by rewrite e trmx_mul trmxK mulmxA -(mulmxA _ C^T C) CC mulmx1 -dot_rv.
Qed.
Print Assumptions C60_isometry_partial.

(* moving along basis vector i moves the image in the half space of camera axis i + 1, inside the space of the camera
   axes 1 .. i + 1 and the last one *)
Theorem C60_bases_partial follow rm jk r c eye target bases flips p i :
  posed follow r c eye target bases flips -> cross_works eye target bases ->
  size p = size eye -> (i < size eye - 2)%N ->
  exists m q q', [/\ view follow rm jk r c eye target bases flips = Some m,
    transform follow (size eye) r c m p = Some q, transform follow (size eye) r c m (vadd p (nth [::] bases i)) = Some q',
    nth 0 q' 0 = nth 0 q 0 /\ (forall j, (i.+1 < j < (size eye).-1)%N -> nth 0 q' j = nth 0 q j) &
    if nth false flips i.+1 then nth 0 q' i.+1 < nth 0 q i.+1 else nth 0 q i.+1 < nth 0 q' i.+1].
Proof.
move=> hp hg; have [m [cols [n [se em ht _ [scj _ _ hz hpos]]]]] := camera_axes rm jk hp hg.
have [_ _ [sb hb] _ _] := hp; rewrite se in sb hb; rewrite se subn2 => sp hi /=.
have hb' : size (nth [::] bases i) = n.+1 by apply: hb; rewrite mem_nth // sb subn2.
have sa := size_vadd sp hb'.
have hi1 : (i.+1 < n)%N by rewrite ltn_predRL in hi.
exists m; do 2! eexists; split; [by []|exact: ht|exact: ht| |].
  have E j : (j <= n)%N -> vdot id (nth [::] bases i) (nth [::] cols j) = 0 ->
     vdot id (vsub (vadd p (nth [::] bases i)) eye) (nth [::] cols j) = vdot id (vsub p eye) (nth [::] cols j).
    by move=> hj h0; rewrite (dot_subl sa se) ?scj // (dot_addl sp hb') ?scj // h0 addr0 (dot_subl sp se) ?scj.
  have [h0 h1] := hz _ hi; split=> [|j /andP [a b]]; rewrite ?nth_mkseq //; try exact: E.
  - by apply: E => //; [exact: ltnW|apply: h1; rewrite a b].
  - by apply: leqW.
  by apply: leqW.
rewrite !nth_mkseq ?(leqW hi1) //.
have hj : (i.+1 <= n)%N by exact: ltnW.
have -> : vdot id (vsub (vadd p (nth [::] bases i)) eye) (nth [::] cols i.+1) =
   vdot id (vsub p eye) (nth [::] cols i.+1) + vdot id (nth [::] bases i) (nth [::] cols i.+1).
  by rewrite (dot_subl sa se) ?scj // (dot_addl sp hb') ?scj // (dot_subl sp se) ?scj // addrAC.
have := hpos _ hi; rewrite /flip_sign; case: ifP => _; rewrite ?mulN1r ?mul1r.
  by rewrite oppr_gt0 -[X in _ -> _ < X]addr0 ltr_add2l.
by rewrite -[X in _ -> X < _]addr0 ltr_add2l.
Qed.
Print Assumptions C60_bases_partial.

(* the handedness: a rotation in 3 and 5 dimensions, a reflection in 2 and 4, changed by every flipped axis *)
Theorem C60_orientation_partial follow rm jk r c eye target bases flips :
  posed follow r c eye target bases flips -> cross_works eye target bases ->
  exists2 m, view follow rm jk r c eye target bases flips = Some m &
    \det (mxof (size eye) (size eye) m) = (-1) ^+ ((size eye).-1 + count id flips).
Proof. by move=> hp hg; have [m [cols [n [-> em _ hd _]]]] := camera_axes rm jk hp hg; exists m. Qed.
Print Assumptions C60_orientation_partial.
End Camera.

(** The named overloads, written out *)
Section Named.
Variable R : rcfType.
Implicit Types (u v eye target up p : seq R).

Lemma gs_inner_ortho n u y : size u = n -> size y = n -> ~~ all (fun x => x == 0) u -> vdot id y u = 0 -> gs_inner [:: u] y = Some y.
Proof.
move=> su sy hu h; rewrite /= (gs_projE su sy hu) h mul0r; congr Some.
have sz : size (vscalel 0 u) = n by rewrite size_map.
apply: (@eq_from_nth _ 0); rewrite (size_vsub sy sz) // => i _.
by rewrite (nth_vsub _ sy sz) nth_vscalel mul0r subr0.
Qed.
Lemma vdot_neg n u x : size u = n -> size x = n -> vdot id x (vneg u) = - vdot id x u.
Proof.
move=> su sx; have sm : size (vneg u) = n by rewrite size_map.
by rewrite (dot_sym sx sm) (dot_scale _ su sx) mulN1r (dot_sym su sx).
Qed.
Lemma flip_dot n (b : bool) u x : size u = n -> size x = n -> ~~ all (fun y => y == 0) u ->
  vdot id x (if b then vneg (normalize_precise u) else normalize_precise u) = (if b then -1 else 1) * (vdot id x u / vlength u).
Proof.
move=> su sx hu; have sn : size (normalize_precise u) = n by rewrite normalize_precise0E (negbTE hu) size_map.
have e : vdot id x (normalize_precise u) = vdot id x u / vlength u.
  have sm : size [seq y / vlength u | y <- u] = n by rewrite size_map.
  by rewrite normalize_precise0E (negbTE hu) (dot_sym sx sm) (dot_scale _ su sx) mulrC (dot_sym su sx).
by case: b; rewrite ?(vdot_neg sn sx) e ?mulN1r ?mul1r.
Qed.

Theorem C60_look_at2 (follow rm : bool) (jk : R) (r c : nat) eye target (positiveYForward flipX : bool) p :
  shape follow 2 r c -> frows follow r c = 3%N -> size eye = 2%N -> size target = 2%N -> size p = 2%N -> eye != target ->
  let lx := nth 0 eye 0 - nth 0 target 0 in let ly := nth 0 eye 1 - nth 0 target 1 in
  let x := nth 0 p 0 - nth 0 eye 0 in let y := nth 0 p 1 - nth 0 eye 1 in
  let len := Num.sqrt (lx * lx + ly * ly) in
  exists2 m, look_at2 follow rm jk r c eye target positiveYForward flipX = Some m &
    transform follow 2 r c m p = Some [:: (if flipX then -1 else 1) * ((y * lx - x * ly) / len);
                                          (if positiveYForward then -1 else 1) * ((x * lx + y * ly) / len)].
Proof.
case: eye => [|e0 [|e1 []]] // hs ea _; case: target => [|t0 [|t1 []]] // _; case: p => [|p0 [|p1 []]] //= _ ne.
set lx := e0 - t0; set ly := e1 - t1; set x := p0 - e0; set y := p1 - e1.
pose look := [:: lx; ly]; pose side := [:: - ly; lx].
have nl : ~~ all (fun y => y == 0) look.
  by apply: contraNN ne => /and3P [h1 h2 _]; rewrite !subr_eq0 in h1 h2; rewrite (eqP h1) (eqP h2).
have ns : ~~ all (fun y => y == 0) side by apply: contraNN nl => /and3P [h1 h2 _]; rewrite oppr_eq0 in h1; rewrite /= h1 h2.
have hsl : vdot id look side = 0 by rewrite /vdot /vsum /=; ring.
have ll : vlength look = Num.sqrt (lx * lx + ly * ly) by rewrite /vlength /length_squared /vdot /vsum /= ; congr Num.sqrt; ring.
have ls : vlength side = Num.sqrt (lx * lx + ly * ly) by rewrite /vlength /length_squared /vdot /vsum /= ; congr Num.sqrt; ring.
have eg : gram_schmidt [:: side; look] = Some [:: side; look].
  by rewrite /gram_schmidt /= -/(gs_inner [:: side] look) (@gs_inner_ortho 2).
pose cols := mkseq (fun i => if nth false [:: flipX; positiveYForward] i then vneg (normalize_precise (nth [::] [:: side; look] i))
   else normalize_precise (nth [::] [:: side; look] i)) 2.
have e : view_rotation jk [:: e0; e1] [:: t0; t1] [::] [:: flipX; positiveYForward] = Some (Mat false jk cols).
  rewrite /view_rotation /cross /= -[X in gram_schmidt X]/([:: side; look]) eg.
  by rewrite /cols /mkseq /=.
have sn u : size u = 2%N -> size (normalize_precise u) = 2%N by move=> su; rewrite size_normalize_precise su.
have sc j : (j < 2)%N -> size (nth [::] cols j) = 2%N.
  by case: j => [|[|j]] // _; rewrite /cols /mkseq /=; case: ifP => _; rewrite ?size_map sn.
have [m em hA] := @view_affine R follow rm jk r c [:: e0; e1] [:: t0; t1] [::] _ cols isT hs ea e (erefl _) sc.
exists m => //; rewrite (affine_full hA) //; congr Some; rewrite /mkseq /=.
have D j : (j < 2)%N -> \sum_(l < 2) nth 0 [:: p0; p1] l * nth 0 (nth [::] cols j) l - vdot id [:: e0; e1] (nth [::] cols j) =
    vdot id [:: x; y] (nth [::] cols j).
  by move=> hj; rewrite (@dot_sub2 _ 2) ?sc.
congr [:: _; _]; rewrite ?(D 0%N) ?(D 1%N) //= (@flip_dot 2) // ?ll ?ls; congr (_ * (_ / _)).
  by rewrite /vdot /vsum /=; ring.
by rewrite /vdot /vsum /=; ring.
Qed.
Print Assumptions C60_look_at2.

Theorem C60_look_at3 (follow rm : bool) (jk : R) (r c : nat) eye target up (positiveZForward flipX flipY : bool) p :
  shape follow 3 r c -> frows follow r c = 4%N -> size eye = 3%N -> size target = 3%N -> size up = 3%N -> size p = 3%N ->
  let look := vsub eye target in let side := cross3 up look in
  ~~ all (fun x => x == 0) side ->
  exists2 m, look_at3 follow rm jk r c eye target up positiveZForward flipX flipY = Some m &
    transform follow 3 r c m p = Some
     [:: (if flipX then -1 else 1) * (vdot id (vsub p eye) side / vlength side);
         (if flipY then -1 else 1) * (vdot id (vsub p eye) (cross3 look side) / (vlength look * vlength side));
         (if positiveZForward then -1 else 1) * (vdot id (vsub p eye) look / vlength look)].
Proof.
move=> hs ea se st su sp look side ns.
have sl : size look = 3%N by rewrite (size_vsub se st).
have ss : size side = 3%N by rewrite /side cross3E.
have nl : ~~ all (fun y => y == 0) look.
  apply: contraNN ns => /(all_nthP 0) h; rewrite sl in h.
  by rewrite /side cross3E (eqP (h 0%N _)) // (eqP (h 1%N _)) // (eqP (h 2%N _)) //= !mulr0 !subrr !eqxx.
have hls : vdot id look side = 0.
  rewrite (@vdot_idE _ 3) // /side cross3E !big_ord_recl big_ord0 /=; move: (nth 0 look _) => a; gen_nth; ring.
have hus : vdot id up side = 0.
  rewrite (@vdot_idE _ 3) // /side cross3E !big_ord_recl big_ord0 /=; gen_nth; ring.
set k := vdot id up look / vdot id look look.
pose u2 := vsub up (vscalel k look).
have sk : size (vscalel k look) = 3%N by rewrite size_map.
have su2 : size u2 = 3%N by rewrite (size_vsub su sk).
have LL : vdot id look look != 0 by rewrite dot_eq0.
have hul : vdot id u2 look = 0.
  rewrite (dot_subl su sk sl); apply/eqP; rewrite subr_eq0; apply/eqP; rewrite -[LHS](divfK LL) -/k.
  rewrite !(@vdot_idE _ 3) // mulr_sumr; apply: eq_bigr => i _; by rewrite nth_vscalel mulrA.
have eg : gram_schmidt [:: side; look; up] = Some [:: side; look; u2].
  rewrite /gram_schmidt /= -/(gs_inner [:: side] look) (@gs_inner_ortho 3) //=.
  rewrite (gs_projE ss su ns) hus mul0r.
  have -> : vsub up (vscalel 0 side) = up.
    have sz : size (vscalel 0 side) = 3%N by rewrite size_map.
    apply: (@eq_from_nth _ 0); rewrite (size_vsub su sz) // => i _.
    by rewrite (nth_vsub _ su sz) nth_vscalel mul0r subr0.
  by rewrite (gs_projE sl su nl).
pose F := [:: flipX; flipY; positiveZForward].
pose us := [:: side; u2; look].
pose cols := mkseq (fun i => if nth false F i then vneg (normalize_precise (nth [::] us i)) else normalize_precise (nth [::] us i)) 3.
have e : view_rotation jk eye target [:: up] F = Some (Mat false jk cols).
  rewrite /view_rotation se /cross -/look eqxx -[rcons _ _]/[:: up; look] -[(3%N == 2%N)]/false -/side.
  by lazy beta iota; rewrite -[X in gram_schmidt X]/[:: side; look; up] eg /cols /mkseq.
have sn u : size u = 3%N -> size (normalize_precise u) = 3%N by move=> h; rewrite size_normalize_precise h.
have sc j : (j < 3)%N -> size (nth [::] cols j) = 3%N.
  by case: j => [|[|[|j]]] // _; rewrite /cols /mkseq /=; case: ifP => _; rewrite ?size_map sn.
have d0 : (0 < size eye)%N by rewrite se.
have [m em hA] : exists2 m, view follow rm jk r c eye target [:: up] F = Some m &
    affine_mat follow 3 r c m (fun i j => nth 0 (nth [::] cols j) i) (fun j => - vdot id eye (nth [::] cols j)).
  by have := @view_affine R follow rm jk r c eye target [:: up] F cols d0; rewrite se; apply.
exists m => //; rewrite (affine_full hA) //; congr Some; rewrite -[mkseq _ _]/[:: _; _; _].
have D j : (j < 3)%N -> \sum_(l < 3) nth 0 p l * nth 0 (nth [::] cols j) l - vdot id eye (nth [::] cols j) =
    vdot id (vsub p eye) (nth [::] cols j).
  by move=> hj; rewrite (@dot_sub2 _ 3) ?sc.
have spe : size (vsub p eye) = 3%N by rewrite (size_vsub sp se).
have LE : vdot id look look = nth 0 look 0 * nth 0 look 0 + nth 0 look 1 * nth 0 look 1 + nth 0 look 2 * nth 0 look 2.
  by rewrite (@vdot_idE _ 3) // !big_ord_recl big_ord0 /= addr0 addrA.
have kE : k * vdot id look look = nth 0 up 0 * nth 0 look 0 + nth 0 up 1 * nth 0 look 1 + nth 0 up 2 * nth 0 look 2.
  by rewrite /k divfK // (@vdot_idE _ 3) // !big_ord_recl big_ord0 /= addr0 addrA.
have cE i : (i < 3)%N -> nth 0 (cross3 look side) i = vdot id look look * nth 0 u2 i.
  move=> hi; rewrite /u2 (nth_vsub _ su sk) nth_vscalel mulrBr mulrA [_ * k]mulrC kE LE.
  by case: i hi => [|[|[|i]]] // _; rewrite /side !cross3E /=; gen_nth; ring.
have dE x : size x = 3%N -> vdot id x (cross3 look side) = vdot id look look * vdot id x u2.
  move=> sx; rewrite !(@vdot_idE _ 3) ?cross3E // -cross3E mulr_sumr; apply: eq_bigr => i _.
  by rewrite (cE i (ltn_ord i)) -(@vdot_idE _ 3) // mulrCA.
have UE : vdot id u2 u2 * vdot id look look = vdot id side side.
  have -> : vdot id u2 u2 = vdot id up up - k * vdot id up look.
    rewrite {1}/u2 (dot_subl su sk su2) (dot_sym su su2) (dot_subl su sk su).
    have E w : size w = 3%N -> vdot id (vscalel k look) w = k * vdot id look w.
      move=> sw; rewrite !(@vdot_idE _ 3) // mulr_sumr; apply: eq_bigr => i _; by rewrite nth_vscalel mulrA.
    by rewrite !E // [vdot id look u2](dot_sym sl su2) hul mulr0 subr0 [vdot id look up](dot_sym sl su).
  rewrite mulrBl mulrAC kE !(@vdot_idE _ 3) // !big_ord_recl !big_ord0 /side cross3E /=; gen_nth; ring.
have nu2 : ~~ all (fun y => y == 0) u2.
  by rewrite -dot_eq0; apply: contraNN ns => /eqP h; rewrite -dot_eq0 -UE h mul0r.
have VE : vlength u2 * vlength look = vlength side.
  by rewrite /vlength /length_squared -sqrtrM ?UE // dot_ge0.
rewrite !D // -[nth [::] cols 0]/(if flipX then vneg (normalize_precise side) else normalize_precise side)
  -[nth [::] cols 1]/(if flipY then vneg (normalize_precise u2) else normalize_precise u2)
  -[nth [::] cols 2]/(if positiveZForward then vneg (normalize_precise look) else normalize_precise look).
rewrite !(@flip_dot 3) //; congr [:: _; _ * _; _].
rewrite (dE _ spe) -VE.
have l0 := length_pos nl; have l2 := length_pos nu2.
have -> : vdot id look look = vlength look ^+ 2 by rewrite /vlength /length_squared sqr_sqrtr // dot_ge0.
move: (vdot id _ u2) (vlength look) l0 (vlength u2) l2 => x l l0 l' l2.
by field; rewrite !gt_eqF.
Qed.
Print Assumptions C60_look_at3.
End Named.

(** Six dimensions and more *)
Section HighDim.
Variable R : rcfType.
Implicit Types (eye target p : seq R) (bases : seq (seq R)).
Theorem C60_high_dim follow rm jk r c eye target bases flips :
  (5 < size eye)%N -> size target = size eye -> size bases = (size eye - 2)%N ->
  (forall v, v \in bases -> size v = size eye) ->
  nth 0 (nth [::] bases 0) 0 = 0 -> nth 0 (nth [::] bases 0) 1 = 0 ->
  view follow rm jk r c eye target bases flips = None.
Proof.
case se: (size eye) => [|n] // n4 st; rewrite subn2 /= => sb hb z0 z1; rewrite ltnS in n4.
have b0 : (0 < size bases)%N by rewrite sb -ltnS prednK // (leq_trans _ n4).
have sx : size (rcons bases (vsub eye target)) = n by rewrite size_rcons sb prednK // (leq_trans _ n4).
have hx v : v \in rcons bases (vsub eye target) -> size v = n.+1.
  by rewrite mem_rcons inE => /orP [/eqP ->|/hb //]; rewrite (size_vsub se st).
have [s e [ss hs]] := @crossNDP _ jk n (rcons bases (vsub eye target)) (eq_leq (esym sx)).
have s0 : all (fun x => x == 0) s.
  apply/(all_nthP 0) => i; rewrite ss ltnS => hi; have [D [w hD ->]] := hs i hi.
  have [_ ->] := C29_determinant_partial n4 w; first by rewrite mulr0.
  exists 1%N; split; [by []|by rewrite add1n (leq_trans _ n4)|].
  rewrite det_mx11 !mxE hD ?(leq_trans _ n4) // /cminor nth_rcons b0.
  by case: i {hi hD}.
rewrite /view /view_rotation se.
have -> : cross jk n.+1 (rcons bases (vsub eye target)) = Some s.
  by rewrite -e /cross; case: (n) n4 => [|[|[]]].
have : perm_eq (rot (size (rcons bases (vsub eye target))).-1 (rcons bases (vsub eye target))) (rcons bases (vsub eye target)).
  by rewrite perm_rot.
move: (rot _ _) => x px.
have -> : gram_schmidt (s :: x) = None; last by [].
case: x px => [/perm_size|v x px].
  by rewrite /= sx => h; rewrite -h in n4.
rewrite /gram_schmidt [gs_outer _ _]/=; change (match gs_inner [:: s] v with Some uk => gs_outer (rcons [:: s] uk) x | None => None end = None).
rewrite (@gs_inner_zero _ n.+1) //= ?ss ?eqxx ?s0 //.
by apply: hx; rewrite -(perm_mem px) mem_head.
Qed.
Print Assumptions C60_high_dim.
End HighDim.

(* a regular configuration of six dimensions that the code cannot handle: unit basis vectors, looking along axis 4 *)
Definition unit6 (R : rcfType) (i : nat) : seq R := mkseq (fun j => (i == j)%:R) 6.
Theorem C60_refuted (R : rcfType) (follow rm : bool) (jk : R) : exists r c (eye target : seq R) bases flips,
  posed follow r c eye target bases flips /\ view follow rm jk r c eye target bases flips = None.
Proof.
have look : vsub (unit6 R 4) (nseq 6 0) = unit6 R 4 by rewrite /vsub /vmap2 /= !subr0.
exists 7%N, 7%N, (unit6 R 4), (nseq 6 0), [:: unit6 R 2; unit6 R 0; unit6 R 1; unit6 R 3], (nseq 6 false); split; last first.
  by apply: C60_high_dim => // v; rewrite !inE; do !case/orP; move/eqP ->; rewrite size_mkseq.
split=> //; first split=> //.
- by case: (follow).
- by case: (follow).
- by split=> // v; rewrite !inE; do !case/orP; move/eqP ->; rewrite size_mkseq.
rewrite [size (unit6 R 4)]size_mkseq look.
have h : free [seq rv 6 v | v <- [:: unit6 R 4; unit6 R 2; unit6 R 0; unit6 R 1; unit6 R 3; unit6 R 5]].
  rewrite free_det //; apply/eqP => z.
  set M := rowsmx 6 _ in z.
  have := det_mulmx M M^T.
  have -> : M *m M^T = 1%:M.
    apply/matrixP => -[[|[|[|[|[|[|i]]]]]] hi] // [[|[|[|[|[|[|j]]]]]] hj] //; rewrite !mxE !big_ord_recl big_ord0 !mxE /= ?mul0r ?mulr0 ?mul1r ?addr0 ?add0r //.
  by rewrite z mul0r det1 => /eqP; rewrite oner_eq0.
by move: h; rewrite -[X in free X](cat_take_drop 5) => /catl_free.
Qed.
Print Assumptions C60_refuted.

(* the hypotheses are met: three dimensions *)
Example C60_example3 (R : rcfType) : let eye : seq R := [:: 1; 2%:R; 3%:R] in let target := [:: 0; 0; 0] in let up := [:: 0; 1; 0] in
  posed false 3 4 eye target [:: up] [:: false; false; true] /\ cross_works eye target [:: up] /\
  ~~ all (fun x => x == 0) (cross3 up (vsub eye target)).
Proof.
move=> eye target up; split; last first.
  split; first by left.
  by rewrite cross3E /vsub /vmap2 /= !subr0 !mul0r mul1r subr0 pnatr_eq0.
split=> //; first by split=> // v; rewrite inE => /eqP ->.
rewrite [size eye]/= .
have h : free [seq rv 3 v | v <- [:: vsub eye target; up; [:: 0; 0; 1]]].
  rewrite free_det //; pose f i j := nth 0 (nth [::] [:: vsub eye target; up; [:: 0; 0; 1]] i) j.
  by rewrite [\det _](detf3 f) /f /vsub /vmap2 /= !(subr0, mulr0, mul0r, mulr1, addr0) oner_eq0.
by move: h; rewrite -[X in free X](cat_take_drop 2) => /catl_free.
Qed.
(* six dimensions with nonzero minors *)
Definition args6 : seq (seq rat) := [:: [:: 2%:Q; 1; 1; 0; 0; 0]; [:: 1; 3%:Q; 1; 1; 0; 0]; [:: 0; 1; 3%:Q; 0; 1; 0];
                  [:: 1; 0; 0; 2%:Q; 0; 1]; [:: 0; 0; 1; 0; 2%:Q; 3%:Q]].
Example C60_example6 (R : rcfType) : let emb := map (fun x : rat => ratr x : R) in
  let eye : seq R := emb (nth [::] args6 4) in let target := nseq 6 0 in let bases := map emb (take 4 args6) in
  posed true 7 6 eye target bases (nseq 6 false) /\ cross_works eye target bases.
Proof.
move=> emb eye target bases.
have look : vsub eye target = eye by rewrite /vsub /vmap2 /= !subr0.
have nE X i j : nth 0 (nth [::] (map emb X) i) j = ratr (nth 0 (nth [::] X i) j) :> R.
  have [h|h] := ltnP i (size X); last by rewrite ![nth [::] _ i]nth_default ?size_map // !nth_nil rmorph0.
  rewrite (nth_map [::]) //; have [h2|h2] := ltnP j (size (nth [::] X i)); first by rewrite (nth_map 0).
  by rewrite nth_default ?size_map // nth_default // rmorph0.
split; last first.
  right=> idx k hi k0 hk; rewrite look -[rcons _ _]/(map emb args6).
  have -> : \matrix_(i < k, j < k) nth 0 (nth [::] (map emb args6) i) (bump idx j) =
     map_mx ratr (\matrix_(i < k, j < k) nth 0 (nth [::] args6 i) (bump idx j)) :> 'M[R]_k.
    by apply/matrixP => i j; rewrite !mxE nE.
  rewrite det_map_mx fmorph_eq0; apply: (C14_example6 (Ordinal hi)) => //.
  by rewrite addn2 -ltnS -addn3.
split=> //; first by split=> // v; rewrite !inE; do !case/orP; move/eqP ->.
rewrite [size eye]/= look.
have h : free [seq rv 6 v | v <- map emb (rcons args6 (nseq 5 0 ++ [:: 1]))].
  rewrite free_det //.
  have -> : forall X, rowsmx 6 (map emb X) = map_mx ratr (\matrix_(i < 6, j < 6) nth 0 (nth [::] X i) j) :> 'M[R]_6.
    by move=> X; apply/matrixP => i j; rewrite !mxE nE.
  rewrite det_map_mx fmorph_eq0.
  pose A := ctor_elems true 0%:Q 6 6 (flatten (rcons args6 (nseq 5 0 ++ [:: 1]))).
  have hA : determinant 6 A != 0 by vm_compute.
  have -> : \matrix_(i < 6, j < 6) nth 0 (nth [::] (rcons args6 (nseq 5 0 ++ [:: 1])) i) j = mxof 6 6 A.
    by apply/matrixP => -[[|[|[|[|[|[|i]]]]]] hi] // [[|[|[|[|[|[|j]]]]]] hj] //; rewrite !mxE.
  move: (determinant 6 A) hA (@C29_determinant_partial _ 6 A isT isT) => x hx [h1 h2].
  rewrite -h1 // => k k0 hk; apply: contraNneq hx => e; rewrite h2 //; exists k; by split.
have {h} : free [seq rv 6 v | v <- map emb args6] by move: h; rewrite -[X in free X](cat_take_drop 5) => /catl_free.
rewrite -[map emb args6]/(rcons bases eye) map_rcons => h.
by rewrite -(perm_free (permEl (perm_rcons _ _))).
Qed.
