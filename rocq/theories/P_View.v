(* Lemmas about the look-at builder *)
From mathcomp Require Import all_ssreflect all_algebra.
From mathcomp Require Import ring.
From Verif Require Import M_Vec M_Mat M_Cross M_Quat M_Transform Spec P_Vec P_Mat P_Transform P_Rot2 P_Proj Props_Det Props_Vec.
Set Implicit Arguments. Unset Strict Implicit. Unset Printing Implicit Defensive.
Import Order.Theory GRing.Theory Num.Theory.
Local Open Scope ring_scope.

Section GS.
Variable R : rcfType.
Implicit Types (us vs done : seq (seq R)).

Lemma gs_outer_steps done vs us : gs_outer done vs = Some us ->
  [/\ size us = (size done + size vs)%N, take (size done) us = done &
      forall k, (k < size vs)%N -> gs_inner (take (size done + k) us) (nth [::] vs k) = Some (nth [::] us (size done + k))].
Proof.
elim: vs done => [|v vs IH] done /=; first by case=> <-; rewrite addn0 take_size.
case e: (gs_inner done v) => [w|] // /IH [h1 h2 h3]; move: h1 h2 h3; rewrite size_rcons => h1 h2 h3.
have h4 : take (size done) us = done.
  by rewrite -(@take_take _ (size done) (size done).+1) // h2 -cats1 take_size_cat.
split=> //; first by rewrite h1 addSnnS.
case=> [_|k hk]; last by rewrite -addSnnS h3.
rewrite addn0 h4 e; congr Some.
have hs : (size done < size us)%N by rewrite h1 leq_addr.
by move: h2; rewrite (take_nth [::]) // h4 => /rcons_inj [].
Qed.

Lemma good_take n k us : good n us -> good n (take k us).
Proof.
move=> [g1 g2 g3]; rewrite -(cat_take_drop k us) in g1 g2 g3; split.
- by move: g1; rewrite all_cat => /andP [].
- by move: g2; rewrite pairwise_cat => /and3P [].
- by move: g3; rewrite all_cat => /andP [].
Qed.

Lemma gs_diff n vs us k : all (fun v => size v == n) vs -> good n us -> gram_schmidt vs = Some us -> (k < size vs)%N ->
  rv n (nth [::] us k) - rv n (nth [::] vs k) \in <<[seq rv n u | u <- take k us]>>%VS.
Proof.
move=> hs hg /gs_outer_steps [s1 _ h] hk; have := h k hk; rewrite add0n => e.
have sv : size (nth [::] vs k) = n by apply/eqP; apply: (allP hs); apply: mem_nth.
by have [w] := @gs_inner_spec _ n (take k us) (nth [::] vs k) [::] (good_take k hg) sv isT; rewrite e => -[->] [].
Qed.

(* the Gram matrix of the input and the output is triangular *)
Lemma gs_gram n vs us : all (fun v => size v == n) vs -> good n us -> gram_schmidt vs = Some us ->
  forall i k, (i < size vs)%N -> (k < size vs)%N ->
  ((i < k)%N -> vdot id (nth [::] vs i) (nth [::] us k) = 0) /\
  vdot id (nth [::] vs k) (nth [::] us k) = vdot id (nth [::] us k) (nth [::] us k).
Proof.
move=> hs hg e i k hi hk; have [s1 _ _] := gs_outer_steps e; rewrite add0n in s1.
have [g1 /(pairwiseP [::]) g2 g3] := hg.
have sv j : (j < size vs)%N -> size (nth [::] vs j) = n by move=> hj; apply/eqP; apply: (allP hs); apply: mem_nth.
have su j : (j < size vs)%N -> size (nth [::] us j) = n by move=> hj; apply/eqP; apply: (allP g1); apply: mem_nth; rewrite s1.
(* u_k is orthogonal to everything spanned by the earlier ones *)
have ort j (x : 'rV_n) : (j <= k)%N -> x \in <<[seq rv n u | u <- take j us]>>%VS -> (x *m (rv n (nth [::] us k))^T) 0 0 = 0.
  move=> hj hx; rewrite (@coord_span _ _ _ (in_tuple [seq rv n u | u <- take j us]) _ hx) mulmx_suml summxE big1 // => l _.
  have hl : (l < size (take j us))%N by have := ltn_ord l; rewrite [X in (_ < X)%N -> _]size_map.
  have hl2 : (l < j)%N by rewrite (leq_trans hl) // size_take; case: ltnP.
  have hl3 : (l < size vs)%N by rewrite (leq_trans (leq_trans hl2 hj)) // ltnW.
  rewrite (nth_map [::]) // nth_take // -scalemxAl mxE -dot_rv ?su //.
  by rewrite (eqP (g2 l k _ _ _)) ?mulr0 ?inE ?s1 // (leq_trans hl2).
have E j x : (j < size vs)%N -> size x = n -> vdot id (nth [::] vs j) x = vdot id (nth [::] us j) x -
    ((rv n (nth [::] us j) - rv n (nth [::] vs j)) *m (rv n x)^T) 0 0.
  by move=> hj sx; rewrite !(@dot_rv _ n) ?sv ?su // mulmxBl !mxE subKr.
split=> [hik|]; rewrite E ?su //.
  by rewrite (eqP (g2 i k _ _ _)) ?inE ?s1 // sub0r (ort i) ?oppr0 // ?(ltnW hik) //; apply: gs_diff.
by rewrite (ort k) ?subr0 //; apply: gs_diff.
Qed.
End GS.

(* N independent vectors in dimension N + 1 *)
Section Free.
Variable R : rcfType.
Variable n : nat.
Implicit Types (ext : seq (seq R)).
Definition rowsmx (X : seq (seq R)) : 'M[R]_n := \matrix_(i, j) nth 0 (nth [::] X i) j.
Lemma row_rowsmx X i : row i (rowsmx X) = rv n (nth [::] X i).
Proof. by apply/rowP => j; rewrite !mxE. Qed.
Lemma free_det X : size X = n -> free [seq rv n v | v <- X] = (\det (rowsmx X) != 0).
Proof.
move=> sX; rewrite -unitfE -unitmxE -row_free_unit.
have sX' : size [seq rv n v | v <- X] = n by rewrite size_map.
pose Y := tcast sX' (in_tuple [seq rv n v | v <- X]).
have eY : tval Y = [seq rv n v | v <- X] by rewrite /Y val_tcast.
have nY (i : 'I_n) : Y`_i = row i (rowsmx X) by rewrite eY (nth_map [::]) ?sX // row_rowsmx.
rewrite -eY; apply/idP/idP => [/freeP h|h].
  apply: inj_row_free => v hv; apply/rowP => i; rewrite mxE; apply: (h (fun i => v 0 i)).
  by rewrite -[RHS]hv mulmx_sum_row; apply: eq_bigr => j _; rewrite nY.
apply/freeP => k hk i; have e : (\row_i k i) *m rowsmx X = 0.
  by rewrite -hk mulmx_sum_row; apply: eq_bigr => j _; rewrite mxE nY.
have /rowP /(_ i) : \row_i k i = 0 by apply: (row_free_inj h); rewrite e mul0mx.
by rewrite !mxE.
Qed.
End Free.

Lemma free_extend (R : rcfType) n (ext : seq (seq R)) : size ext = n -> free [seq rv n.+1 v | v <- ext] ->
  exists2 x, size x = n.+1 & free [seq rv n.+1 v | v <- rcons ext x].
Proof.
move=> se hf; have : ~~ (fullv <= <<[seq rv n.+1 v | v <- ext]>>)%VS.
  apply/negP => /dimvS; rewrite dimvf /Vector.dim /= (eqP hf) size_map se mul1n => h.
  by rewrite ltnn in h.
move/subvPn => [x _ hx]; pose xs := mkseq (fun i => x 0 (inord i)) n.+1.
have ex : rv n.+1 xs = x by apply/rowP => i; rewrite !mxE nth_mkseq // inord_val.
exists xs; first by rewrite size_mkseq.
rewrite map_rcons (perm_free (Y := rv n.+1 xs :: [seq rv n.+1 v | v <- ext])) ?perm_rcons //.
by rewrite free_cons ex hx.
Qed.

Lemma map_free_perm (R : rcfType) n (X Y : seq (seq R)) : perm_eq X Y -> free [seq rv n v | v <- X] = free [seq rv n v | v <- Y].
Proof. by move=> h; apply: perm_free; apply: perm_map. Qed.

Section View.
Variable R : rcfType.
Variable n : nat.
Hypothesis n0 : (0 < n)%N.
Implicit Types (u v x : seq R) (cols : seq (seq R)).

Definition minors_ok (args : seq (seq R)) := (n <= 4)%N \/ forall (idx : 'I_n.+1) k, (0 < k)%N -> (k + 2 <= n)%N ->
     \det (\matrix_(i < k, j < k) nth 0 (nth [::] args i) (bump idx j)) != 0.

Lemma cross_free jk ext : size ext = n -> (forall v, v \in ext -> size v = n.+1) -> minors_ok ext ->
  free [seq rv n.+1 v | v <- ext] ->
  exists2 side, cross jk n.+1 ext = Some side &
   [/\ size side = n.+1, forall v, v \in ext -> vdot id side v = 0, 0 < vdot id side side,
       \det (rowsmx n.+1 (rcons ext side)) = vdot id side side & free [seq rv n.+1 v | v <- side :: ext]].
Proof.
move=> se hv hg hf; have [side e [ss h]] := C14_cross_partial jk n0 se hv hg.
have [side' e' ho] := C14_orthogonal_partial jk n0 se hv hg.
move: e'; rewrite e => -[es]; subst side'; exists side => //.
have [x sx hx] := free_extend se hf.
have hd : vdot id side x != 0.
  have sr : size (rcons ext x) = n.+1 by rewrite size_rcons se.
  by move: hx; rewrite (free_det sr) => hx; rewrite h.
have s0 : vdot id side side != 0.
  apply: contraNneq hd => s0; rewrite (@vdot_idE _ n.+1) // big1 // => i _.
  have /(all_nthP 0) hz : all (fun y => y == 0) side by rewrite -dot_eq0 s0.
  by rewrite (eqP (hz i _)) ?ss // mul0r.
have sp : 0 < vdot id side side by rewrite lt_def s0 dot_ge0.
have hdet : \det (rowsmx n.+1 (rcons ext side)) = vdot id side side by rewrite h.
split=> //; rewrite -(@map_free_perm _ _ (rcons ext side)) ?perm_rcons // free_det ?size_rcons ?se //.
by rewrite hdet.
Qed.

(* the place of a camera axis in the list [side; look; bases] *)
Definition place (j : nat) : nat := if j == 0%N then 0%N else if j == n then 1%N else j.+1.
Definition unplace (k : nat) : nat := if k == 0%N then 0%N else if k == 1%N then n else k.-1.
Lemma place_lt j : (j <= n)%N -> (place j <= n)%N.
Proof. by rewrite /place; case: eqP => // _; case: eqP => [_ _|]; [exact: n0|move=> /eqP h1 h2; rewrite ltn_neqAle h1]. Qed.
Lemma unplace_lt k : (k <= n)%N -> (unplace k <= n)%N.
Proof. by rewrite /unplace; case: eqP => // _; case: eqP => // _ h; apply: leq_trans (leq_pred _) h. Qed.
Lemma placeK : {in [pred j | j <= n]%N, cancel place unplace}.
Proof.
move=> j; rewrite inE /place /unplace; case: (j =P 0%N) => [->|] // /eqP j0 hj.
by case: (j =P n) => [->|_] //=; rewrite eqSS (negbTE j0).
Qed.
Lemma place_inj i j : (i <= n)%N -> (j <= n)%N -> (place i == place j) = (i == j).
Proof. by move=> hi hj; apply/eqP/eqP => [e|->] //; rewrite -(placeK hi) -(placeK hj) e. Qed.

Definition flip_sign (flips : seq bool) (j : nat) : R := if nth false flips j then -1 else 1.

Lemma nth_rot1 (us : seq (seq R)) j : size us = n.+1 -> (j <= n)%N ->
  nth [::] (head [::] us :: rot 1 (behead us)) j = nth [::] us (place j).
Proof.
case: us => // u0 [|u1 us] /= [su]; first by move: n0; rewrite -su.
rewrite /place; case: j => //= j hj; rewrite /rot /= take0 drop0 nth_cat -su eqSS.
by move: hj; rewrite -su ltnS leq_eqVlt => /orP [/eqP ->|h]; rewrite ?ltnn ?eqxx ?subnn // h (ltn_eqF h).
Qed.

Lemma normalize_dot u x : size u = n.+1 -> size x = n.+1 -> ~~ all (fun y => y == 0) u ->
  vdot id x (normalize_precise u) = vdot id x u / vlength u.
Proof.
move=> su sx hu; rewrite normalize_precise0E (negbTE hu).
have sm : size [seq y / vlength u | y <- u] = n.+1 by rewrite size_map.
by rewrite (dot_sym sx sm) (dot_scale _ su sx) mulrC (dot_sym su sx).
Qed.

Lemma dot_neg u x : size u = n.+1 -> size x = n.+1 -> vdot id x (vneg u) = - vdot id x u.
Proof.
move=> su sx; have sm : size (vneg u) = n.+1 by rewrite size_map.
by rewrite (dot_sym sx sm) (dot_scale _ su sx) mulN1r (dot_sym su sx).
Qed.

Lemma view_rotation_spec jk eye target bases flips : size eye = n.+1 -> size target = n.+1 -> size bases = n.-1 ->
  (forall v, v \in bases -> size v = n.+1) -> free [seq rv n.+1 v | v <- vsub eye target :: bases] ->
  minors_ok (rcons bases (vsub eye target)) ->
  exists2 cols, view_rotation jk eye target bases flips = Some (Mat false jk cols) &
  [/\ [/\ size cols = n.+1, forall j, (j <= n)%N -> size (nth [::] cols j) = n.+1 &
      exists side, [/\ size side = n.+1, 0 < \det (rowsmx n.+1 (rcons (rcons bases (vsub eye target)) side)),
        forall j, (0 < j <= n)%N -> vdot id side (nth [::] cols j) = 0 & 0 < flip_sign flips 0 * vdot id side (nth [::] cols 0)]],
      forall i j, (i <= n)%N -> (j <= n)%N -> vdot id (nth [::] cols i) (nth [::] cols j) = (i == j)%:R,
      forall j, (j <= n)%N -> vdot id (vsub eye target) (nth [::] cols j) =
         if j == n then flip_sign flips n * vlength (vsub eye target) else 0,
      forall i, (i < n.-1)%N -> vdot id (nth [::] bases i) (nth [::] cols 0) = 0 /\ (forall j, (i.+1 < j < n)%N -> vdot id (nth [::] bases i) (nth [::] cols j) = 0) &
      forall i, (i < n.-1)%N -> 0 < flip_sign flips i.+1 * vdot id (nth [::] bases i) (nth [::] cols i.+1)].
Proof.
move=> se st sb hb hf hm; set look := vsub eye target in hf hm *.
have sl : size look = n.+1 by rewrite (size_vsub se st).
set ext := rcons bases look; have sx : size ext = n by rewrite size_rcons sb prednK.
have hx v : v \in ext -> size v = n.+1 by rewrite mem_rcons inE => /orP [/eqP ->|/hb].
have fx : free [seq rv n.+1 v | v <- ext] by rewrite -(@map_free_perm _ _ (look :: bases)) // perm_sym perm_rcons.
have [side e [ss ho sp hdet hfs]] := cross_free jk sx hx hm fx.
have er : rot (size ext).-1 ext = look :: bases.
  by rewrite sx -sb /ext -cats1 rot_size_cat.
set vs := side :: look :: bases.
have svs : size vs = n.+1 by rewrite /= sb prednK.
have hvs : all (fun v => size v == n.+1) vs.
  by rewrite /= ss sl !eqxx; apply/allP => v /hb ->.
have fvs : free [seq rv n.+1 v | v <- vs].
  rewrite -(@map_free_perm _ _ (side :: ext)) // perm_cons; exact: permEl (perm_rcons _ _).
have [us eu [hg su _]] := gs_spec hvs fvs; rewrite svs in su.
have [g1 /(pairwiseP [::]) g2 g3] := hg.
have su' k : (k <= n)%N -> size (nth [::] us k) = n.+1 by move=> hk; apply/eqP; apply: (allP g1); rewrite mem_nth ?su.
have nz k : (k <= n)%N -> ~~ all (fun y => y == 0) (nth [::] us k) by move=> hk; apply: (allP g3); rewrite mem_nth ?su.
have gram i k : (i <= n)%N -> (k <= n)%N -> ((i < k)%N -> vdot id (nth [::] vs i) (nth [::] us k) = 0) /\
    vdot id (nth [::] vs k) (nth [::] us k) = vdot id (nth [::] us k) (nth [::] us k).
  by move=> hi hk; apply: (gs_gram hvs hg eu); rewrite svs.
pose cols := mkseq (fun j => if nth false flips j then vneg (normalize_precise (nth [::] us (place j)))
                             else normalize_precise (nth [::] us (place j))) n.+1.
exists cols.
  rewrite /view_rotation se -/look -/ext e er -/vs eu; congr (Some (Mat _ _ _)).
  apply/eq_in_map => j; rewrite mem_iota add0n => /andP [_ hj].
  have sm : size [seq normalize_precise v | v <- us] = n.+1 by rewrite size_map.
  by rewrite nth_rot1 // (nth_map [::]) // su ltnS place_lt.
have sn k : (k <= n)%N -> size (normalize_precise (nth [::] us k)) = n.+1.
  by move=> hk; rewrite size_normalize_precise su'.
have nc j : (j <= n)%N -> nth [::] cols j = if nth false flips j then vneg (normalize_precise (nth [::] us (place j)))
                             else normalize_precise (nth [::] us (place j)).
  by move=> hj; rewrite nth_mkseq.
have sc j : (j <= n)%N -> size (nth [::] cols j) = n.+1.
  by move=> hj; rewrite nc //; case: ifP => _; rewrite ?size_map sn ?place_lt.
have dc j x : (j <= n)%N -> size x = n.+1 -> vdot id x (nth [::] cols j) =
    flip_sign flips j * (vdot id x (nth [::] us (place j)) / vlength (nth [::] us (place j))).
  move=> hj hsx; rewrite nc // /flip_sign; have hp := place_lt hj.
  by case: ifP => _; rewrite ?dot_neg ?sn // normalize_dot ?su' ?nz ?mulN1r ?mul1r.
have lp k : (k <= n)%N -> 0 < vlength (nth [::] us k) by move=> hk; apply: length_pos; apply: nz.
have ff j : flip_sign flips j * flip_sign flips j = 1 by rewrite /flip_sign; case: ifP => _; rewrite ?mulrNN mulr1.
have hpn : place n = 1%N by rewrite /place (gtn_eqF n0) eqxx.
(* the second vector is orthogonal to the first, so it is kept *)
have look1 k : (k <= n)%N -> vdot id look (nth [::] us k) = if k == 1%N then vdot id (nth [::] us 1) (nth [::] us 1) else 0.
  move=> hk; case: (k =P 1%N) => [->|/eqP k1]; first by have [_ <-] := gram 1%N 1%N n0 n0.
  case: k k1 hk => [_ _|[|k] // _ hk]; last by have [h _] := gram 1%N k.+2 n0 hk; apply: h.
  (* u_0 = side *)
  have u0 : nth [::] us 0 = side.
    by have [_ _ /(_ 0%N isT)] := gs_outer_steps eu; rewrite /= take0 => -[].
  by rewrite u0 (dot_sym sl ss) ho // mem_rcons mem_head.
have base0 i : (i < n.-1)%N -> vdot id (nth [::] bases i) (nth [::] us 0) = 0.
  move=> hi; have u0 : nth [::] us 0 = side by have [_ _ /(_ 0%N isT)] := gs_outer_steps eu; rewrite /= take0 => -[].
  have hin : nth [::] bases i \in bases by rewrite mem_nth ?sb.
  by rewrite u0 (dot_sym (hb _ hin) ss) ho // mem_rcons inE hin orbT.
have u1l : vdot id (nth [::] us 1) (nth [::] us 1) = vdot id look look.
  (* u_1 - look is in the span of side, and orthogonal to it *)
  have [_ h1] := gram 1%N 1%N n0 n0; rewrite -h1 /=.
  have := gs_diff hvs hg eu (_ : 1 < size vs)%N; rewrite svs ltnS => /(_ n0).
  have -> : take 1 us = [:: nth [::] us 0] by case: (us) su => //= a l _; rewrite take0.
  rewrite /= span_seq1 => /vlineP [k hk].
  rewrite !(@dot_rv _ n.+1) ?su' //; have -> : rv n.+1 (nth [::] us 1) = k *: rv n.+1 (nth [::] us 0) + rv n.+1 look.
    by rewrite -hk subrK.
  rewrite linearD /= linearZ /= mulmxDr -scalemxAr [LHS]mxE [X in X + _]mxE -!dot_rv ?su' //.
  by rewrite look1 //= mulr0 add0r.
have l1 : vlength (nth [::] us 1) = vlength look by rewrite /vlength /length_squared u1l.
split=> //.
- split=> //; first by rewrite size_mkseq.
  exists side; split=> //; first by rewrite hdet.
    move=> j /andP [j0 hj]; rewrite dc // (_ : side = nth [::] vs 0) //.
    have [h _] := gram 0%N (place j) isT (place_lt hj); rewrite h ?mul0r ?mulr0 //.
    by rewrite /place (gtn_eqF j0); case: ifP.
  rewrite dc // mulrA ff mul1r; have [_ h] := gram 0%N 0%N isT isT.
  by rewrite (_ : side = nth [::] vs 0) // h divr_gt0 ?lp // -length_sq exprn_gt0 // lp.
- move=> i j hi hj; have pi := place_lt hi; have pj := place_lt hj.
  rewrite (dc j) ?sc // (dot_sym (sc _ hi) (su' _ pj)) dc ?su' //; case: (i =P j) => [->|/eqP ne].
    rewrite -length_sq expr2 mulfK ?gt_eqF ?lp // -mulrA divff ?gt_eqF ?lp // mulr1 ff //.
  have ne' : place i != place j by rewrite place_inj.
  have -> : vdot id (nth [::] us (place j)) (nth [::] us (place i)) = 0; last by rewrite mul0r mulr0 mul0r mulr0.
  case: (ltngtP (place i) (place j)) ne' => // h _.
    by rewrite (dot_sym (su' _ pj) (su' _ pi)); apply/eqP/g2; rewrite // inE su.
  by apply/eqP/g2; rewrite // inE su.
- move=> j hj; rewrite dc // look1 ?place_lt // -hpn place_inj //; case: (j =P n) => [->|_]; last by rewrite mul0r mulr0.
  by rewrite hpn -length_sq expr2 mulfK ?gt_eqF ?lp // l1.
- move=> i hi; have hin : nth [::] bases i \in bases by rewrite mem_nth ?sb.
  have hsb := hb _ hin; split; first by rewrite dc // base0 // mul0r mulr0.
  move=> j /andP [h1 h2]; have hj := ltnW h2; rewrite dc //.
  have ep : place j = j.+1 by rewrite /place (ltn_eqF h2); case: (j) h1.
  have hi2 : (i.+2 <= n)%N by rewrite ltn_predRL in hi.
  have [h _] := gram i.+2 (place j) hi2 (place_lt hj).
  by rewrite (_ : nth [::] bases i = nth [::] vs i.+2) // h ?mul0r ?mulr0 // ep.
move=> i hi; have hin : nth [::] bases i \in bases by rewrite mem_nth ?sb.
have hsb := hb _ hin; have hi2 : (i.+1 < n)%N by rewrite ltn_predRL in hi.
have ep : place i.+1 = i.+2 by rewrite /place (ltn_eqF hi2).
rewrite dc ?(ltnW hi2) // mulrA ff mul1r ep; have [_ h] := gram i.+2 i.+2 hi2 hi2.
by rewrite (_ : nth [::] bases i = nth [::] vs i.+2) // h -length_sq expr2 mulfK ?gt_eqF ?lp.
Qed.
End View.

Section ViewAffine.
Variable R : rcfType.
Lemma view_affine follow rm jk r c (eye target : seq R) bases flips cols : let d := size eye in
  (0 < d)%N -> shape follow d r c -> frows follow r c = d.+1 ->
  view_rotation jk eye target bases flips = Some (Mat false jk cols) ->
  size cols = d -> (forall j, (j < d)%N -> size (nth [::] cols j) = d) ->
  exists2 m, view follow rm jk r c eye target bases flips = Some m &
    affine_mat follow d r c m (fun i j => nth 0 (nth [::] cols j) i) (fun j => - vdot id eye (nth [::] cols j)).
Proof.
move=> d d0 hs ea e sc hc; rewrite /view e; eexists; first by [].
rewrite -/d; set rot := Mat _ _ _; set t := vec_mat _ _ _ _.
have w : wf d d rot.
  by rewrite /wf /= sc eqxx; apply/allP => v /(nthP [::]) [j hj <-]; rewrite hc // -sc.
have st : size t = d by rewrite /t (vec_matP w) ?size_map ?size_iota.
have ht j : (j < d)%N -> nth 0 t j = - vdot id eye (nth [::] cols j).
  move=> hj; rewrite /t (vec_matP w) ?size_map // nth_mkseq // (@vdot_idE _ d) ?hc // -sumrN.
  apply: eq_bigr => l _; rewrite nth_vneg mulNr; congr (- (_ * _)).
  by rewrite /get /=; apply: set_nth_default; rewrite ?hc.
have hL i j : (i < d)%N -> (j < d)%N -> fget follow (if follow then convert rm d d rot else convert_order rm d d rot) i j =
    nth 0 (nth [::] cols j) i.
  have [_ _ _ h1] := convertP rm w; have [_ _ _ h2] := convert_orderP rm w => hi hj.
  rewrite /fget; case: (follow); rewrite ?h1 ?h2 // /get /=; apply: set_nth_default; rewrite ?hc //.
have h := insert_affine rm jk hs (leqnn d) hL.
set m1 := insert d d 0 0 _ _ in h *; have [w1 h1] := h.
have [/andP [a1 a2] /andP [b1 b2]] := shape_dims hs.
have [wv1 _ hv1] := @ctor_vectorP R rm jk 1 d t (minn_idPl d0) (etrans st (esym (maxn_idPr d0))).
have [wv2 _ hv2] := @ctor_vectorP R rm jk d 1 t (minn_idPr d0) (etrans st (esym (maxn_idPl d0))).
split.
  case: (follow) a1 a2 b1 b2 ea {h hL h1 hs} w1 => /= a1 a2 b1 b2 ea w1.
    by have [[]] := @insertP R r c 1 d d 0 (ctor_vector rm jk 1 d t) m1 w1 ltac:(by rewrite add1n ea) ltac:(by rewrite addn0).
  by have [[]] := @insertP R r c d 1 0 d (ctor_vector rm jk d 1 t) m1 w1 ltac:(by rewrite addn0) ltac:(by rewrite add1n ea).
move=> i j hi hj.
have -> : fget follow (if follow then insert 1 d d 0 (ctor_vector rm jk 1 d t) m1 else insert d 1 0 d (ctor_vector rm jk d 1 t) m1) i j =
   if (i == d) && (j < d)%N then nth 0 t j else fget follow m1 i j.
  case: (follow) a1 a2 b1 b2 ea {h hL h1 hs} w1 hi hj => /= a1 a2 b1 b2 ea w1 hi hj; rewrite /fget.
    have [_ ->] := @insertP R r c 1 d d 0 (ctor_vector rm jk 1 d t) m1 w1 ltac:(by rewrite add1n ea) ltac:(by rewrite addn0).
    rewrite add1n addn0 ltnS -eqn_leq eq_sym; case: (i =P d) => [->|_] //=; case: ltnP => // hjd.
    by rewrite subnn subn0 hv1 // add0n; apply: set_nth_default; rewrite st.
  have [_ ->] := @insertP R r c d 1 0 d (ctor_vector rm jk d 1 t) m1 w1 ltac:(by rewrite addn0) ltac:(by rewrite add1n ea).
  rewrite add1n addn0 ltnS -eqn_leq [d == i]eq_sym andbC; case: (i =P d) => [->|_] //=; case: ltnP => // hjd.
  by rewrite subnn subn0 hv2 // addn0; apply: set_nth_default; rewrite st.
case: (i =P d) => [->|/eqP ne] /=; last first.
  have hid : (i < d)%N by rewrite ltn_neqAle ne -ltnS -ea.
  by rewrite h1 // hid; case: ltnP.
by rewrite h1 ?ea // ltnn; case: ltnP => // hjd; rewrite ht.
Qed.
End ViewAffine.
