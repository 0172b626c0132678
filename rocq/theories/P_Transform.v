(* Lemmas about the transform builders *)
From mathcomp Require Import all_ssreflect all_algebra.
From mathcomp Require Import ring.
From Verif Require Import M_Vec M_Mat M_Cross M_Quat M_Transform Spec P_Vec P_Mat Props_Mat.
Set Implicit Arguments. Unset Strict Implicit. Unset Printing Implicit Defensive.
Import Order.Theory GRing.Theory Num.Theory.
Local Open Scope ring_scope.

(* element access in FOLLOW_VECTOR convention *)
Definition fget (T : Type) (follow : bool) (m : mat T) (i j : nat) : T := if follow then get m i j else get m j i.
Definition frows (follow : bool) (r c : nat) : nat := if follow then r else c.
Definition fcols (follow : bool) (r c : nat) : nat := if follow then c else r.
(* the shapes of a transform of d-dimensional points *)
Definition shape (follow : bool) (d r c : nat) : bool :=
  let a := frows follow r c in let b := fcols follow r c in
  [|| (a == d) && (b == d), (a == d.+1) && (b == d) | (a == d.+1) && (b == d.+1)]%N.

Section Access.
Variable T : Type.
Implicit Types m : mat T.
Lemma fget_set_same follow m i j x i' j' :
  fget follow (if follow then set m i j x else set m j i x) i' j' =
  if (i' == i)%N && (j' == j)%N then x else fget follow m i' j'.
Proof. by rewrite /fget; case: follow; rewrite get_set // andbC. Qed.
Lemma wf_fset follow r c m i j x : wf r c m -> (i < frows follow r c)%N -> (j < fcols follow r c)%N ->
  wf r c (if follow then set m i j x else set m j i x).
Proof. by case: follow => /= w hi hj; apply: wf_set. Qed.
End Access.

Section Ring.
Variable R : comRingType.
Implicit Types (m : mat R) (v : seq R).

Lemma zero_matP rm (jk : R) r c :
  [/\ wf r c (zero_mat rm jk r c), rowmaj (zero_mat rm jk r c) = rm &
      forall i j, (i < r)%N -> (j < c)%N -> get (zero_mat rm jk r c) i j = 0].
Proof.
rewrite /zero_mat map_nseq; split=> //; first by rewrite /wf /= size_nseq eqxx all_nseq size_nseq eqxx orbT.
by move=> i j hi hj; rewrite /get /stripe_count /stripe_dim /=; case: rm; rewrite !nth_nseq ?hi ?hj nth_nseq ?hi ?hj.
Qed.

(* a loop over the diagonal *)
Lemma diagP r c lo hi (f : nat -> R) m : wf r c m -> (hi <= minn r c)%N ->
  let m' := for_loop lo hi (fun i m => set m i i (f i)) m in
  same r c m m' /\ forall i j, get m' i j = if (i == j) && (lo <= i < hi)%N then f i else get m i j.
Proof.
move=> w hb; case: (leqP lo hi) => hlh; last first.
  rewrite /= for_loop_nil 1?ltnW //; split=> // i j.
  by case: andP => // -[_ /andP [h1 h2]]; have := leq_ltn_trans h1 h2; rewrite ltnNge ltnW.
pose P k D := same r c m D /\ forall i j, get D i j = if (i == j) && (lo <= i < k)%N then f i else get m i j.
apply: (@for_loop_ind _ P) => //.
  by split=> // i j; rewrite andbC; case: leqP => //= h; rewrite ltnNge ltnW.
move=> k D /andP [h1 h2] [[wD e1 e2] hD]; split.
  apply: (@same_trans _ r c m D) => //; apply: same_set => //; apply: leq_trans h2 _; apply: (leq_trans hb).
    exact: geq_minl.
  exact: geq_minr.
move=> i j; rewrite get_set hD ltnS; case: (i =P k) => [->|ne] /=.
  by rewrite [j == _]eq_sym h1 leqnn; case: (k =P j) => //= _; rewrite ltnn.
by rewrite [(i <= k)%N]leq_eqVlt (introF eqP ne).
Qed.

Lemma identityP rm (jk : R) r c :
  [/\ wf r c (identity rm jk r c), rowmaj (identity rm jk r c) = rm &
      forall i j, (i < r)%N -> (j < c)%N -> get (identity rm jk r c) i j = (i == j)%:R].
Proof.
have [w e h] := zero_matP rm jk r c; rewrite /identity.
have [[w' e1 _] h'] := diagP 0 (fun _ => 1) w (leqnn _); split=> //.
move=> i j hi hj; rewrite h' leq_min hi /=; case: (i =P j) => [->|] /=; first by rewrite hj.
by move=> _; rewrite h.
Qed.

Lemma scaleP rm (jk : R) r c v : (size v <= minn r c)%N ->
  [/\ wf r c (scale rm jk r c v), rowmaj (scale rm jk r c v) = rm &
      forall i j, (i < r)%N -> (j < c)%N ->
        get (scale rm jk r c v) i j = if i == j then (if (i < size v)%N then nth 0 v i else 1) else 0].
Proof.
move=> hv; have [w e h] := zero_matP rm jk r c; rewrite /scale.
have [[w' e1 _] h'] := diagP 0 (fun i => nth 0 v i) w hv.
have [[w'' e2 _] h''] := diagP (size v) (fun i => 1) w' (leqnn _).
split=> //; first by rewrite e2.
move=> i j hi hj; rewrite h'' h' h // leq_min; case: (i =P j) => //= ?; subst j.
by rewrite hi hj !andbT; case: ltnP.
Qed.

(* a transform matrix with linear part L and translation t, in FOLLOW_VECTOR convention *)
Definition affine_mat (follow : bool) (d r c : nat) m (L : nat -> nat -> R) (t : nat -> R) : Prop :=
  wf r c m /\ forall i j, (i < frows follow r c)%N -> (j < fcols follow r c)%N ->
    fget follow m i j =
      if (j < d)%N then if (i < d)%N then L i j else t j else (i == j)%:R.

Lemma identity_affine follow d rm (jk : R) r c : shape follow d r c ->
  affine_mat follow d r c (identity rm jk r c) (fun i j => (i == j)%:R) (fun=> 0).
Proof.
move=> hs; have [w _ h] := identityP rm jk r c; split=> // i j hi hj.
have hij : (i <= d)%N.
  by case/or3P: hs => /andP [/eqP ea _]; rewrite ea in hi => //; apply: ltnW.
rewrite /fget; case: follow hs hi hj => hs hi hj; rewrite h // ?[j == i]eq_sym; case: ifP => // hj';
  case: ifP => // hi'; suff -> : (i == j) = false by [];
  by apply: gtn_eqF; apply: leq_trans hj' _; rewrite leqNgt hi'.
Qed.
End Ring.

Section Field.
Variable F : fieldType.
Implicit Types (m : mat F) (v : seq F).

Lemma shape_dims follow d r c : shape follow d r c ->
  (d <= frows follow r c <= d.+1)%N /\ (d <= fcols follow r c <= d.+1)%N.
Proof.
by case/or3P => /andP [/eqP -> /eqP ->]; rewrite !leqnn !leqnSn.
Qed.

Lemma transformE follow d r c m v : wf r c m -> shape follow d r c -> (0 < d)%N -> size v = d ->
  let h j := \sum_(l < d) nth 0 v l * fget follow m l j + (if frows follow r c == d.+1 then fget follow m d j else 0) in
  transform follow d r c m v =
  if fcols follow r c == d.+1 then if h d == 0 then None else Some (mkseq (fun j => h j / h d) d)
  else Some (mkseq h d).
Proof.
move=> w; rewrite /shape /frows /fcols /transform /fget => hs d0 sv.
case: follow hs => /= /or3P [] /andP [/eqP er /eqP ec]; subst r; subst c; rewrite ?eqxx ?(ltn_eqF (ltnSn _)) ?(gtn_eqF (ltnSn _)) /=.
- by rewrite (vec_matP w) //; congr Some; apply: eq_mkseq => j; rewrite addr0.
- have [wA _] : wf d d.+1 (identity true (0 : F) d d.+1) /\ true by have [] := identityP true (0 : F) d d.+1.
  by rewrite (proj2 (C24_affine wA w sv)).
- by rewrite (C24_homogeneous_follow w sv).
- by rewrite (mat_vecP w) //; congr Some; apply: eq_mkseq => j; rewrite addr0.
- have [wA _] : wf d.+1 d (identity true (0 : F) d.+1 d) /\ true by have [] := identityP true (0 : F) d.+1 d.
  rewrite (proj1 (C24_affine w wA sv)); congr Some; apply: eq_mkseq => j; congr (_ + _).
  by apply: eq_bigr => l _; rewrite mulrC.
- rewrite (C24_homogeneous_precede w sv).
  have e i : \sum_(l < d) nth 0 v l * get m i l = \sum_(l < d) get m i l * nth 0 v l by apply: eq_bigr => l _; rewrite mulrC.
  by rewrite e; case: ifP => // _; congr Some; apply: eq_mkseq => i; rewrite e.
Qed.

Lemma affine_transform follow d r c m v L t : affine_mat follow d r c m L t -> shape follow d r c -> (0 < d)%N ->
  size v = d ->
  transform follow d r c m v =
    Some (mkseq (fun j => \sum_(l < d) nth 0 v l * L l j + (if frows follow r c == d.+1 then t j else 0)) d).
Proof.
move=> [w h] hs d0 sv; rewrite transformE //; have [/andP [a1 a2] /andP [b1 b2]] := shape_dims hs.
have hin (l : 'I_d) : (l < frows follow r c)%N by apply: leq_trans a1.
case: ifP => [/eqP e|/eqP e].
  have ea : frows follow r c = d.+1 by move: hs; rewrite /shape e (gtn_eqF (ltnSn d)) !andbF /= eqxx andbT => /eqP.
  rewrite ea eqxx (h d d) ?ea ?e ?ltnn // eqxx big1 => [|l _]; last first.
    by rewrite h ?e // ltnn (ltn_eqF (ltn_ord l)) mulr0.
  rewrite add0r oner_eq0; congr Some; apply/eq_in_map => j; rewrite mem_iota add0n => /andP [_ hj].
  rewrite divr1 h ?ea ?e // ?hj ?ltnn; last exact: ltnW.
  congr (_ + _); apply: eq_bigr => l _; rewrite h ?ea ?e ?hj ?ltn_ord //; last exact: ltnW.
  by apply: leq_trans (ltn_ord l) _.
congr Some; apply/eq_in_map => j; rewrite mem_iota add0n => /andP [_ hj].
have hj' : (j < fcols follow r c)%N by apply: leq_trans b1.
congr (_ + _); first by apply: eq_bigr => l _; rewrite h // hj ltn_ord.
by case: eqP => // ea; rewrite h ?ea // hj ltnn.
Qed.
End Field.

Section Builders.
Variable R : comRingType.
Implicit Types (m : mat R) (v : seq R).

Lemma sum_delta d (f : nat -> R) j : (j < d)%N -> \sum_(l < d) f l * (l == j :> nat)%:R = f j.
Proof.
move=> hj; rewrite (bigD1 (Ordinal hj)) //= eqxx mulr1 big1 ?addr0 // => l ne.
by rewrite (_ : (l == j :> nat) = false) ?mulr0 //; apply: contraNF ne => /eqP e; apply/eqP/val_inj.
Qed.

Lemma scale_affine follow d rm (jk : R) r c v : shape follow d r c -> size v = d ->
  affine_mat follow d r c (scale rm jk r c v) (fun i j => nth 0 v j * (i == j)%:R) (fun=> 0).
Proof.
move=> hs sv; have [/andP [a1 a2] /andP [b1 b2]] := shape_dims hs.
have [|w _ h] := @scaleP R rm jk r c v.
  by rewrite sv leq_min; case: follow {hs a2 b2} a1 b1 => /= -> ->.
split=> // i j hi hj; have hi' : (i <= d)%N by rewrite -ltnS (leq_trans hi).
have -> : fget follow (scale rm jk r c v) i j = if i == j then if (i < size v)%N then nth 0 v i else 1 else 0.
  by rewrite /fget; case: follow hs hi hj {a1 a2 b1 b2} => /= hs hi hj; rewrite h // eq_sym; case: eqP => [->|].
rewrite sv; case: (i =P j) => [->|] //=; rewrite ?mulr0 ?mulr1; last by case: ifP => // _; case: ifP.
by case: ifP.
Qed.

Lemma translation_affine follow d rm (jk : R) r c v : shape follow d r c -> frows follow r c = d.+1 -> size v = d ->
  affine_mat follow d r c (translation follow rm jk r c v) (fun i j => (i == j)%:R) (fun j => nth 0 v j).
Proof.
move=> hs ea sv; have [/andP [a1 a2] /andP [b1 b2]] := shape_dims hs.
have [w h] := @identity_affine R follow d rm jk r c hs; set m0 := identity rm jk r c in w h *.
pose P k m := wf r c m /\ forall i j, fget follow m i j = if (i == d) && (j < k)%N then nth 0 v j else fget follow m0 i j.
have [w' h'] : P d (translation follow rm jk r c v).
  have -> : translation follow rm jk r c v = for_loop 0 d (fun i m => if follow then set m d i (nth 0 v i) else set m i d (nth 0 v i)) m0.
    by rewrite /translation sv /m0; move: ea; rewrite /frows; case: (follow) => ->.
  apply: (@for_loop_ind _ P) => //; first by split=> // i j; rewrite ltn0 andbF.
  move=> k m /andP [_ hk] [wm hm]; split.
    by apply: wf_fset => //; rewrite ?ea //; apply: leq_trans hk b1.
  move=> i j; rewrite fget_set_same hm ltnS; case: (i =P d) => //= _.
  by rewrite [in RHS]leq_eqVlt; case: (j =P k) => [->|].
split=> // i j hi hj; rewrite h' h //; case: (ltnP j d) => hjd; rewrite ?andbT ?andbF //.
by case: (i =P d) => [->|/eqP ne]; rewrite ?ltnn //= ltn_neqAle ne -ltnS -ea hi.
Qed.

Lemma shear_aligned_affine follow d rm (jk : R) r c slope dir mod : shape follow d r c -> (dir < d)%N -> (mod < d)%N ->
  affine_mat follow d r c (shear_aligned follow rm jk r c slope dir mod)
    (fun i j => if (i == mod) && (j == dir) then slope else (i == j)%:R) (fun=> 0).
Proof.
move=> hs hd hm; have [/andP [a1 a2] /andP [b1 b2]] := shape_dims hs.
have [w h] := @identity_affine R follow d rm jk r c hs; rewrite /shear_aligned.
split; first by apply: wf_fset => //; [apply: leq_trans hm a1|apply: leq_trans hd b1].
move=> i j hi hj; rewrite fget_set_same; case: andP => [[/eqP -> /eqP ->]|ne]; first by rewrite hd hm.
by rewrite h.
Qed.

Lemma from_precedeP follow rm n m : wf n n m ->
  [/\ wf n n (from_precede follow rm n m), rowmaj (from_precede follow rm n m) = rm &
      forall i j, (i < n)%N -> (j < n)%N -> fget follow (from_precede follow rm n m) i j = get m j i].
Proof.
move=> w; rewrite /from_precede /fget; case: follow.
  by have [w' e _ h] := convert_orderP rm w; split.
by have [w' e _ h] := convertP rm w; split=> // i j hi hj; rewrite h.
Qed.

Lemma insert_affine follow d k rm (jk : R) r c sub L : shape follow d r c -> (k <= d)%N ->
  (forall i j, (i < k)%N -> (j < k)%N -> fget follow sub i j = L i j) ->
  affine_mat follow d r c (insert k k 0 0 sub (identity rm jk r c))
    (fun i j => if (i < k)%N && (j < k)%N then L i j else (i == j)%:R) (fun=> 0).
Proof.
move=> hs hk hL; have [/andP [a1 a2] /andP [b1 b2]] := shape_dims hs.
have [w h] := @identity_affine R follow d rm jk r c hs.
have hr : (k + 0 <= r)%N by rewrite addn0; apply: leq_trans hk _; case: follow {hs h hL} a1 b1 {a2 b2}.
have hc : (k + 0 <= c)%N by rewrite addn0; apply: leq_trans hk _; case: follow {hs h hL} a1 b1 {a2 b2}.
have [[w' _ _] h'] := insertP sub w hr hc; split=> // i j hi hj.
have -> : fget follow (insert k k 0 0 sub (identity rm jk r c)) i j =
  if (i < k)%N && (j < k)%N then fget follow sub i j else fget follow (identity rm jk r c) i j.
  by rewrite /fget; case: follow {hs h hL a1 a2 b1 b2 hi hj}; rewrite h' !addn0 !subn0 // andbC.
case: ifP => [/andP [ik jk']|_]; first by rewrite hL // !(leq_trans _ hk).
by rewrite h.
Qed.

Lemma shear_affine follow d rm (jk : R) r c slope (dir mod : seq R) : shape follow d r c ->
  (0 < size dir <= d)%N -> size mod = size dir ->
  affine_mat follow d r c (shear follow rm jk r c slope dir mod)
    (fun i j => (i == j)%:R + slope * nth 0 mod i * nth 0 dir j) (fun=> 0).
Proof.
move=> hs /andP [n0 hn] sm; set n := size dir.
have [w1 _ h1] := @ctor_vectorP R rm jk n 1 dir (minn_idPr n0) (esym (maxn_idPl n0)).
have [w2 _ h2] := @ctor_vectorP R rm jk 1 n mod (minn_idPl n0) (etrans sm (esym (maxn_idPr n0))).
have [w3 _ h3] := @scalar_opP R (fun v => vscalel slope v) (fun x => slope * x) n 1 _ w1 (fun v => erefl).
have [w4 _ h4] := mat_mulP w3 w2 (ltnSn 0).
have [w5 _ h5] := identityP rm jk n n.
have [w6 _ h6] := @elementwiseP R (@vadd R) +%R n n _ _ w5 w4 (@vmap2_pw R +%R).
have [_ _ h7] := from_precedeP follow rm w6.
have hk : forall i j, (i < n)%N -> (j < n)%N ->
  fget follow (from_precede follow rm n (mat_add n n (identity rm jk n n)
    (mat_mul n 1 n (mat_scalel n 1 slope (ctor_vector rm jk n 1 dir)) (ctor_vector rm jk 1 n mod)))) i j =
  (i == j)%:R + slope * nth 0 mod i * nth 0 dir j.
  move=> i j hi hj; rewrite h7 // h6 // h5 // h4 // big_ord1 h3 // h1 // h2 // addn0 add0n eq_sym.
  by congr (_ + _); rewrite !(set_nth_default 0 jk) ?sm //; ring.
have [w h] := insert_affine rm jk hs hn hk; split=> // i j hi hj; rewrite h //.
case: ifP => // hjd; case: ifP => // hid; case: ifP => // /negbT.
rewrite negb_and -!leqNgt => /orP [] hh; first by rewrite (@nth_default _ _ mod) ?sm // mulr0 mul0r addr0.
by rewrite (@nth_default _ _ dir) // mulr0 addr0.
Qed.
End Builders.

Section Rank1.
Variable R : comRingType.

(* the matrix determinant lemma for a rank one update *)
Lemma det_rank1 n (u : 'cV[R]_n) (v : 'rV[R]_n) : \det (1%:M + u *m v) = 1 + (v *m u) 0 0.
Proof.
pose A := block_mx (1%:M : 'M[R]_n) 0 v (1%:M : 'M[R]_1).
pose B := block_mx (1%:M + u *m v) u 0 (1%:M : 'M[R]_1).
pose C := block_mx (1%:M : 'M[R]_n) 0 (- v) (1%:M : 'M[R]_1).
have e : A *m B *m C = block_mx 1%:M u 0 (1%:M + v *m u).
  rewrite /A /B /C !mulmx_block !mul1mx !mul0mx !mulmx1 !mulmx0 !addr0 ?add0r mulmxN.
  rewrite addrK; congr block_mx; last by rewrite addrC.
  rewrite mulmxN mulmxDr mulmx1 mulmxDl mul1mx mulmxA opprD addrA.
  by rewrite addrK subrr.
have := congr1 (fun M => \det M) e; rewrite !det_mulmx !det_lblock !det_ublock !det1 !mul1r !mulr1.
by move=> ->; rewrite det_mx11 mxE [X in X + _]mxE eqxx.
Qed.

Lemma rank1_inv n (u : 'cV[R]_n) (v : 'rV[R]_n) : v *m u = 0 -> (1%:M + u *m v) *m (1%:M - u *m v) = 1%:M.
Proof.
move=> h; rewrite mulmxBr mulmx1 mulmxDl mul1mx -mulmxA [v *m (u *m v)]mulmxA h mul0mx mulmx0 addr0.
by rewrite addrK.
Qed.

Lemma affine_mx follow n (m : mat R) L t : affine_mat follow n n n m L t ->
  mxof n n m = if follow then \matrix_(i, j) L i j else \matrix_(i, j) L j i.
Proof.
rewrite /affine_mat /frows /fcols !if_same /fget => -[_ h].
by case: follow h => h; apply/matrixP => i j; rewrite !mxE h // !ltn_ord.
Qed.
End Rank1.

Section ShearMx.
Variable F : comRingType.
Variables (follow rm : bool) (jk : F) (n : nat).

Lemma shear_mx slope (u v : seq F) : (0 < size u <= n)%N -> size v = size u ->
  mxof n n (shear follow rm jk n n slope u v) =
  1%:M + (\col_i (slope * nth 0 (if follow then v else u) i)) *m (\row_j nth 0 (if follow then u else v) j).
Proof.
move=> hu sv; have hs : shape follow n n n by rewrite /shape /frows /fcols !if_same eqxx.
rewrite (affine_mx (shear_affine rm jk slope hs hu sv)).
case: (follow); apply/matrixP => i j; rewrite !mxE big_ord1 !mxE -?val_eqE //.
by rewrite eq_sym; congr (_ + _); rewrite mulrAC.
Qed.
Lemma shear_aligned_mx slope (dir mod : nat) : (dir < n)%N -> (mod < n)%N -> dir != mod ->
  mxof n n (shear_aligned follow rm jk n n slope dir mod) =
  1%:M + (\col_i (slope * (i == (if follow then mod else dir) :> nat)%:R)) *m (\row_j (j == (if follow then dir else mod) :> nat)%:R).
Proof.
move=> hd hm ne; have hs : shape follow n n n by rewrite /shape /frows /fcols !if_same eqxx.
rewrite (affine_mx (shear_aligned_affine rm jk slope hs hd hm)).
case: (follow); apply/matrixP => i j; rewrite !mxE big_ord1 !mxE -?val_eqE /=.
  case: (i =P mod :> nat) => [->|_]; case: (j =P dir :> nat) => [->|_] /=; rewrite ?mulr1 ?mulr0 ?mul0r ?addr0 //.
  by rewrite eq_sym (negbTE ne) add0r.
rewrite [_ == val i]eq_sym andbC.
case: (i =P dir :> nat) => [ei|_]; case: (j =P mod :> nat) => [->|_] /=; rewrite ?ei ?mulr1 ?mulr0 ?mul0r ?addr0 //.
  by rewrite (negbTE ne) add0r.
Qed.
Lemma shear_perp slope (u v : seq F) : (0 < size u <= n)%N -> size v = size u ->
  \sum_(l < size u) nth 0 u l * nth 0 v l = 0 ->
  (\row_(j < n) nth 0 (if follow then u else v) j) *m (\col_i (slope * nth 0 (if follow then v else u) i)) = 0.
Proof.
move=> /andP [_ hu] sv perp; apply/matrixP => i j; rewrite !mxE.
have perp' : \sum_(l < n) nth 0 u l * nth 0 v l = 0.
  rewrite -[RHS]perp -!(big_mkord xpredT (fun l => nth 0 u l * nth 0 v l)) (big_cat_nat _ _ _ _ hu) //=.
  by rewrite [X in _ + X]big_nat_cond [X in _ + X]big1 ?addr0 // => l /andP [/andP [hl _] _]; rewrite nth_default // mul0r.
rewrite (eq_bigr (fun l : 'I_n => slope * (nth 0 u l * nth 0 v l))); first by rewrite -mulr_sumr perp' mulr0.
by move=> l _; rewrite !mxE; case: (follow); rewrite mulrCA // [nth 0 v l * _]mulrC.
Qed.
Lemma shear_aligned_perp (slope : F) (dir mod : nat) : dir != mod ->
  (\row_(j < n) (j == (if follow then dir else mod) :> nat)%:R) *m (\col_i (slope * (i == (if follow then mod else dir) :> nat)%:R)) = 0.
Proof.
move=> ne; apply/matrixP => i j; rewrite !mxE big1 // => l _; rewrite !mxE.
case: (follow); case: (l =P dir :> nat) => [->|_]; rewrite ?(negbTE ne) ?mulr0 ?mul0r //.
Qed.
End ShearMx.
