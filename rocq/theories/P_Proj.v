(* Lemmas about the projection builders *)
From mathcomp Require Import all_ssreflect all_algebra.
From mathcomp Require Import ring.
From Verif Require Import M_Vec M_Mat M_Quat M_Transform Spec P_Vec P_Mat P_Transform P_Rot2.
Set Implicit Arguments. Unset Strict Implicit. Unset Printing Implicit Defensive.
Import Order.Theory GRing.Theory Num.Theory.
Local Open Scope ring_scope.

Section Ring.
Variable R : comRingType.
Implicit Types (m : mat R) (L : nat -> nat -> R).
Lemma felem_affine_t follow d r c m L t k x : affine_mat follow d r c m L t -> shape follow d r c ->
  frows follow r c = d.+1 -> (k < d)%N ->
  affine_mat follow d r c (felem_set follow m d k x) L (fun j => if j == k then x else t j).
Proof.
move=> [w h] hs ea hk; have [_ /andP [b1 _]] := shape_dims hs.
have hk' := leq_trans hk b1; rewrite /felem_set; split; first by apply: wf_fset => //; rewrite ea.
move=> i j hi hj; rewrite fget_set_same h //.
case: (i =P d) => [->|ne] /=.
  by rewrite ltnn; case: (j =P k) => [->|_] //=; rewrite hk.
by case: ltnP => // hjd; case: ltnP => // hid; case: ne; apply/eqP; rewrite eqn_leq hid andbT -ltnS -ea.
Qed.
End Ring.

Section Field.
Variable F : fieldType.
Lemma affine_full follow d r c (m : mat F) L t v : affine_mat follow d r c m L t -> shape follow d r c ->
  frows follow r c = d.+1 -> (0 < d)%N -> size v = d ->
  transform follow d r c m v = Some (mkseq (fun j => \sum_(l < d) nth 0 v l * L l j + t j) d).
Proof.
move=> h hs ea d0 sv; rewrite (affine_transform h) //; congr Some; apply/eq_in_map => j _.
by rewrite ea eqxx.
Qed.

(* the scale and the offset of an orthographic projection *)
Definition ortho_scale (lo hi : seq F) (pn pf : F) (i : nat) : F :=
  (if i == (size lo).-1 then pf - pn else 2%:R) / (nth 0 hi i - nth 0 lo i).
Definition ortho_offset (lo hi : seq F) (pn pf : F) (i : nat) : F :=
  (if i == (size lo).-1 then (pf + pn) / 2%:R else 0) - (nth 0 hi i + nth 0 lo i) / 2%:R * ortho_scale lo hi pn pf i.

Lemma mem0_sub (lo hi : seq F) : size hi = size lo ->
  (0 \in vsub hi lo) = ~~ all (fun i => nth 0 lo i != nth 0 hi i) (iota 0 (size lo)).
Proof.
move=> e; apply/idP/idP.
  move/(nthP 0) => [i]; rewrite size_map size_zip e minnn => hi'.
  rewrite (nth_map (0, 0)) ?size_zip ?e ?minnn // nth_zip //= => /eqP; rewrite subr_eq0 => /eqP h.
  by apply/negP => /allP /(_ i); rewrite mem_iota h eqxx => /(_ hi').
move/allPn => [i]; rewrite mem_iota add0n => /andP [_ hi'] /negPn /eqP h.
apply/(nthP 0); exists i; rewrite ?size_map ?size_zip ?e ?minnn //.
by rewrite (nth_map (0, 0)) ?size_zip ?e ?minnn // nth_zip //= h subrr.
Qed.

Lemma orthographic_affine follow rm jk r c (lo hi : seq F) pn pf : shape follow (size lo) r c ->
  frows follow r c = (size lo).+1 -> (0 < size lo)%N -> size hi = size lo -> 2%:R != 0 :> F ->
  if all (fun i => nth 0 lo i != nth 0 hi i) (iota 0 (size lo)) then
    exists2 m, orthographic follow rm jk r c lo hi pn pf = Some m &
      affine_mat follow (size lo) r c m (fun i j => if i == j then ortho_scale lo hi pn pf i else 0) (ortho_offset lo hi pn pf)
  else orthographic follow rm jk r c lo hi pn pf = None.
Proof.
move=> hs ea d0 e n2; rewrite /orthographic /sdivv mem0_sub //.
case: (all _ _) => /=; last by [].
eexists; first by [].
set d := size lo; set sc0 := [seq 2%:R / x | x <- _].
have s0 : size sc0 = d by rewrite !size_map size_zip e minnn.
set sc := set_nth 0 sc0 _ _.
have ssc : size sc = d by rewrite size_set_nth s0 prednK // maxnn.
set off0 := vmul _ _.
have soff0 : size off0 = d by rewrite size_map size_zip !size_map size_zip e minnn ssc minnn.
set off := set_nth 0 off0 _ _.
have hsc i : (i < d)%N -> nth 0 sc i = ortho_scale lo hi pn pf i.
  move=> hi'; have h0 : nth 0 sc0 i = 2%:R / (nth 0 hi i - nth 0 lo i).
    by rewrite /sc0 !(nth_map 0) ?(nth_map (0, 0)) ?size_map ?size_zip ?e ?minnn // nth_zip.
  rewrite /sc nth_set_nth /= /ortho_scale -/d; case: (i =P d.-1) => [<-|_]; last by rewrite h0.
  by rewrite h0 mulrAC [2%:R * _]mulrA divff // mul1r.
have hoff i : (i < d)%N -> nth 0 off i = ortho_offset lo hi pn pf i.
  move=> hi'.
  have h0 : nth 0 off0 i = - (nth 0 hi i + nth 0 lo i) / 2%:R * ortho_scale lo hi pn pf i.
    rewrite /off0 /vmul /vmap2 (nth_map (0, 0)) ?size_zip ?size_map ?size_zip ?e ?minnn ?ssc ?minnn //.
    rewrite nth_zip ?size_map ?size_zip ?e ?minnn ?ssc //= hsc //; congr (_ * _).
    by rewrite (nth_map 0) ?nth_vneg ?(nth_vadd _ e (erefl _)) // size_map (size_vadd e (erefl _)).
  rewrite /off nth_set_nth /= /ortho_offset -/d; case: (i =P d.-1) => [<-|_]; rewrite h0 !mulNr.
    by rewrite addrC.
  by rewrite sub0r.
pose P k m := affine_mat follow d r c m
  (fun i j => if i == j then if (i < k)%N then ortho_scale lo hi pn pf i else 1 else 0)
  (fun j => if (j < k)%N then ortho_offset lo hi pn pf j else 0).
suff h : P d (for_loop 0 d (fun i m => let m := set m i i (nth 0 sc i) in
      if follow then set m d i (nth 0 off i) else set m i d (nth 0 off i)) (identity rm jk r c)).
  by apply: affine_ext h _ _ => [i j hi' hj|j hj]; rewrite ?hi' ?hj.
apply: (@for_loop_ind _ P) => //.
  by apply: affine_ext (identity_affine rm jk hs) _ _ => // i j _ _; rewrite ltn0; case: eqP.
move=> k m /andP [_ hk] h.
have h1 := felem_affine (ortho_scale lo hi pn pf k) h hs hk hk.
have h2 := felem_affine_t (ortho_offset lo hi pn pf k) h1 hs ea hk.
have -> : (let m := set m k k (nth 0 sc k) in if follow then set m d k (nth 0 off k) else set m k d (nth 0 off k)) =
   felem_set follow (felem_set follow m k k (ortho_scale lo hi pn pf k)) d k (ortho_offset lo hi pn pf k).
  by rewrite hsc // hoff // /felem_set; case: (follow).
have lS i : (i < k.+1)%N = (i == k) || (i < k)%N by rewrite [LHS]ltnS [LHS]leq_eqVlt.
apply: affine_ext h2 _ _ => [i j hi' hj|j hj] /=.
  rewrite lS; case: (i =P k) => [->|ne] /=; last by [].
  by rewrite ltnn eq_sym; case: (k =P j).
by rewrite lS; case: (j =P k) => [->|ne].
Qed.
End Field.

Section Real.
Variable F : realFieldType.
Variable tanf : F -> F.

Lemma perspectiveP follow rm jk (fovX : F) (ratios : seq F) (N0 F0 n f : F) :
  F0 != N0 -> (0 < size ratios)%N -> all (fun x => x != 0) ratios -> tanf (2%:R^-1 * `|fovX|) != 0 ->
  let d := (size ratios).+1 in
  let w := tanf (2%:R^-1 * `|fovX|) in
  let C := if N0 < 0 then -1 else 1 in
  exists2 m, perspective tanf follow rm jk fovX ratios N0 F0 n f = Some m &
  forall p, size p = d ->
    let z := nth 0 p d.-1 in
    transform follow d d.+1 d.+1 m p = if z == 0 then None else
      Some (mkseq (fun j => (if (j < d.-1)%N then nth 0 p j * (nth 0 ratios 0 / nth 0 ratios j / w)
        else C * (f * F0 - n * N0) / (F0 - N0) * z + C * F0 * N0 * (n - f) / (F0 - N0)) / (C * z)) d).
Proof.
move=> hFN r0 hall w0 d w C.
have C0 : C != 0 by rewrite /C; case: ifP => _; rewrite ?oppr_eq0 oner_eq0.
rewrite /perspective subr_eq0 (negbTE hFN).
have -> : sdivv (nth 0 ratios 0) ratios = Some [seq nth 0 ratios 0 / x | x <- ratios].
  by rewrite /sdivv; case: ifP => // h; move/allP: hall => /(_ _ h); rewrite eqxx.
rewrite (negbTE w0) -/w -/C; set adj := [seq x / w | x <- _].
have sadj : size adj = d.-1 by rewrite !size_map.
have hadj j : (j < d.-1)%N -> nth 0 adj j = nth 0 ratios 0 / nth 0 ratios j / w.
  by move=> hj; rewrite /adj !(nth_map 0) // size_map.
have e2 : ((size ratios).+2 - 2 = d.-1)%N by rewrite subSS subn1.
have e1 : ((size ratios).+2 - 1 = d)%N by rewrite subn1.
rewrite e1 e2; have [w1 _ hz] := zero_matP rm jk (size ratios).+2 (size ratios).+2.
have hb : (size adj <= minn (size ratios).+2 (size ratios).+2)%N by rewrite minnn sadj ltnW.
have [[w2 _ _] hd] := diagP 0 (nth 0 adj) w1 hb.
set m1 := for_loop _ _ _ _ in w2 hd *.
set A := C * (f * F0 - n * N0) / (F0 - N0); set B := C * F0 * N0 * (n - f) / (F0 - N0).
set m2 := set m1 _ _ _.
have hd1 : (d.-1 < (size ratios).+2)%N by rewrite ltnS leqnSn.
have w3 : wf d.+1 d.+1 m2 by apply: wf_set.
pose m := set (set m2 d.-1 d (if follow then C else B)) d d.-1 (if follow then B else C).
exists m; first by rewrite /m; case: (follow).
have w4 : wf d.+1 d.+1 m by do 2! apply: wf_set => //; rewrite ltnS.
have hm i j : (i < d.+1)%N -> (j < d.+1)%N -> fget follow m i j =
   if (i == d) && (j == d.-1) then B else if (i == d.-1) && (j == d) then C else
   if (i == d.-1) && (j == d.-1) then A else if (i == j) && (i < d.-1)%N then nth 0 adj i else 0.
  have n1 : (d == d.-1) = false by apply/negbTE; rewrite neq_ltn ltnSn orbT.
  have n2 : (d.-1 == d) = false by rewrite eq_sym.
  have n3 : (d < size ratios)%N = false by rewrite ltnNge leqnSn.
  have tri k : (k < d.+1)%N -> [\/ [/\ (k == d) = false, (k == d.-1) = false & (k < d.-1)%N = true], k = d.-1 | k = d].
    rewrite ltnS leq_eqVlt => /orP [/eqP -> |]; first by constructor 3.
    rewrite ltnS leq_eqVlt => /orP [/eqP -> |h]; first by constructor 2.
    by constructor 1; rewrite h (ltn_eqF h) ltn_eqF //; apply: leqW.
  move=> hi hj; rewrite /fget /m /m2; case: (follow); rewrite !get_set !hd sadj;
    case: (tri _ hi) => [[a1 a2 a3]|->|->]; case: (tri _ hj) => [[b1 b2 b3]|->|->];
    rewrite ?n1 ?n2 ?eqxx ?a1 ?a2 ?a3 ?b1 ?b2 ?b3 ?ltnn ?n3 ?andbF /= ?n3 ?andbF ?hz //.
  by rewrite eq_sym; case: (i =P j) => [->|].
move=> p sp; set z := nth 0 p d.-1; have hs : shape follow d d.+1 d.+1 by rewrite /shape /frows /fcols !if_same !eqxx !orbT.
pose h j := \sum_(l < d) nth 0 p l * fget follow m l j + fget follow m d j.
have -> : transform follow d d.+1 d.+1 m p = if h d == 0 then None else Some (mkseq (fun j => h j / h d) d).
  by rewrite (transformE w4 hs (ltn0Sn _) sp) /frows /fcols if_same eqxx.
have hh j : (j < d.+1)%N -> h j = if j == d then C * z else if j == d.-1 then A * z + B else nth 0 p j * nth 0 adj j.
  move=> hj; rewrite /h [in fget _ _ d j]hm // [d == d.-1](gtn_eqF (ltnSn _)) [d == d]eqxx.
  have -> : (d == j) && (d < d.-1)%N = false by rewrite ltnNge leqnSn andbF.
  rewrite big_ord_recr /= -/z [in fget _ _ (size ratios) j]hm // [size ratios == d]ltn_eqF //.
  rewrite (eq_bigr (fun l : 'I_(size ratios) => nth 0 p j * nth 0 adj j * ((l : nat) == j)%:R)); last first.
    move=> l _; rewrite hm //; last by rewrite (leq_trans (ltn_ord l)) // ltnW.
    rewrite [_ == d]ltn_eqF; last by rewrite (leq_trans (ltn_ord l)) .
    rewrite [nat_of_ord l == d.-1]ltn_eqF; last by [].
    by rewrite (ltn_ord l) andbT /=; case: eqP => [->|_]; rewrite ?mulr1 ?mulr0.
  rewrite -mulr_sumr.
  have -> : \sum_(i < size ratios) ((i : nat) == j)%:R = (j < size ratios)%N%:R :> F.
    case: ltnP => hj'; last by rewrite big1 // => l _; rewrite ltn_eqF // (leq_trans (ltn_ord l)).
    rewrite (bigD1 (Ordinal hj')) //= eqxx big1 ?addr0 // => l ne.
    by case: eqP => // e; case/eqP: ne; apply: val_inj.
  rewrite eqxx ltnn andbF /=; move: hj; rewrite ltnS leq_eqVlt => /orP [/eqP ->|].
    by rewrite eqxx ltnNge leqnSn (gtn_eqF (ltnSn _)) /= mulr0 add0r addr0 mulrC.
  rewrite ltnS leq_eqVlt => /orP [/eqP ->|hj'].
    by rewrite eqxx ltnn (ltn_eqF (ltnSn _)) /= mulr0 add0r mulrC.
  by rewrite hj' (ltn_eqF hj') (ltn_eqF (leqW hj')) /= mulr0 mulr1 !addr0.
rewrite hh // eqxx mulf_eq0 (negbTE C0) /=; case: ifP => // _; congr Some.
apply/eq_in_map => j; rewrite mem_iota add0n => /andP [_ hj].
rewrite hh ?(leqW hj) // (ltn_eqF hj); move: hj; rewrite ltnS leq_eqVlt => /orP [/eqP ->|hj'].
  by rewrite eqxx ltnn.
by rewrite (ltn_eqF hj') hj' hadj.
Qed.
End Real.
