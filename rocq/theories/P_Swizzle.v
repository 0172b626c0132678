From mathcomp Require Import all_ssreflect.
From Verif Require Import M_Simd P_Simd M_Swizzle.
Set Implicit Arguments. Unset Strict Implicit. Unset Printing Implicit Defensive.

Section P.
Variables (T : Type) (junk zero : T).

Lemma get_occurrence_mem s v vs l : v \in vs -> get_occurrence s v vs l = l + index v vs.
Proof.
elim: vs l => //= w vs IH l; rewrite inE [w == v]eq_sym.
case: (eqVneq v w) => [->|_] /= h; first by rewrite addn0.
by rewrite IH // addSnnS.
Qed.
Lemma get_occurrence_notin s v vs l : v \notin vs -> get_occurrence s v vs l = s.
Proof.
elim: vs l => //= w vs IH l; rewrite inE negb_or => /andP[/negbTE -> h]; exact: IH.
Qed.

Lemma blend_maskE s idx i : size idx <= s -> blend_mask s idx i = (i \in idx).
Proof.
move=> h; rewrite /blend_mask; case: (boolP (i \in idx)) => hi.
  rewrite get_occurrence_mem // add0n neq_ltn (leq_trans _ h) ?orbT ?index_mem //.
by rewrite get_occurrence_notin // eqxx.
Qed.

Lemma batch_size_big d : 8 < d -> batch_size d false = d.
Proof. by case: d => [|[|[|[|[|[|[|[|[|d]]]]]]]]]. Qed.
Lemma batch_size_small d : d <= 8 -> batch_size d false <= 8.
Proof. by case: d => [|[|[|[|[|[|[|[|[|d]]]]]]]]]. Qed.
Lemma batch_size_mono k d : k <= d -> batch_size k false <= batch_size d false.
Proof.
move=> hk; case: (leqP d 8) => hd.
  by case: d hd hk => [|[|[|[|[|[|[|[|[|d]]]]]]]]] //= _;
     case: k => [|[|[|[|[|[|[|[|[|k]]]]]]]]].
rewrite (batch_size_big hd); case: (leqP k 8) => hk8; last by rewrite batch_size_big.
by apply: leq_trans (batch_size_small hk8) _; apply: ltnW.
Qed.

Variables (hb : nat -> bool) (dim : nat) (packed : bool) (idx : seq nat).
Let n_src := storage_size hb dim packed.
Let n_tgt := storage_size hb (size idx) packed.

Lemma linearize_elems (v pad : seq T) :
  size v = dim -> all (fun i => i < dim) idx ->
  take (size idx) (linearize junk zero hb dim packed idx (v ++ pad)) = [seq nth junk v i | i <- idx].
Proof.
move=> sv /allP hidx; rewrite /linearize.
have E : [seq nth junk (v ++ pad) i | i <- idx] = [seq nth junk v i | i <- idx].
  by apply/eq_in_map => i /hidx hi; rewrite nth_cat sv hi.
case: ifP => [/andP[_ hle]|_]; last by rewrite take_size_cat ?size_map.
have hn : size idx <= n_src by apply: leq_trans hle (storage_size_ge _ _ _).
rewrite take_size_cat; last by rewrite size_takel ?size_mkseq.
rewrite take_mkseq // -E.
apply: (@eq_from_nth _ junk); rewrite size_mkseq ?size_map // => i hi.
by rewrite nth_mkseq // /lin_index hi (nth_map 0).
Qed.

Lemma size_linearize (v : seq T) : size (linearize junk zero hb dim packed idx v) = n_tgt.
Proof.
have h : size idx <= n_tgt by apply: storage_size_ge.
rewrite /linearize; case: ifP => [/andP[_ hle]|_]; rewrite size_cat size_nseq ?size_map ?subnKC //.
rewrite size_takel ?subnKC // size_mkseq; apply: leq_trans hle (storage_size_ge _ _ _).
Qed.

(* the configuration in which the scalar loop stays inside its index table *)
Definition safe_cfg := simd_path hb dim packed idx || (n_tgt == size idx).

Lemma safe_small : dim <= 4 -> uniq idx -> all (fun i => i < dim) idx -> safe_cfg.
Proof.
move=> hd u /allP hidx.
have hle : size idx <= dim.
  by rewrite -(size_iota 0 dim); apply: uniq_leq_size => // i /hidx; rewrite mem_iota add0n.
rewrite /safe_cfg /simd_path hle andbT /n_tgt /storage_size.
case: ifP => [hb'|]; last by rewrite eqxx orbT.
move: hb'; rewrite /is_batched; case: (packed) => //=.
move: hle hd; case: (size idx) => [|[|[|[|[|k]]]]] //=; rewrite ?eqxx ?orbT //.
  by case: dim => [|[|[|[|[|d]]]]] //= _ _ ->.
by move=> h1 h2; have := leq_trans h1 h2.
Qed.

Lemma simd_tgt_le : simd_path hb dim packed idx -> n_tgt <= n_src.
Proof.
case/andP; rewrite /n_tgt /n_src /storage_size => hbd hle; rewrite hbd.
case: ifP => [_|_]; last by apply: leq_trans hle (batch_size_ge _ _).
move: hbd; rewrite /is_batched; case: (packed) => //= _; exact: batch_size_mono.
Qed.

Lemma size_set_nth' (s : seq T) i x : i < size s -> size (set_nth junk s i x) = size s.
Proof. by move=> h; rewrite size_set_nth; apply/maxn_idPr. Qed.

(* scalar loop: reads back the last write *)
Lemma delin_loop_spec (w acc : seq T) k :
  uniq (drop k idx) -> all (fun i => i < size acc) idx -> k + size w = size idx ->
  exists2 r, delin_loop junk idx k w acc = Some r
    & size r = size acc /\
      (forall m, m < size w -> nth junk r (nth 0 idx (k + m)) = nth junk w m) /\
      (forall i, i \notin drop k idx -> nth junk r i = nth junk acc i).
Proof.
elim: w k acc => [|x w IH] k acc /= u hall hk.
  by exists acc => //; rewrite addn0 in hk; split=> //; split=> //.
have hki : k < size idx by rewrite -hk addnS ltnS leq_addr.
rewrite hki /write_at.
have hik : nth 0 idx k < size acc by move/(all_nthP 0): hall; apply.
rewrite hik /=.
have dk : drop k idx = nth 0 idx k :: drop k.+1 idx by exact: drop_nth.
have [|||r -> [sr [h1 h2]]] := IH k.+1 (set_nth junk acc (nth 0 idx k) x).
- by move: u; rewrite dk => /andP[].
- by rewrite size_set_nth'.
- by rewrite addSnnS.
exists r => //; split; first by rewrite sr size_set_nth'.
split.
  case=> [|m] hm /=; last by rewrite addnS -addSn h1.
  rewrite addn0 h2; first by rewrite nth_set_nth /= eqxx.
  by move: u; rewrite dk => /andP[].
move=> i; rewrite dk inE negb_or => /andP[/negbTE hi1 hi2].
by rewrite h2 // nth_set_nth /= hi1.
Qed.

Lemma delinearize_spec (lin : seq T) :
  uniq idx -> all (fun i => i < dim) idx -> size lin = n_tgt -> safe_cfg ->
  exists2 r, delinearize junk hb dim packed idx lin = Some r
    & size r = n_src /\ forall k, k < size idx -> nth junk r (nth 0 idx k) = nth junk lin k.
Proof.
move=> u /allP hidx sl hs; rewrite /delinearize.
have hsrc : forall i, i \in idx -> i < n_src.
  by move=> i /hidx hi; apply: leq_trans hi (storage_size_ge _ _ _).
case: ifP hs => [hsimd _|hns].
  have hle := simd_tgt_le hsimd.
  rewrite /std_copy size_nseq sl hle /=.
  eexists; first by []; split; first by rewrite size_mkseq.
  move=> k hk; have hin := mem_nth 0 hk.
  rewrite nth_mkseq; last exact: hsrc.
  rewrite /delin_index get_occurrence_mem // add0n index_uniq // nth_cat sl.
  by rewrite (leq_trans hk) // storage_size_ge.
rewrite /safe_cfg hns /= => /eqP hn.
have [|||r hr [sr [h1 _]]] := @delin_loop_spec lin (nseq n_src junk) 0.
- by rewrite drop0.
- by apply/allP => i /hsrc; rewrite size_nseq.
- by rewrite add0n sl.
exists r => //; split; first by rewrite sr size_nseq.
by move=> k hk; rewrite -[k]add0n h1 // sl hn.
Qed.

Lemma blend_spec s (old fresh : seq T) i : size idx <= s -> i < n_src ->
  nth junk (blend junk hb dim packed idx s old fresh) i
  = if i \in idx then nth junk fresh i else nth junk old i.
Proof. by move=> hs hi; rewrite /blend nth_mkseq // blend_maskE. Qed.

Lemma assign_lin_spec s (src rhsLin : seq T) :
  uniq idx -> all (fun i => i < dim) idx -> safe_cfg -> size idx <= s ->
  size idx <= size rhsLin -> size rhsLin <= n_tgt ->
  exists2 st, assign_lin junk zero hb dim packed idx s src rhsLin = Some st
    & size st = n_src /\
      (forall k, k < size idx -> nth junk st (nth 0 idx k) = nth junk rhsLin k) /\
      (forall i, i < n_src -> i \notin idx -> nth junk st i = nth junk src i).
Proof.
move=> u hidx hs hsen h1 h2; rewrite /assign_lin /std_copy size_nseq h2 /=.
set lin := _ ++ _.
have sl : size lin = n_tgt by rewrite size_cat size_drop size_nseq subnKC.
have [r hr [sr hrk]] := delinearize_spec u hidx sl hs.
rewrite hr /=; eexists; first by [].
split; first by rewrite size_mkseq.
split=> [k hk|i hi hni].
  have hin := mem_nth 0 hk.
  rewrite blend_spec //; last by apply: leq_trans (storage_size_ge _ _ _); move/allP: hidx; apply.
  by rewrite hin hrk // nth_cat (leq_trans hk h1).
by rewrite blend_spec // (negbTE hni).
Qed.

Lemma assign_vector_spec s (src w : seq T) :
  uniq idx -> all (fun i => i < dim) idx -> safe_cfg -> size idx <= s ->
  size w = size idx ->
  exists2 st, assign_vector junk zero hb dim packed idx s src w = Some st
    & size st = n_src /\
      (forall k, k < size idx -> nth junk st (nth 0 idx k) = nth junk w k) /\
      (forall i, i < n_src -> i \notin idx -> nth junk st i = nth junk src i).
Proof.
move=> u hidx hs hsen hw.
by apply: (@assign_lin_spec s src w) => //; rewrite hw // storage_size_ge.
Qed.

Lemma assign_scalar_spec (src : seq T) x i : idx = [:: i] -> i < size src ->
  assign_scalar junk idx src x = Some (set_nth junk src i x).
Proof. by move=> -> hi; rewrite /assign_scalar /= /write_at hi. Qed.
End P.

Section Concat.
Variables (T : Type) (junk zero : T).

Lemma fold_set_nth (part el : seq T) off k : off + k + size (drop k part) <= size el -> k <= size part ->
  foldl (fun acc i => set_nth junk acc (off + i) (nth junk part i)) el (iota k (size part - k))
  = take (off + k) el ++ drop k part ++ drop (off + size part) el.
Proof.
move En: (size part - k) => n.
elim: n k el En => [|n IH] k el En hsz hk /=.
  have -> : k = size part.
    by apply/eqP; rewrite eqn_leq hk /= -subn_eq0 En.
  by rewrite drop_size /= cat_take_drop.
have hkp : k < size part by rewrite -subn_gt0 En.
rewrite size_drop in hsz.
have hoff : off + k < size el by apply: leq_trans hsz; rewrite -addn1 leq_add2l subn_gt0.
rewrite IH; last exact: hkp; last first.
- rewrite size_drop size_set_nth' // -addnA subnKC //.
  by move: hsz; rewrite -addnA subnKC.
- by rewrite subnS En.
have -> : take (off + k.+1) (set_nth junk el (off + k) (nth junk part k))
   = take (off + k) el ++ [:: nth junk part k].
  rewrite addnS (take_nth junk) ?size_set_nth' // -cats1; congr (_ ++ [:: _]).
    apply: (@eq_from_nth _ junk).
      by rewrite !size_takel // ?size_set_nth' //; exact: ltnW.
    move=> i; rewrite size_takel ?size_set_nth' //; last exact: ltnW.
    move=> hi.
    by rewrite !nth_take // nth_set_nth /= ltn_eqF.
  by rewrite nth_set_nth /= eqxx.
rewrite -!catA (drop_nth junk hkp) /=; congr (_ ++ _ :: _ ++ _).
apply: (@eq_from_nth _ junk); first by rewrite !size_drop size_set_nth'.
move=> i hi; rewrite !nth_drop nth_set_nth /= gtn_eqF //.
by rewrite -addnA ltn_add2l; apply: leq_trans hkp (leq_addr _ _).
Qed.

Lemma assign_parts_spec off (el : seq T) parts :
  off + size (flatten parts) <= size el ->
  assign_parts junk off el parts
  = take off el ++ flatten parts ++ drop (off + size (flatten parts)) el.
Proof.
elim: parts off el => [|p ps IH] off el /= h.
  by rewrite addn0 cat_take_drop.
have hp : off + size p <= size el.
  by apply: leq_trans h; rewrite size_cat leq_add2l leq_addr.
have := @fold_set_nth p el off 0; rewrite subn0 addn0 drop0 => -> //.
set el' := _ ++ _.
have sel : size el' = size el.
  rewrite /el' !size_cat size_drop size_takel ?addnA ?subnKC //.
  exact: leq_trans (leq_addr _ _) hp.
rewrite IH; last by rewrite sel -addnA -size_cat.
have so : size (take off el) = off by rewrite size_takel // (leq_trans (leq_addr _ _) hp).
have -> : take (off + size p) el' = take off el ++ p.
  by rewrite /el' catA take_size_cat // size_cat so.
rewrite -!catA; congr (_ ++ (_ ++ (_ ++ _))).
rewrite /el' catA drop_cat size_cat so ltnNge leq_addr /= addKn drop_drop.
by rewrite size_cat addnC addnA.
Qed.

Lemma ctor_concat_elems n parts :
  size (flatten parts) <= n ->
  take (size (flatten parts)) (ctor_concat junk zero n (size (flatten parts)) parts) = flatten parts.
Proof.
move=> h; rewrite /ctor_concat take_zero_padding assign_parts_spec ?size_nseq // ?take0 /= ?take_size_cat //.
by rewrite size_cat leq_addr.
Qed.
End Concat.
