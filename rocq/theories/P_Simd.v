From mathcomp Require Import all_ssreflect.
From Verif Require Import M_Simd.
Set Implicit Arguments. Unset Strict Implicit. Unset Printing Implicit Defensive.

Lemma batch_size_ge dim packed : dim <= batch_size dim packed.
Proof. by case: packed => //=; do 9 (case: dim => [|dim] //=). Qed.

Lemma storage_size_ge hb dim packed : dim <= storage_size hb dim packed.
Proof. by rewrite /storage_size; case: ifP => // _; exact: batch_size_ge. Qed.

Lemma take_mkseq (T : Type) (f : nat -> T) d n : d <= n -> take d (mkseq f n) = mkseq f d.
Proof.
move=> h; apply: (@eq_from_nth _ (f 0)); first by rewrite size_take !size_mkseq; case: ltngtP h.
move=> i; rewrite size_takel ?size_mkseq // => hid.
by rewrite nth_take // !nth_mkseq //; apply: leq_trans h.
Qed.

Section Elementwise.
Variables (T1 T2 T3 R : Type) (j1 : T1) (j2 : T2) (j3 : T3) (z : R).

Lemma do_unary_elems (f : T1 -> R) simd n dim (a pa : seq T1) :
  size a = dim -> dim <= n ->
  take dim (do_unary j1 z simd n dim f (a ++ pa)) = map f a.
Proof.
move=> sa hn; rewrite /do_unary; case: simd.
  by rewrite map_cat take_size_cat ?size_map.
rewrite take_mkseq //; apply: (@eq_from_nth _ z); first by rewrite size_mkseq size_map.
move=> i; rewrite size_mkseq => hi.
by rewrite nth_mkseq // hi nth_cat sa hi (nth_map j1) ?sa.
Qed.

Lemma do_binary_elems (f : T1 -> T2 -> R) simd n dim (a pa : seq T1) (b pb : seq T2) :
  size a = dim -> size b = dim -> dim <= n ->
  take dim (do_binary j1 j2 z simd n dim f (a ++ pa) (b ++ pb)) = [seq f p.1 p.2 | p <- zip a b].
Proof.
move=> sa sb hn.
have E g : (forall i, i < dim -> g i = f (nth j1 a i) (nth j2 b i)) ->
   mkseq g dim = [seq f p.1 p.2 | p <- zip a b].
  move=> hg; apply: (@eq_from_nth _ z).
    by rewrite size_mkseq size_map size_zip sa sb minnn.
  move=> i; rewrite size_mkseq => hi.
  by rewrite nth_mkseq // hg // (nth_map (j1, j2)) ?nth_zip ?size_zip ?sa ?sb ?minnn.
by rewrite /do_binary; case: simd; rewrite take_mkseq //; apply: E => i hi;
   rewrite ?hi !nth_cat sa sb hi.
Qed.

Lemma do_ternary_elems (f : T1 -> T2 -> T3 -> R) simd n dim (a pa : seq T1) (b pb : seq T2) (c pc : seq T3) :
  size a = dim -> size b = dim -> size c = dim -> dim <= n ->
  take dim (do_ternary j1 j2 j3 z simd n dim f (a ++ pa) (b ++ pb) (c ++ pc))
  = [seq f p.1.1 p.1.2 p.2 | p <- zip (zip a b) c].
Proof.
move=> sa sb sc hn.
have E g : (forall i, i < dim -> g i = f (nth j1 a i) (nth j2 b i) (nth j3 c i)) ->
   mkseq g dim = [seq f p.1.1 p.1.2 p.2 | p <- zip (zip a b) c].
  move=> hg; apply: (@eq_from_nth _ z).
    by rewrite size_mkseq size_map !size_zip sa sb sc !minnn.
  move=> i; rewrite size_mkseq => hi.
  by rewrite nth_mkseq // hg // (nth_map (j1, j2, j3)) ?nth_zip ?size_zip ?sa ?sb ?sc ?minnn.
by rewrite /do_ternary; case: simd; rewrite take_mkseq //; apply: E => i hi;
   rewrite ?hi !nth_cat sa sb sc hi.
Qed.
End Elementwise.

Lemma sequence_opt_some (T : Type) (j : T) (s : seq (option T)) r :
  sequence_opt s = Some r <-> size r = size s /\ forall i, i < size s -> nth None s i = Some (nth j r i).
Proof.
elim: s r => [|[x|] s IH] r /=.
- by split=> [[<-]|[/size0nil -> _]].
- case E: (sequence_opt s) => [r'|] /=.
    split=> [[<-]|[]].
      by have [e h] := (proj1 (IH r') E); rewrite /= e; split=> // -[|i] //=; rewrite ltnS => /h.
    case: r => // y r /= [sr] h.
    have [e1 h1] := proj1 (IH r') E.
    have /= := h 0 isT => -[->]; congr (Some (_ :: _)).
    apply: (@eq_from_nth _ j); first by rewrite e1 sr.
    move=> i; rewrite e1 => hi; have /= := h i.+1 hi; rewrite (h1 _ hi) => -[->] //.
  split=> // -[]; case: r => // y r /= [sr] h.
  suff: sequence_opt s = Some r by rewrite E.
  by apply/IH; split=> // i hi; exact: (h i.+1 hi).
- split=> // -[]; case: r => // y r /= _ h; by have := h 0 isT.
Qed.

Lemma sequence_opt_none (T : Type) (s : seq (option T)) :
  sequence_opt s = None <-> exists2 i, i < size s & nth None s i = None.
Proof.
elim: s => [|[x|] s IH] /=.
- by split=> // -[].
- case E: (sequence_opt s) => [r|] /=.
    split=> // -[[|i]] //=; rewrite ltnS => hi e.
    have: sequence_opt s = None by apply/IH; exists i.
    by rewrite E.
  split=> // _; have [i hi e] := proj1 IH E.
  by exists i.+1.
- by split=> // _; exists 0.
Qed.

Section Div.
Variables (T : Type) (j z : T) (div : T -> T -> option T).

Lemma nth_fill_first n (s : seq T) i : i < size s ->
  nth j (fill_masked_with_first j n s) i = nth j s (if i < n then i else 0).
Proof. by move=> h; rewrite /fill_masked_with_first nth_mkseq. Qed.

Lemma take_fill_masked n (s : seq T) v : n <= size s ->
  take n (fill_masked j n s v) = take n s.
Proof.
rewrite /fill_masked; case: eqP => [->|_] // hn.
rewrite take_mkseq //; apply: (@eq_from_nth _ j).
  by rewrite size_mkseq size_takel.
by move=> i; rewrite size_mkseq => hi; rewrite nth_mkseq // hi nth_take.
Qed.

Lemma take_zero_padding dim (s : seq T) : dim <= size s ->
  take dim (zero_padding j z dim s) = take dim s.
Proof.
move=> hn; rewrite /zero_padding take_mkseq //; apply: (@eq_from_nth _ j).
  by rewrite size_mkseq size_takel.
by move=> i; rewrite size_mkseq => hi; rewrite nth_mkseq // hi nth_take.
Qed.

Lemma take_ctor_scalars n dim (xs : seq T) : size xs = dim -> dim <= n ->
  take dim (ctor_scalars j z n dim xs) = xs.
Proof.
move=> sx hn; rewrite take_zero_padding ?size_mkseq // take_mkseq //.
by rewrite -sx mkseq_nth.
Qed.

Lemma size_sequence_opt (s : seq (option T)) r : sequence_opt s = Some r -> size r = size s.
Proof. by move=> /(sequence_opt_some j) []. Qed.

End Div.

Section DivZero.
Variables (T : Type) (j z : T) (is_zero : T -> bool) (quo : T -> T -> T).
Let div x y := if is_zero y then None else Some (quo x y).

Lemma has_nth (p : T -> bool) (s : seq T) :
  has p s <-> exists2 i, i < size s & p (nth j s i).
Proof. by split=> [/(has_nthP j)|h]; last apply/(has_nthP j). Qed.

Lemma all_quo (b : seq T) dim : ~~ has is_zero b -> size b = dim ->
  forall i, i < dim -> is_zero (nth j b i) = false.
Proof. by rewrite -all_predC => /(all_nthP j) h sb i hi; apply/negbTE/h; rewrite sb. Qed.

Lemma zip_quo (a b : seq T) dim (g : nat -> T) : size a = dim -> size b = dim ->
  (forall i, i < dim -> g i = quo (nth j a i) (nth j b i)) ->
  mkseq g dim = [seq quo p.1 p.2 | p <- zip a b].
Proof.
move=> sa sb hg; apply: (@eq_from_nth _ z).
  by rewrite size_mkseq size_map size_zip sa sb minnn.
move=> i; rewrite size_mkseq => hi.
by rewrite nth_mkseq // hg // (nth_map (j, j)) ?nth_zip ?size_zip ?sa ?sb ?minnn.
Qed.

Lemma sequence_mkseq (g : nat -> T) n :
  sequence_opt (mkseq (fun i => Some (g i)) n) = Some (mkseq g n).
Proof. by rewrite /mkseq; elim: (iota 0 n) => //= i s ->. Qed.

Lemma vec_div_vec_ok (simd : bool) (n dim : nat) (a pa b pb : seq T) :
  size a = dim -> size b = dim -> 0 < dim -> dim <= n -> (simd -> size (b ++ pb) = n) ->
  ~~ has is_zero b ->
  exists2 st, vec_div_vec j z div simd n dim (a ++ pa) (b ++ pb) = Some st
            & take dim st = [seq quo p.1 p.2 | p <- zip a b].
Proof.
move=> sa sb h0 hn hsz nzb; have nz := all_quo nzb sb.
rewrite /vec_div_vec; case: simd hsz => [/(_ isT) hsz|_].
  set g := fun i => quo (nth j (a ++ pa) i) (nth j (b ++ pb) (if i < dim then i else 0)).
  have -> : mkseq (fun i => div (nth j (a ++ pa) i)
      (nth j (fill_masked_with_first j dim (b ++ pb)) i)) n = mkseq (fun i => Some (g i)) n.
    apply: (@eq_from_nth _ None); rewrite ?size_mkseq // => i hi.
    rewrite [LHS]nth_mkseq // [RHS]nth_mkseq // nth_fill_first ?hsz // /div /g.
    have -> // : is_zero (nth j (b ++ pb) (if i < dim then i else 0)) = false.
    by case: ifP => hid; rewrite nth_cat sb ?hid ?h0 nz.
  rewrite sequence_mkseq /=; eexists; first by [].
  rewrite take_fill_masked ?size_mkseq // take_mkseq //; apply: zip_quo => // i hi.
  by rewrite /g hi !nth_cat sa sb hi.
set g := fun i => quo (nth j (a ++ pa) i) (nth j (b ++ pb) i).
have -> : mkseq (fun i => div (nth j (a ++ pa) i) (nth j (b ++ pb) i)) dim
   = mkseq (fun i => Some (g i)) dim.
  apply: (@eq_from_nth _ None); rewrite ?size_mkseq // => i hi.
  by rewrite !nth_mkseq // /div nth_cat sb hi nz // /g !nth_cat sb hi.
rewrite sequence_mkseq /=; eexists; first by [].
rewrite take_ctor_scalars ?size_mkseq //; apply: zip_quo => // i hi.
by rewrite /g !nth_cat sa sb hi.
Qed.

Lemma vec_div_vec_trap (simd : bool) (n dim : nat) (a pa b pb : seq T) :
  size a = dim -> size b = dim -> dim <= n -> (simd -> size (b ++ pb) = n) ->
  has is_zero b ->
  vec_div_vec j z div simd n dim (a ++ pa) (b ++ pb) = None.
Proof.
move=> sa sb hn hsz /has_nth [i]; rewrite sb => hi hz.
rewrite /vec_div_vec; case: simd hsz => [/(_ isT) hsz|_].
  suff -> : sequence_opt (mkseq (fun i0 => div (nth j (a ++ pa) i0)
     (nth j (fill_masked_with_first j dim (b ++ pb)) i0)) n) = None by [].
  apply/sequence_opt_none; exists i; first by rewrite size_mkseq; apply: leq_trans hn.
  rewrite nth_mkseq ?nth_fill_first ?hsz ?hi; try exact: (leq_trans hi hn).
  by rewrite /div nth_cat sb hi hz.
suff -> : sequence_opt (mkseq (fun i0 => div (nth j (a ++ pa) i0) (nth j (b ++ pb) i0)) dim) = None by [].
apply/sequence_opt_none; exists i; first by rewrite size_mkseq.
by rewrite nth_mkseq // /div !nth_cat sb hi hz.
Qed.

Lemma nth_ctor_all (batched : bool) (n dim : nat) s i : i < n -> i < dim \/ batched ->
  nth j (ctor_all j z batched n dim s) i = s.
Proof.
move=> hi h; rewrite /ctor_all; case: batched h => [_|[hd|//]]; first by rewrite nth_nseq hi.
by rewrite /zero_padding size_mkseq nth_mkseq // hd nth_mkseq // hd.
Qed.

Lemma vec_div_scalar_ok (simd batched : bool) (n dim : nat) (a pa : seq T) s :
  size a = dim -> dim <= n -> (simd -> batched) -> ~~ is_zero s ->
  exists2 st, vec_div_scalar j z div simd batched n dim (a ++ pa) s = Some st
            & take dim st = [seq quo x s | x <- a].
Proof.
move=> sa hn hb nz; rewrite /vec_div_scalar.
have E g : (forall i, i < dim -> g i = quo (nth j a i) s) -> mkseq g dim = [seq quo x s | x <- a].
  move=> hg; apply: (@eq_from_nth _ j); rewrite size_mkseq ?size_map // => i hi.
  by rewrite nth_mkseq // hg // (nth_map j) ?sa.
case: simd hb => [/(_ isT) -> |_].
  set g := fun i => quo (nth j (a ++ pa) i) s.
  have -> : mkseq (fun i => div (nth j (a ++ pa) i) (nth j (ctor_all j z true n dim s) i)) n
      = mkseq (fun i => Some (g i)) n.
    apply: (@eq_from_nth _ None); rewrite ?size_mkseq // => i hi.
    by rewrite [LHS]nth_mkseq // [RHS]nth_mkseq // nth_ctor_all //; [rewrite /div (negbTE nz)|right].
  rewrite sequence_mkseq; eexists; first by [].
  by rewrite take_mkseq //; apply: E => i hi; rewrite /g nth_cat sa hi.
set g := fun i => quo (nth j (a ++ pa) i) s.
have -> : mkseq (fun i => div (nth j (a ++ pa) i) (nth j (ctor_all j z batched n dim s) i)) dim
    = mkseq (fun i => Some (g i)) dim.
  apply: (@eq_from_nth _ None); rewrite ?size_mkseq // => i hi.
  rewrite [LHS]nth_mkseq // [RHS]nth_mkseq // nth_ctor_all //; [by rewrite /div (negbTE nz)| exact: leq_trans hi hn|by left].
rewrite sequence_mkseq /=; eexists; first by [].
by rewrite take_ctor_scalars ?size_mkseq //; apply: E => i hi; rewrite /g nth_cat sa hi.
Qed.

Lemma take_ctor_all (batched : bool) (n dim : nat) s : dim <= n ->
  take dim (ctor_all j z batched n dim s) = nseq dim s.
Proof.
move=> hn; apply: (@eq_from_nth _ j).
  rewrite size_takel ?size_nseq // /ctor_all; case: batched; by rewrite ?size_nseq ?size_mkseq.
move=> i; rewrite size_takel; last by rewrite /ctor_all; case: batched; rewrite ?size_nseq ?size_mkseq.
move=> hi; rewrite nth_take // nth_nseq hi nth_ctor_all //; [exact: leq_trans hi hn | by left].
Qed.

Lemma take_ctor_pointer n dim (xs rest : seq T) : size xs = dim -> dim <= n ->
  take dim (ctor_pointer j z n dim (xs ++ rest)) = xs.
Proof.
move=> sx hn; rewrite take_zero_padding ?size_mkseq // take_mkseq //.
apply: (@eq_from_nth _ j); rewrite size_mkseq // => i hi.
by rewrite nth_mkseq // hi nth_cat sx hi.
Qed.

Lemma size_ctor_pointer n dim xs : size (ctor_pointer j z n dim xs) = n.
Proof. by rewrite /ctor_pointer /zero_padding !size_mkseq. Qed.

Lemma sequence_map (g : T -> T) (s : seq T) :
  sequence_opt (map (fun x => Some (g x)) s) = Some (map g s).
Proof. by elim: s => //= x s ->. Qed.

(* perspective division *)
Lemma ctor_downcast_ok (batched : bool) (n dim : nat) (a : seq T) (w : T) (pad : seq T) :
  size a = dim -> dim <= n -> ~~ is_zero w ->
  exists2 st, ctor_downcast j z div batched n dim (a ++ w :: pad) = Some st
            & take dim st = [seq quo x w | x <- a].
Proof.
move=> sa hn nz; rewrite /ctor_downcast nth_cat sa ltnn subnn /= /div (negbTE nz).
set v := ctor_pointer _ _ _ _ _.
have tv : take dim v = a by apply: take_ctor_pointer.
case: batched; rewrite sequence_map /=; eexists; try by [].
  by rewrite -map_take tv.
by rewrite take_size_cat ?tv // size_map.
Qed.

Lemma ctor_downcast_zero (batched : bool) (n dim : nat) (a : seq T) (w : T) (pad : seq T) :
  size a = dim -> 0 < dim -> dim <= n -> is_zero w ->
  ctor_downcast j z div batched n dim (a ++ w :: pad) = None.
Proof.
move=> sa h0 hn hz; rewrite /ctor_downcast nth_cat sa ltnn subnn /= /div hz.
set v := ctor_pointer _ _ _ _ _.
have sv : size v = n by apply: size_ctor_pointer.
case: batched.
  by case: v sv => [|x v] //= sv; move: hn; rewrite -sv leqNgt h0.
have tv : take dim v = a by apply: take_ctor_pointer.
by rewrite tv; case: (a) sa => [|x s] // sa; move: h0; rewrite -sa.
Qed.
End DivZero.

Section Reduction.
Variables (T : eqType) (j z : T) (op : Monoid.com_law z).

Lemma reduces_sum s r : reduces_to op s r -> r = \big[op/z]_(x <- s) x.
Proof.
elim=> [x|s1 s2 a b _ -> _ ->|s1 s2 a _ ->]; first by rewrite big_seq1.
  by rewrite big_cat.
by rewrite !big_cat /= Monoid.mulmC.
Qed.

Lemma reduces_ex s : s != [::] -> exists r, reduces_to op s r.
Proof.
elim: s => // x [|y s] IH _; first by exists x; constructor.
have [r hr] := IH isT; exists (op x r); rewrite -cat1s.
by apply: red_app => //; constructor.
Qed.

Lemma big_fill_masked dim (a p : seq T) : size a = dim ->
  \big[op/z]_(x <- fill_masked j dim (a ++ p) z) x = \big[op/z]_(x <- a) x.
Proof.
move=> sa; rewrite /fill_masked size_cat sa; case: eqP => [e|ne].
  have : size p = 0 by apply/eqP; rewrite -(eqn_add2l dim) addn0 -e.
  by move/size0nil ->; rewrite cats0.
have -> : mkseq (fun i => if i < dim then nth j (a ++ p) i else z) (dim + size p)
    = a ++ nseq (size p) z.
  apply: (@eq_from_nth _ j); first by rewrite size_mkseq size_cat size_nseq sa.
  move=> i; rewrite size_mkseq => hi; rewrite nth_mkseq // !nth_cat sa.
  case: ifP => hid; first by rewrite hid.
  rewrite nth_nseq ifT //.
  by rewrite ltn_subLR // leqNgt hid.
rewrite big_cat /= [X in op _ X]big1_seq ?Monoid.mulm1 // => x.
by rewrite mem_nseq => /andP[_ /andP[_ /eqP]].
Qed.

Lemma vec_sum_spec (simd : bool) (dim : nat) (a p : seq T) r : size a = dim ->
  vec_sum j op z simd dim (a ++ p) r -> r = \big[op/z]_(x <- a) x.
Proof.
move=> sa; rewrite /vec_sum /sum_lanes; case: simd => /reduces_sum ->.
  exact: big_fill_masked.
by rewrite take_size_cat // big_cons Monoid.mul1m.
Qed.

Lemma vec_sum_defined (simd : bool) (dim : nat) (a p : seq T) : size a = dim -> 0 < dim ->
  exists r, vec_sum j op z simd dim (a ++ p) r.
Proof.
move=> sa h0; apply: reduces_ex; rewrite /sum_lanes; case: simd => //.
rewrite -size_eq0 /fill_masked; case: (dim == _); rewrite ?size_mkseq size_cat sa -lt0n;
  exact: ltn_addr.
Qed.
End Reduction.

Section MinMax.
Variables (disp : unit) (T : orderType disp) (j : T).
Import Order.Theory.
Local Open Scope order_scope.

Lemma reduces_min s r : reduces_to (@Order.min _ T) s r ->
  r \in s /\ forall x, x \in s -> r <= x.
Proof.
elim=> [x|s1 s2 a b _ [a1 a2] _ [b1 b2]|s1 s2 a _ [h1 h2]].
- by rewrite inE eqxx; split=> // y; rewrite inE => /eqP ->.
- split; last by move=> x; rewrite mem_cat le_minl orbC => /orP[/b2|/a2] ->; rewrite ?orbT.
  by rewrite mem_cat /Order.min; case: ifP => _; rewrite ?a1 ?b1 ?orbT.
- by split; [move: h1|move=> x hx; apply: h2; move: hx]; rewrite !mem_cat orbC.
Qed.

Lemma reduces_max s r : reduces_to (@Order.max _ T) s r ->
  r \in s /\ forall x, x \in s -> x <= r.
Proof.
elim=> [x|s1 s2 a b _ [a1 a2] _ [b1 b2]|s1 s2 a _ [h1 h2]].
- by rewrite inE eqxx; split=> // y; rewrite inE => /eqP ->.
- split; last by move=> x; rewrite mem_cat le_maxr orbC => /orP[/b2|/a2] ->; rewrite ?orbT.
  by rewrite mem_cat /Order.max; case: ifP => _; rewrite ?a1 ?b1 ?orbT.
- by split; [move: h1|move=> x hx; apply: h2; move: hx]; rewrite !mem_cat orbC.
Qed.

Lemma mem_fill_first (dim : nat) (a p : seq T) : size a = dim -> (0 < dim)%N ->
  fill_masked_with_first j dim (a ++ p) =i a.
Proof.
move=> sa h0 x; rewrite /fill_masked_with_first.
apply/(nthP j)/(nthP j) => -[i]; rewrite ?size_mkseq.
  move=> hi; rewrite nth_mkseq //; case: ifP => hid.
    by rewrite nth_cat sa hid => <-; exists i; rewrite ?sa.
  by rewrite nth_cat sa h0 => <-; exists 0%N; rewrite ?sa.
rewrite sa => hi <-; exists i; rewrite ?size_mkseq ?nth_mkseq ?size_cat ?sa ?hi ?nth_cat ?sa ?hi //;
  exact: ltn_addr.
Qed.

Lemma extremum_min b s : let r := extremum (fun x y : T => x < y) b s in
  r \in b :: s /\ forall x, x \in b :: s -> r <= x.
Proof.
elim: s b => [|y s IH] b /=.
  by rewrite inE eqxx; split=> // x; rewrite inE => /eqP ->.
have /= [h1 h2] := IH (if y < b then y else b); split.
  move: h1; rewrite !inE; case: ifP => _ /orP[->|->]; by rewrite ?orbT.
move=> x; rewrite !inE => /or3P[/eqP->|/eqP->|hx].
- apply: le_trans (h2 _ (mem_head _ _)) _; by case: ltP => // /ltW.
- apply: le_trans (h2 _ (mem_head _ _)) _; by case: ltP.
- by apply: h2; rewrite inE hx orbT.
Qed.

Lemma extremum_max b s : let r := extremum (fun x y : T => y < x) b s in
  r \in b :: s /\ forall x, x \in b :: s -> x <= r.
Proof.
elim: s b => [|y s IH] b /=.
  by rewrite inE eqxx; split=> // x; rewrite inE => /eqP ->.
have /= [h1 h2] := IH (if b < y then y else b); split.
  move: h1; rewrite !inE; case: ifP => _ /orP[->|->]; by rewrite ?orbT.
move=> x; rewrite !inE => /or3P[/eqP->|/eqP->|hx].
- apply: le_trans (h2 _ (mem_head _ _)); by case: ltP => // /ltW.
- apply: le_trans (h2 _ (mem_head _ _)); by case: ltP.
- by apply: h2; rewrite inE hx orbT.
Qed.

Lemma vec_min_spec (simd : bool) (dim : nat) (a p : seq T) r : size a = dim -> (0 < dim)%N ->
  vec_min j (@Order.min _ T) (fun x y : T => x < y) simd dim (a ++ p) r ->
  r \in a /\ forall x, x \in a -> r <= x.
Proof.
move=> sa h0; rewrite /vec_min; case: simd.
  move=> /reduces_min [h1 h2]; split; first by rewrite -(mem_fill_first p sa h0).
  by move=> x; rewrite -(mem_fill_first p sa h0); exact: h2.
rewrite take_size_cat // => ->; case: a sa => [|x s] sa /=; first by rewrite -sa in h0.
exact: extremum_min.
Qed.

Lemma vec_max_spec (simd : bool) (dim : nat) (a p : seq T) r : size a = dim -> (0 < dim)%N ->
  vec_max j (@Order.max _ T) (fun x y : T => x < y) simd dim (a ++ p) r ->
  r \in a /\ forall x, x \in a -> x <= r.
Proof.
move=> sa h0; rewrite /vec_max; case: simd.
  move=> /reduces_max [h1 h2]; split; first by rewrite -(mem_fill_first p sa h0).
  by move=> x; rewrite -(mem_fill_first p sa h0); exact: h2.
rewrite take_size_cat // => ->; case: a sa => [|x s] sa /=; first by rewrite -sa in h0.
exact: extremum_max.
Qed.
End MinMax.

Section Equal.
Variable (T : eqType).
Lemma std_equalE (s t : seq T) : std_equal (fun x y => x == y) s t = (s == t).
Proof. by elim: s t => [|x s IH] [|y t] //=; rewrite IH eqseq_cons. Qed.

Lemma vec_eqE (dim : nat) (a pa b pb : seq T) : size a = dim -> size b = dim ->
  vec_eq (fun x y => x == y) dim (a ++ pa) (b ++ pb) = (a == b).
Proof. by move=> sa sb; rewrite /vec_eq !take_size_cat // std_equalE. Qed.
End Equal.
