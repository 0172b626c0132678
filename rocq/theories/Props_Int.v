(* Property C76: division of fixed-width integer vectors and the padding lanes. *)
From Coq Require Import ZArith Lia.
From mathcomp Require Import all_ssreflect.
From Verif Require Import M_Simd P_Simd M_Int.
Set Implicit Arguments. Unset Strict Implicit. Unset Printing Implicit Defensive.

(* When the quotient of two vectors is undefined, for any element type and any partial division: exactly when it is
   undefined for a pair of elements, or, on the batched path, for a padding lane of the dividend and the FIRST divisor. *)
Theorem C76_undefined_iff (T : Type) (junk zero : T) (div : T -> T -> option T) (simd : bool) (n dim : nat)
    (a pa b pb : seq T) :
  size a = dim -> size b = dim -> 0 < dim -> dim <= n ->
  (simd -> size (a ++ pa) = n) -> (simd -> size (b ++ pb) = n) ->
  vec_div_vec junk zero div simd n dim (a ++ pa) (b ++ pb) = None <->
  (exists2 i, i < dim & div (nth junk a i) (nth junk b i) = None) \/
  (simd /\ exists2 i, i < size pa & div (nth junk pa i) (nth junk b 0) = None).
Proof.
move=> sa sb h0 hn ha hb; rewrite /vec_div_vec.
have omn (A B : Type) (f : A -> B) o : omap f o = None <-> o = None by case: o.
case: simd ha hb => [/(_ isT) ha /(_ isT) hb|_ _]; rewrite omn sequence_opt_none size_mkseq.
- have spa : dim + size pa = n by rewrite -ha size_cat sa.
  split.
  + case=> i hi; rewrite nth_mkseq // nth_fill_first ?hb //; case: (ltnP i dim) => hid.
      by rewrite !nth_cat sa sb hid => e; left; exists i.
    rewrite !nth_cat sa sb h0 ltnNge hid /= => e; right; split=> //.
    by exists (i - dim); rewrite // ltn_subLR // spa.
  + case=> [[i hi e]|[_ [i hi e]]].
      exists i; first exact: leq_trans hi hn.
      rewrite nth_mkseq ?nth_fill_first ?hb ?hi ?(leq_trans hi hn) //.
      by rewrite !nth_cat sa sb hi.
    have hin : dim + i < n by rewrite -spa ltn_add2l.
    exists (dim + i) => //.
    rewrite nth_mkseq // nth_fill_first ?hb // ltnNge leq_addr /= !nth_cat sa sb h0 ltnNge leq_addr /=.
    by rewrite addKn.
- split.
  + by case=> i hi; rewrite nth_mkseq // !nth_cat sa sb hi => e; left; exists i.
  + case=> [[i hi e]|[//]]; exists i => //.
    by rewrite nth_mkseq // !nth_cat sa sb hi.
Qed.
Print Assumptions C76_undefined_iff.

(* The same for vector / scalar: only padding lanes of the dividend matter. *)
Theorem C76_scalar_undefined_iff (T : Type) (junk zero : T) (div : T -> T -> option T) (simd batched : bool)
    (n dim : nat) (a pa : seq T) (s : T) :
  size a = dim -> dim <= n -> (simd -> batched) -> (simd -> size (a ++ pa) = n) ->
  vec_div_scalar junk zero div simd batched n dim (a ++ pa) s = None <->
  (exists2 i, i < dim & div (nth junk a i) s = None) \/
  (simd /\ exists2 i, i < size pa & div (nth junk pa i) s = None).
Proof.
move=> sa hn hb ha; rewrite /vec_div_scalar.
have omn (A B : Type) (f : A -> B) o : omap f o = None <-> o = None by case: o.
case: simd hb ha => [/(_ isT) -> /(_ isT) ha|_ _]; rewrite ?omn sequence_opt_none size_mkseq.
- have spa : dim + size pa = n by rewrite -ha size_cat sa.
  split.
  + case=> i hi; rewrite nth_mkseq // nth_ctor_all //; last by right.
    rewrite nth_cat sa; case: (ltnP i dim) => hid e; first by left; exists i.
    by right; split=> //; exists (i - dim); rewrite // ltn_subLR // spa.
  + case=> [[i hi e]|[_ [i hi e]]].
      have hin := leq_trans hi hn.
      exists i => //; rewrite nth_mkseq // nth_ctor_all //; last by right.
      by rewrite nth_cat sa hi.
    have hin : dim + i < n by rewrite -spa ltn_add2l.
    exists (dim + i) => //; rewrite nth_mkseq // nth_ctor_all //; last by right.
    by rewrite nth_cat sa ltnNge leq_addr /= addKn.
- split.
  + case=> i hi; rewrite nth_mkseq // nth_ctor_all ?(leq_trans hi hn) //; last by left.
    by rewrite nth_cat sa hi => e; left; exists i.
  + case=> [[i hi e]|[//]]; exists i => //.
    rewrite nth_mkseq // nth_ctor_all ?(leq_trans hi hn) //; last by left.
    by rewrite nth_cat sa hi.
Qed.
Print Assumptions C76_scalar_undefined_iff.

(* the elements of a w-bit signed integer type *)
Definition fits (w x : Z) : Prop := (int_min w <= x <= int_max w)%Z.

Lemma int_div_none w x y : int_div w x y = None <-> y = 0%Z \/ (x = int_min w /\ y = (-1)%Z).
Proof.
rewrite /int_div; case: (Z.eqb_spec y 0) => [->|ny] /=; first by split=> // _; left.
case: (Z.eqb_spec x (int_min w)) => [->|nx] /=; last by split=> // -[|[]].
case: (Z.eqb_spec y (-1)) => [->|ny1] /=; last by split=> // -[|[]].
by split=> // _; right.
Qed.

(* a defined quotient of w-bit integers is the truncated quotient and again a w-bit integer *)
Theorem C76_quotient (w x y q : Z) :
  (1 <= w)%Z -> fits w x -> fits w y -> int_div w x y = Some q ->
  [/\ fits w q, (x = y * q + Z.rem x y)%Z & (Z.abs (Z.rem x y) < Z.abs y)%Z].
Proof.
rewrite /fits /int_min /int_max => hw hx hy.
have := int_div_none w x y; rewrite /int_div /int_min.
case: ifP => // _ [_ H] [<-]; clear q.
have P : (0 < 2 ^ (w - 1))%Z by apply: Z.pow_pos_nonneg; lia.
have ny : y <> 0%Z by move=> e; have := H (or_introl e).
have E := Z.quot_rem x y ny.
have R := Z.rem_bound_abs x y ny.
split=> //; set q := Z.quot x y.
have A : (Z.abs q = Z.abs x / Z.abs y)%Z.
  rewrite /q -Z.quot_abs // Z.quot_div_nonneg //; lia.
have D := Z.div_le_upper_bound (Z.abs x) (Z.abs y) (Z.abs x).
have B : (Z.abs q <= Z.abs x)%Z by rewrite A; apply: D; nia.
case: (Z.eq_dec y (-1)) => [ey|ny1].
  have nx : x <> (- 2 ^ (w - 1))%Z by move=> ex; have := H (or_intror (conj ex ey)).
  have: q = (- x)%Z by rewrite /q ey (Z.quot_opp_r x 1) // Z.quot_1_r.
  lia.
case: (Z.eq_dec x (- 2 ^ (w - 1))) => [ex|nx]; last by lia.
case: (Z.eq_dec y 1) => [ey|ny1'].
  have: q = x by rewrite /q ey Z.quot_1_r.
  lia.
case: (Z.eq_dec (Z.abs x) 1) => [|n1]; first by lia.
have: (Z.abs q < Z.abs x)%Z by rewrite A; apply: Z.div_lt; lia.
lia.
Qed.
Print Assumptions C76_quotient.

(* the wrapping operators: the representative of the exact result in the range, hence the exact result when it fits *)
Theorem C76_wrap (w x y : Z) : (1 <= w)%Z ->
  let ok r e := [/\ fits w r, exists k, r = (e + k * 2 ^ w)%Z & fits w e -> r = e] in
  [/\ ok (int_add w x y) (x + y)%Z, ok (int_sub w x y) (x - y)%Z & ok (int_mul w x y) (x * y)%Z].
Proof.
move=> hw ok.
have P : (0 < 2 ^ (w - 1))%Z by apply: Z.pow_pos_nonneg; lia.
have P2 : (2 ^ w = 2 * 2 ^ (w - 1))%Z by rewrite -Z.pow_succ_r; [f_equal; lia | lia].
have W e : ok (wrap w e) e.
  rewrite /ok /wrap /fits /int_max /int_min; split.
  - by have := Z.mod_pos_bound (e - - 2 ^ (w - 1)) (2 ^ w); lia.
  - exists (- ((e - - 2 ^ (w - 1)) / 2 ^ w))%Z.
    have := Z.div_mod (e - - 2 ^ (w - 1)) (2 ^ w); lia.
  - by move=> h; rewrite Z.mod_small; lia.
by split; apply: W.
Qed.
Print Assumptions C76_wrap.

(* Dividing by nonzero elements never divides by zero, in whatever lane: what remains is INT_MIN / -1. *)
Theorem C76_signed (w junk : Z) (simd : bool) (n dim : nat) (a pa b pb : seq Z) :
  size a = dim -> size b = dim -> 0 < dim -> dim <= n ->
  (simd -> size (a ++ pa) = n) -> (simd -> size (b ++ pb) = n) ->
  (forall i, i < dim -> nth junk b i <> 0%Z /\ ~ (nth junk a i = int_min w /\ nth junk b i = (-1)%Z)) ->
  vec_div_vec junk 0%Z (int_div w) simd n dim (a ++ pa) (b ++ pb) = None <->
  [/\ simd, nth junk b 0 = (-1)%Z & exists2 i, i < size pa & nth junk pa i = int_min w].
Proof.
move=> sa sb h0 hn ha hb ok; rewrite C76_undefined_iff //; split.
- case=> [[i hi /int_div_none e]|[hs [i hi /int_div_none e]]].
    by have [n1 n2] := ok i hi; case: e.
  have [n1 _] := ok 0 h0.
  by case: e => [//|[e1 e2]]; split=> //; exists i.
- case=> hs e [i hi e']; right; split=> //; exists i => //.
  by apply/int_div_none; right.
Qed.
Print Assumptions C76_signed.

(* ... so a dividend whose padding lanes are zero (a vector constructed from elements) is always divided safely, and so
   is any vector of an unsigned type *)
Theorem C76_zero_padding (w junk : Z) (simd : bool) (n dim : nat) (a b pb : seq Z) :
  (1 <= w)%Z -> size a = dim -> size b = dim -> 0 < dim -> dim <= n -> (simd -> size (b ++ pb) = n) ->
  (forall i, i < dim -> nth junk b i <> 0%Z /\ ~ (nth junk a i = int_min w /\ nth junk b i = (-1)%Z)) ->
  exists2 st, vec_div_vec junk 0%Z (int_div w) simd n dim (ctor_scalars junk 0%Z n dim a) (b ++ pb) = Some st
            & take dim st = [seq Z.quot p.1 p.2 | p <- zip a b].
Proof.
move=> hw sa sb h0 hn hb ok.
have E : ctor_scalars junk 0%Z n dim a = a ++ nseq (n - dim) 0%Z.
  apply: (@eq_from_nth _ junk).
    by rewrite /ctor_scalars /zero_padding !size_mkseq size_cat size_nseq sa subnKC.
  move=> i; rewrite /ctor_scalars /zero_padding !size_mkseq => hi.
  rewrite nth_mkseq // nth_cat sa; case: ifP => hid; first by rewrite nth_mkseq.
  have hdi : dim <= i by rewrite leqNgt hid.
  by rewrite nth_nseq ltn_sub2r // (leq_ltn_trans hdi hi).
rewrite E.
have mn : int_min w <> 0%Z.
  by rewrite /int_min; have: (0 < 2 ^ (w - 1))%Z by [apply: Z.pow_pos_nonneg; lia]; lia.
case R: (vec_div_vec _ _ _ _ _ _ _ _) => [st|]; last first.
  have /C76_signed := R; case=> //.
  - by rewrite size_cat size_nseq sa subnKC.
  - by move=> _ _ [i]; rewrite size_nseq nth_nseq => -> /esym.
exists st => //.
(* the value: the divisions that are defined agree with the total quotient *)
move: R; rewrite /vec_div_vec; case: simd hb => [/(_ isT) hb|_].
- case S: (sequence_opt _) => [r|] //= [<-].
  have [sr rr] := proj1 (sequence_opt_some junk _ _) S; rewrite size_mkseq in sr.
  rewrite take_fill_masked ?sr //; apply: (@eq_from_nth _ junk).
    by rewrite size_takel ?sr // size_map size_zip sa sb minnn.
  move=> i; rewrite size_takel ?sr // => hi.
  rewrite nth_take // (nth_map (junk, junk)) ?size_zip ?sa ?sb ?minnn // nth_zip ?sa ?sb //=.
  have := rr i; rewrite size_mkseq (leq_trans hi hn) => /(_ isT).
  rewrite nth_mkseq ?(leq_trans hi hn) // nth_fill_first ?hb ?(leq_trans hi hn) // hi !nth_cat sa sb hi.
  by rewrite /int_div; case: ifP => // _ [].
- case S: (sequence_opt _) => [r|] //= [<-].
  have [sr rr] := proj1 (sequence_opt_some junk _ _) S; rewrite size_mkseq in sr.
  rewrite take_ctor_scalars //; apply: (@eq_from_nth _ junk).
    by rewrite sr size_map size_zip sa sb minnn.
  move=> i; rewrite sr => hi.
  rewrite (nth_map (junk, junk)) ?size_zip ?sa ?sb ?minnn // nth_zip ?sa ?sb //=.
  have := rr i; rewrite size_mkseq hi => /(_ isT).
  rewrite nth_mkseq // !nth_cat sa sb hi.
  by rewrite /int_div; case: ifP => // _ [].
Qed.
Print Assumptions C76_zero_padding.

(* unsigned types: any padding *)
Theorem C76_unsigned (junk : Z) (simd : bool) (n dim : nat) (a pa b pb : seq Z) :
  size a = dim -> size b = dim -> 0 < dim -> dim <= n ->
  (simd -> size (a ++ pa) = n) -> (simd -> size (b ++ pb) = n) ->
  vec_div_vec junk 0%Z uint_div simd n dim (a ++ pa) (b ++ pb) = None <-> exists2 i, i < dim & nth junk b i = 0%Z.
Proof.
have U x y : uint_div x y = None <-> y = 0%Z by rewrite /uint_div; case: (Z.eqb_spec y 0).
move=> sa sb h0 hn ha hb; rewrite C76_undefined_iff //; split.
- case=> [[i hi /U e]|[_ [i hi /U e]]]; first by exists i.
  by exists 0.
- by case=> i hi /U e; left; exists i.
Qed.
Print Assumptions C76_unsigned.

(* The gap is reachable from constructors and operators alone, in any width: on the batched path
     Vector<T, 3>(1, 1, 1) + INT_MIN
   has no overflow in its elements, but its padding lane is 0 + INT_MIN; dividing it by a vector or a scalar -1 is defined
   for every element and undefined for the padding lane. *)
Theorem C76_padding_undefined (w junk : Z) : (2 <= w)%Z ->
  let v := vec_op_scalar (int_add w) junk true true 4 3 (ctor_scalars junk 0%Z 4 3 [:: 1; 1; 1]%Z) (int_min w) in
  [/\ take 3 v = nseq 3 (1 + int_min w)%Z,
      forall i, i < 3 -> int_div w (nth junk v i) (-1) = Some (int_max w),
      vec_div_vec junk 0%Z (int_div w) true 4 3 v (ctor_scalars junk 0%Z 4 3 [:: -1; -1; -1]%Z) = None,
      vec_div_scalar junk 0%Z (int_div w) true true 4 3 v (-1)%Z = None &
      vec_div_scalar junk 0%Z (int_div w) false false 3 3 (take 3 v) (-1)%Z = Some (nseq 3 (int_max w))].
Proof.
move=> hw /=.
have P : (2 <= 2 ^ (w - 1))%Z by have := Z.pow_le_mono_r 2 1 (w - 1); lia.
have P2 : (2 ^ w = 2 * 2 ^ (w - 1))%Z by rewrite -Z.pow_succ_r; [f_equal; lia | lia].
have A1 : int_add w 1 (int_min w) = (1 + int_min w)%Z.
  by rewrite /int_add /wrap; rewrite Z.mod_small; rewrite /int_min; lia.
have A0 : int_add w 0 (int_min w) = int_min w.
  by rewrite /int_add /wrap; rewrite Z.mod_small; rewrite /int_min; lia.
have D1 : int_div w (1 + int_min w) (-1) = Some (int_max w).
  rewrite /int_div; case: (Z.eqb_spec (1 + int_min w) (int_min w)); first by lia.
  have -> : Z.quot (1 + int_min w) (-1) = int_max w.
    by rewrite (Z.quot_opp_r _ 1) // Z.quot_1_r /int_min /int_max; lia.
  by [].
have D0 : int_div w (int_min w) (-1) = None by apply/int_div_none; right.
rewrite /vec_op_scalar /do_binary /ctor_scalars /zero_padding /ctor_all /mkseq /=.
rewrite !A1 A0 /vec_div_vec /vec_div_scalar /=.
split=> //.
- by case=> [|[|[|]]].
- by rewrite /mkseq /= D1 D0.
- by rewrite /mkseq /= D1 D0.
- by rewrite /mkseq /= D1.
Qed.
Print Assumptions C76_padding_undefined.

(* hence "the quotient is defined whenever all element quotients are" is false *)
Theorem C76_refuted : exists (w : Z) (a pa b : seq Z), [/\ size a = 3, size b = 3, size pa = 1,
    forall i, i < 3 -> exists q, int_div w (nth 0%Z a i) (nth 0%Z b i) = Some q &
    vec_div_vec 0%Z 0%Z (int_div w) true 4 3 (a ++ pa) (ctor_scalars 0%Z 0%Z 4 3 b) = None].
Proof.
exists 32%Z, (nseq 3 (1 + int_min 32)%Z), [:: int_min 32], (nseq 3 (-1)%Z); split=> //.
by case=> [|[|[|]]] // _; eexists.
Qed.
Print Assumptions C76_refuted.

(* non-vacuity of C76_zero_padding: a 3-vector in four lanes, 32 bits *)
Example C76_example :
  vec_div_vec 77%Z 0%Z (int_div 32) true 4 3 (ctor_scalars 77%Z 0%Z 4 3 [:: -7; 9; 20]%Z) ([:: -1; 2; -3]%Z ++ [:: 0%Z])
  = Some [:: 7; 4; -6; 0]%Z.
Proof. by []. Qed.
