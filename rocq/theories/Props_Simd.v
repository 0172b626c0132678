(* Properties C01-C08: packing, reductions, swizzles, concatenation, homogeneous casts. *)
From mathcomp Require Import all_ssreflect all_algebra.
From Verif Require Import M_Simd P_Simd M_Swizzle P_Swizzle.
Set Implicit Arguments. Unset Strict Implicit. Unset Printing Implicit Defensive.
Import GRing.Theory.

(* A vector object with elements [a] and padding lanes [pa] is [a ++ pa]. [n] is the storage
   size of the result, [simd] says whether the batched or the scalar code path is compiled. *)

(** * C01 *)
Theorem C01_unary (T R : Type) (junk : T) (zero : R) (f : T -> R) (simd : bool) (n dim : nat)
    (a pa : seq T) :
  size a = dim -> dim <= n ->
  take dim (do_unary junk zero simd n dim f (a ++ pa)) = [seq f x | x <- a].
Proof. exact: do_unary_elems. Qed.
Print Assumptions C01_unary.

Theorem C01_binary (T1 T2 R : Type) (j1 : T1) (j2 : T2) (zero : R) (f : T1 -> T2 -> R)
    (simd : bool) (n dim : nat) (a pa : seq T1) (b pb : seq T2) :
  size a = dim -> size b = dim -> dim <= n ->
  take dim (do_binary j1 j2 zero simd n dim f (a ++ pa) (b ++ pb))
  = [seq f p.1 p.2 | p <- zip a b].
Proof. exact: do_binary_elems. Qed.
Print Assumptions C01_binary.

Theorem C01_ternary (T1 T2 T3 R : Type) (j1 : T1) (j2 : T2) (j3 : T3) (zero : R)
    (f : T1 -> T2 -> T3 -> R) (simd : bool) (n dim : nat)
    (a pa : seq T1) (b pb : seq T2) (c pc : seq T3) :
  size a = dim -> size b = dim -> size c = dim -> dim <= n ->
  take dim (do_ternary j1 j2 j3 zero simd n dim f (a ++ pa) (b ++ pb) (c ++ pc))
  = [seq f p.1.1 p.1.2 p.2 | p <- zip (zip a b) c].
Proof. exact: do_ternary_elems. Qed.
Print Assumptions C01_ternary.

(* a broadcast scalar operand has the scalar in every logical lane *)
Theorem C01_broadcast (T : Type) (junk zero : T) (batched : bool) (n dim : nat) (s : T) :
  dim <= n -> take dim (ctor_all junk zero batched n dim s) = nseq dim s.
Proof. exact: take_ctor_all. Qed.
Print Assumptions C01_broadcast.

(* every storage is large enough *)
Theorem C01_storage (has_batch : nat -> bool) (dim : nat) (packed : bool) :
  dim <= storage_size has_batch dim packed.
Proof. exact: storage_size_ge. Qed.
Print Assumptions C01_storage.

(* Division: a lane traps exactly when its divisor is zero. *)
Definition trapping_div (T : Type) (is_zero : T -> bool) (quo : T -> T -> T) (x y : T) :=
  if is_zero y then None else Some (quo x y).

Theorem C01_div (T : Type) (junk zero : T) (is_zero : T -> bool) (quo : T -> T -> T)
    (simd : bool) (n dim : nat) (a pa b pb : seq T) :
  size a = dim -> size b = dim -> 0 < dim -> dim <= n -> (simd -> size (b ++ pb) = n) ->
  ~~ has is_zero b ->
  exists2 st, vec_div_vec junk zero (trapping_div is_zero quo) simd n dim (a ++ pa) (b ++ pb) = Some st
            & take dim st = [seq quo p.1 p.2 | p <- zip a b].
Proof. exact: vec_div_vec_ok. Qed.
Print Assumptions C01_div.

Theorem C01_div_trap (T : Type) (junk zero : T) (is_zero : T -> bool) (quo : T -> T -> T)
    (simd : bool) (n dim : nat) (a pa b pb : seq T) :
  size a = dim -> size b = dim -> dim <= n -> (simd -> size (b ++ pb) = n) ->
  has is_zero b ->
  vec_div_vec junk zero (trapping_div is_zero quo) simd n dim (a ++ pa) (b ++ pb) = None.
Proof. exact: vec_div_vec_trap. Qed.
Print Assumptions C01_div_trap.

Theorem C01_div_scalar (T : Type) (junk zero : T) (is_zero : T -> bool) (quo : T -> T -> T)
    (simd batched : bool) (n dim : nat) (a pa : seq T) (s : T) :
  size a = dim -> dim <= n -> (simd -> batched) -> ~~ is_zero s ->
  exists2 st, vec_div_scalar junk zero (trapping_div is_zero quo) simd batched n dim (a ++ pa) s = Some st
            & take dim st = [seq quo x s | x <- a].
Proof. exact: vec_div_scalar_ok. Qed.
Print Assumptions C01_div_scalar.

(* non-vacuity: a padded 3-vector whose padding lane is a zero divisor *)
Example C01_div_example :
  let b := [:: 2; 3; 4] in let pb := [:: 0] in
  [/\ size b = 3, true -> size (b ++ pb) = 4, ~~ has (pred1 0) b &
      vec_div_vec 77 0 (trapping_div (pred1 0) divn) true 4 3 ([:: 8; 9; 20] ++ [:: 5]) (b ++ pb)
      = Some [:: 4; 3; 5; 0]].
Proof. by []. Qed.

(** * C02 *)
Theorem C02_sum (R : ringType) (junk : R) (simd : bool) (dim : nat) (a p : seq R) (r : R) :
  size a = dim ->
  vec_sum junk (fun x y => x + y)%R 0%R simd dim (a ++ p) r -> r = (\sum_(x <- a) x)%R.
Proof. exact: (@vec_sum_spec R junk 0%R (GRing.add_comoid R)). Qed.
Print Assumptions C02_sum.

Theorem C02_sum_defined (R : ringType) (junk : R) (simd : bool) (dim : nat) (a p : seq R) :
  size a = dim -> 0 < dim ->
  exists r, vec_sum junk (fun x y => x + y)%R 0%R simd dim (a ++ p) r.
Proof. exact: (@vec_sum_defined R junk 0%R (GRing.add_comoid R)). Qed.
Print Assumptions C02_sum_defined.

Theorem C02_min (disp : unit) (T : orderType disp) (junk : T) (simd : bool) (dim : nat)
    (a p : seq T) (r : T) :
  size a = dim -> 0 < dim ->
  vec_min junk (@Order.min _ T) (fun x y => (x < y)%O) simd dim (a ++ p) r ->
  r \in a /\ forall x, x \in a -> (r <= x)%O.
Proof. exact: vec_min_spec. Qed.
Print Assumptions C02_min.

Theorem C02_max (disp : unit) (T : orderType disp) (junk : T) (simd : bool) (dim : nat)
    (a p : seq T) (r : T) :
  size a = dim -> 0 < dim ->
  vec_max junk (@Order.max _ T) (fun x y => (x < y)%O) simd dim (a ++ p) r ->
  r \in a /\ forall x, x \in a -> (x <= r)%O.
Proof. exact: vec_max_spec. Qed.
Print Assumptions C02_max.

Theorem C02_equal (T : eqType) (dim : nat) (a pa b pb : seq T) :
  size a = dim -> size b = dim ->
  vec_eq (fun x y => x == y) dim (a ++ pa) (b ++ pb) = (a == b).
Proof. exact: vec_eqE. Qed.
Print Assumptions C02_equal.

Example C02_sum_example :
  vec_sum 9 addn 0 true 3 [:: 1; 2; 3; 100] 6.
Proof.
have -> : 6 = 1 + (2 + (3 + 0)) by [].
rewrite /vec_sum /sum_lanes /=.
apply: (@red_app _ _ [:: _] [:: _; _; _]); first by constructor.
apply: (@red_app _ _ [:: _] [:: _; _]); first by constructor.
by apply: (@red_app _ _ [:: _] [:: _]); constructor.
Qed.

(** * C03 *)
Theorem C03_swizzle_read (T : Type) (junk zero : T) (has_batch : nat -> bool) (dim : nat)
    (packed : bool) (idx : seq nat) (v pad : seq T) :
  size v = dim -> all (fun i => i < dim) idx ->
  take (size idx) (linearize junk zero has_batch dim packed idx (v ++ pad))
  = [seq nth junk v i | i <- idx].
Proof. exact: linearize_elems. Qed.
Print Assumptions C03_swizzle_read.

(* non-vacuity: .zzyx of an unpacked 3-vector (scalar path) and .zx (SIMD path) *)
Example C03_example :
  (linearize 7 0 (fun n => n == 4) 3 false [:: 2; 2; 1; 0] [:: 10; 11; 12; 99] = [:: 12; 12; 11; 10])
  /\ (take 2 (linearize 7 0 (fun n => n == 4) 3 false [:: 2; 0] [:: 10; 11; 12; 99]) = [:: 12; 10]).
Proof. by []. Qed.

(* the element-wise access v.zx[n] agrees with the linearised swizzle where its assertion and
   its table allow the access ... *)
Theorem C03_swizzle_at (T : Type) (junk : T) (dim : nat) (idx : seq nat) (v pad : seq T) (i : nat) :
  size v = dim -> all (fun k => k < dim) idx -> i < size idx -> i < dim ->
  swizzle_at junk dim idx (v ++ pad) i = Some (Some (nth junk v (nth 0 idx i))).
Proof.
move=> sv /(all_nthP 0) h hi hd; rewrite /swizzle_at hd hi /read_at.
have hn := h i hi; by rewrite size_cat sv (leq_trans hn (leq_addr _ _)) nth_cat sv hn.
Qed.
Print Assumptions C03_swizzle_at.

(* ... but the assertion tests the wrong bound: it lets an out-of-range access pass (v4.xy[3])
   and rejects a valid one (v2.xyxy[3]). *)
Theorem C03_swizzle_at_bound_refuted :
  (exists (dim : nat) (idx : seq nat) (v : seq nat) (i : nat),
      [/\ size v = dim, all (fun k => k < dim) idx, size idx <= i &
          swizzle_at 0 dim idx v i = Some None])
  /\ (exists (dim : nat) (idx : seq nat) (v : seq nat) (i : nat),
      [/\ size v = dim, all (fun k => k < dim) idx, i < size idx &
          swizzle_at 0 dim idx v i = None]).
Proof.
split; first by exists 4, [:: 0; 1], [:: 5; 6; 7; 8], 3.
by exists 2, [:: 0; 1; 0; 1], [:: 5; 6], 3.
Qed.
Print Assumptions C03_swizzle_at_bound_refuted.

(** * C04 *)
(* [sentinel] is the constant 1'000'000 of the code; swizzles exist for vectors of up to four
   elements (Vector.hpp / SwizzleDim{1..4}). *)
Theorem C04_swizzle_write (T : Type) (junk zero : T) (has_batch : nat -> bool) (dim : nat)
    (packed : bool) (idx : seq nat) (sentinel : nat) (src w : seq T) :
  dim <= 4 -> uniq idx -> all (fun i => i < dim) idx -> size idx <= sentinel ->
  size src = storage_size has_batch dim packed -> size w = size idx ->
  exists2 st, assign_vector junk zero has_batch dim packed idx sentinel src w = Some st
    & size st = size src /\
      (forall k, k < size idx -> nth junk st (nth 0 idx k) = nth junk w k) /\
      (forall i, i < size src -> i \notin idx -> nth junk st i = nth junk src i).
Proof.
move=> h4 u hidx hs hsrc hw; rewrite hsrc.
by apply: assign_vector_spec => //; apply: safe_small.
Qed.
Print Assumptions C04_swizzle_write.

(* general dimensions: either the SIMD path is taken or the target storage is unpadded *)
Theorem C04_swizzle_write_any_dim (T : Type) (junk zero : T) (has_batch : nat -> bool) (dim : nat)
    (packed : bool) (idx : seq nat) (sentinel : nat) (src w : seq T) :
  is_batched has_batch dim packed \/ storage_size has_batch (size idx) packed = size idx ->
  uniq idx -> all (fun i => i < dim) idx -> size idx <= sentinel ->
  size src = storage_size has_batch dim packed -> size w = size idx ->
  exists2 st, assign_vector junk zero has_batch dim packed idx sentinel src w = Some st
    & size st = size src /\
      (forall k, k < size idx -> nth junk st (nth 0 idx k) = nth junk w k) /\
      (forall i, i < size src -> i \notin idx -> nth junk st i = nth junk src i).
Proof.
move=> h u hidx hs hsrc hw; rewrite hsrc; apply: assign_vector_spec => //.
rewrite /safe_cfg /simd_path; case: h => [->|->]; last by rewrite eqxx orbT.
rewrite -(size_iota 0 dim) uniq_leq_size // => i.
by move/allP: hidx => h /h; rewrite mem_iota.
Qed.
Print Assumptions C04_swizzle_write_any_dim.

(* reading back what was written, in the vector's logical elements *)
Theorem C04_read_back (T : Type) (junk zero : T) (has_batch : nat -> bool) (dim : nat)
    (packed : bool) (idx : seq nat) (sentinel : nat) (src w : seq T) :
  dim <= 4 -> uniq idx -> all (fun i => i < dim) idx -> size idx <= sentinel ->
  size src = storage_size has_batch dim packed -> size w = size idx ->
  exists2 st, assign_vector junk zero has_batch dim packed idx sentinel src w = Some st
    & take (size idx) (linearize junk zero has_batch dim packed idx st) = w.
Proof.
move=> h4 u hidx hs hsrc hw.
have [st hst [sst [h1 h2]]] := C04_swizzle_write junk zero h4 u hidx hs hsrc hw.
exists st => //.
have hd : dim <= size st by rewrite sst hsrc storage_size_ge.
rewrite -(cat_take_drop dim st) linearize_elems // ?size_takel //.
apply: (@eq_from_nth _ junk); rewrite ?size_map // => k hk.
rewrite (nth_map 0) // nth_take ?h1 //.
by move/(all_nthP 0): hidx; apply.
Qed.
Print Assumptions C04_read_back.

Example C04_example :
  (assign_vector 7 0 (fun n => n == 4) 3 false [:: 2; 0] 1000 [:: 10; 11; 12; 99] [:: 1; 2]
   = Some [:: 2; 11; 1; 99])
  /\ (assign_vector 7 0 (fun n => n == 4) 3 true [:: 2; 0] 1000 [:: 10; 11; 12] [:: 1; 2]
   = Some [:: 2; 11; 1]).
Proof. by []. Qed.

(** * C05 *)
(* for distinct indices the packed and the SIMD vector get the same elements *)
Theorem C05_paths_agree_distinct (T : Type) (junk zero : T) (has_batch : nat -> bool) (dim : nat)
    (idx : seq nat) (sentinel : nat) (v pad w : seq T) :
  dim <= 4 -> uniq idx -> all (fun i => i < dim) idx -> size idx <= sentinel ->
  size v = dim -> size (v ++ pad) = storage_size has_batch dim false -> size w = size idx ->
  omap (take dim) (assign_vector junk zero has_batch dim false idx sentinel (v ++ pad) w)
  = omap (take dim) (assign_vector junk zero has_batch dim true idx sentinel v w)
  /\ isSome (assign_vector junk zero has_batch dim true idx sentinel v w).
Proof.
move=> h4 u hidx hs sv hsrc hw.
have [s1 -> [e1 [p1 f1]]] := C04_swizzle_write junk zero h4 u hidx hs hsrc hw.
have hsrc' : size v = storage_size has_batch dim true by rewrite /storage_size /is_batched.
have [s2 -> [e2 [p2 f2]]] := C04_swizzle_write junk zero h4 u hidx hs hsrc' hw.
split=> //=; congr Some.
have le1 : dim <= size s1 by rewrite e1 size_cat sv leq_addr.
have le2 : dim <= size s2 by rewrite e2 sv.
apply: (@eq_from_nth _ junk); first by rewrite !size_takel.
move=> i; rewrite size_takel // => hi; rewrite !nth_take //.
case: (boolP (i \in idx)) => [hin|hni].
  by rewrite -(nth_index 0 hin) p1 ?p2 ?index_mem.
by rewrite f1 ?f2 ?sv // ?nth_cat ?sv ?hi // size_cat sv (leq_trans hi) // leq_addr.
Qed.
Print Assumptions C05_paths_agree_distinct.

(* with repeated indices the two paths disagree: v.xx = (1, 2) stores 1 on the SIMD path (first
   occurrence) and 2 on the scalar path (last write) *)
Theorem C05_paths_agree_refuted :
  exists (has_batch : nat -> bool) (dim : nat) (idx : seq nat) (v w : seq nat),
    [/\ size v = dim, all (fun i => i < dim) idx, size w = size idx &
      omap (take dim) (assign_vector 0 0 has_batch dim false idx 1000 v w)
      <> omap (take dim) (assign_vector 0 0 has_batch dim true idx 1000 v w)].
Proof. by exists (fun n => n == 2), 2, [:: 0; 0], [:: 5; 6], [:: 1; 2]. Qed.
Print Assumptions C05_paths_agree_refuted.

(** * C06 *)
(* v.idx = w.idx2 where w is any vector (possibly v itself, then src2 = src): the right-hand
   side is read before the write. Hypothesis on storage: the right-hand target storage is not
   larger than the left-hand one (it is equal whenever both have the same packing and type). *)
Theorem C06_swizzle_assign_partial (T : Type) (junk zero : T)
    (has_batch has_batch2 : nat -> bool) (dim dim2 : nat) (packed packed2 : bool)
    (idx idx2 : seq nat) (sentinel : nat) (src v2 pad2 : seq T) :
  dim <= 4 -> uniq idx -> all (fun i => i < dim) idx -> all (fun i => i < dim2) idx2 ->
  size idx2 = size idx -> size idx <= sentinel ->
  size src = storage_size has_batch dim packed -> size v2 = dim2 ->
  storage_size has_batch2 (size idx2) packed2 <= storage_size has_batch (size idx) packed ->
  exists2 st, assign_lin junk zero has_batch dim packed idx sentinel src
                (linearize junk zero has_batch2 dim2 packed2 idx2 (v2 ++ pad2)) = Some st
    & size st = size src /\
      (forall k, k < size idx -> nth junk st (nth 0 idx k) = nth junk v2 (nth 0 idx2 k)) /\
      (forall i, i < size src -> i \notin idx -> nth junk st i = nth junk src i).
Proof.
move=> h4 u hidx hidx2 e2 hs hsrc sv2 hsz.
have [||st hst [sst [h1 h2]]] := @assign_lin_spec T junk zero has_batch dim packed idx sentinel src
  (linearize junk zero has_batch2 dim2 packed2 idx2 (v2 ++ pad2)) u hidx (safe_small has_batch packed h4 u hidx) hs.
- by rewrite size_linearize -e2 storage_size_ge.
- by rewrite size_linearize.
exists st => //; rewrite hsrc; split=> //; split=> // k hk.
rewrite h1 //; have := congr1 (fun s => nth junk s k) (linearize_elems junk zero has_batch2 packed2 pad2 sv2 hidx2).
by rewrite nth_take ?e2 // (nth_map 0) ?e2.
Qed.
Print Assumptions C06_swizzle_assign_partial.

(* v.xy = v.yx swaps *)
Example C06_swap_example :
  assign_lin 7 0 (fun n => n == 4) 3 false [:: 0; 1] 1000 [:: 10; 11; 12; 99]
    (linearize 7 0 (fun n => n == 4) 3 false [:: 1; 0] ([:: 10; 11; 12] ++ [:: 99]))
  = Some [:: 11; 10; 12; 99].
Proof. by []. Qed.

(* Without the hypothesis on storage sizes the full statement is false: assigning a swizzle of an
   unpacked (SIMD) 3-vector to a swizzle of a packed one copies four elements into an array of three. *)
Theorem C06_swizzle_assign_refuted :
  exists (has_batch : nat -> bool) (dim : nat) (idx idx2 : seq nat) (src v2 pad2 : seq nat),
    [/\ dim <= 4 /\ uniq idx /\ size idx2 = size idx,
        all (fun i => i < dim) idx && all (fun i => i < dim) idx2,
        size src = storage_size has_batch dim true,
        size (v2 ++ pad2) = storage_size has_batch dim false /\ size v2 = dim &
        assign_lin 0 0 has_batch dim true idx 1000 src
          (linearize 0 0 has_batch dim false idx2 (v2 ++ pad2)) = None].
Proof.
exists (fun n => n == 4), 3, [:: 0; 1; 2], [:: 2; 1; 0], [:: 1; 2; 3], [:: 4; 5; 6], [:: 0].
by split.
Qed.
Print Assumptions C06_swizzle_assign_refuted.

(* v.x = s *)
Theorem C06_scalar_assign (T : Type) (junk : T) (i : nat) (src : seq T) (x : T) :
  i < size src ->
  exists2 st, assign_scalar junk [:: i] src x = Some st
    & size st = size src /\ nth junk st i = x /\
      forall k, k != i -> nth junk st k = nth junk src k.
Proof.
move=> hi; exists (set_nth junk src i x); first exact: assign_scalar_spec.
split; first by rewrite size_set_nth'.
by split=> [|k hk]; rewrite nth_set_nth /= ?eqxx ?(negbTE hk).
Qed.
Print Assumptions C06_scalar_assign.

(** * C07 *)
Theorem C07_concat (T : Type) (junk zero : T) (n : nat) (parts : seq (seq T)) :
  size (flatten parts) <= n ->
  take (size (flatten parts)) (ctor_concat junk zero n (size (flatten parts)) parts)
  = flatten parts.
Proof. exact: ctor_concat_elems. Qed.
Print Assumptions C07_concat.

Theorem C07_pipe (T : Type) (junk zero : T) (n : nat) (a b : seq T) :
  size a + size b <= n ->
  take (size a + size b) (pipe junk zero n (size a + size b) a b) = a ++ b.
Proof.
move=> h; have := @ctor_concat_elems T junk zero n [:: a; b].
by rewrite /= cats0 size_cat => /(_ h).
Qed.
Print Assumptions C07_pipe.

Theorem C07_pipe_assoc (T : Type) (junk zero : T) (n : nat) (a b c : seq T) :
  let cat2 x y := take (size x + size y) (pipe junk zero n (size x + size y) x y) in
  size a + size b + size c <= n ->
  cat2 (cat2 a b) c = cat2 a (cat2 b c).
Proof.
move=> cat2 h.
have h1 : size a + size b <= n by apply: leq_trans h; rewrite leq_addr.
have h2 : size b + size c <= n by apply: leq_trans h; rewrite -addnA leq_addl.
by rewrite /cat2 !C07_pipe ?size_cat // ?catA // addnA.
Qed.
Print Assumptions C07_pipe_assoc.

Example C07_example :
  ctor_concat 9 0 8 6 [:: [:: 1]; [:: 2; 3; 4]; [:: 5; 6]] = [:: 1; 2; 3; 4; 5; 6; 0; 0].
Proof. by []. Qed.

(** * C08 *)
Local Open Scope ring_scope.
Definition fdiv (F : fieldType) (x y : F) : option F := if y == 0 then None else Some (x / y).

Theorem C08_upcast (F : fieldType) (junk : F) (n : nat) (v : seq F) :
  ((size v).+1 <= n)%N ->
  take (size v).+1 (ctor_upcast junk 0 1 n (size v).+1 v) = rcons v 1.
Proof.
move=> h; have := @ctor_concat_elems F junk 0 n [:: v; [:: 1]].
by rewrite /= size_cat /= addn1 -cats1 => /(_ h).
Qed.
Print Assumptions C08_upcast.

Theorem C08_downcast (F : fieldType) (junk : F) (batched : bool) (n dim : nat) (v : seq F) (w : F)
    (pad : seq F) :
  size v = dim -> (dim <= n)%N -> w != 0 ->
  exists2 st, ctor_downcast junk 0 (@fdiv F) batched n dim (v ++ w :: pad) = Some st
            & take dim st = [seq x / w | x <- v].
Proof. by move=> sv hn hw; exact: (@ctor_downcast_ok F junk 0 (fun y => y == 0) (fun x y => x / y)). Qed.
Print Assumptions C08_downcast.

Theorem C08_downcast_zero (F : fieldType) (junk : F) (batched : bool) (n dim : nat) (v : seq F)
    (pad : seq F) :
  size v = dim -> (0 < dim)%N -> (dim <= n)%N ->
  ctor_downcast junk 0 (@fdiv F) batched n dim (v ++ 0 :: pad) = None.
Proof.
by move=> sv h0 hn; apply: (@ctor_downcast_zero F junk 0 (fun y => y == 0) (fun x y => x / y)).
Qed.
Print Assumptions C08_downcast_zero.

(* down-cast after up-cast, for any storage sizes, and invariance under scaling *)
Theorem C08_roundtrip (F : fieldType) (junk : F) (batched : bool) (n n' : nat) (v : seq F) :
  ((size v).+1 <= n)%N -> (size v <= n')%N ->
  omap (take (size v))
    (ctor_downcast junk 0 (@fdiv F) batched n' (size v) (ctor_upcast junk 0 1 n (size v).+1 v))
  = Some v.
Proof.
move=> h h'; have e := C08_upcast junk h.
rewrite -(cat_take_drop (size v).+1 (ctor_upcast junk 0 1 n (size v).+1 v)) e cat_rcons.
have [st -> /= ->] := C08_downcast junk batched (drop (size v).+1 (ctor_upcast junk 0 1 n (size v).+1 v))
  (erefl (size v)) h' (oner_neq0 F).
by congr Some; rewrite -[RHS]map_id; apply: eq_map => x; rewrite divr1.
Qed.
Print Assumptions C08_roundtrip.

Theorem C08_scale_invariant (F : fieldType) (junk : F) (batched : bool) (n dim : nat) (v : seq F)
    (w s : F) (pad pad' : seq F) :
  size v = dim -> (dim <= n)%N -> w != 0 -> s != 0 ->
  omap (take dim) (ctor_downcast junk 0 (@fdiv F) batched n dim
                     ([seq s * x | x <- v] ++ (s * w) :: pad'))
  = omap (take dim) (ctor_downcast junk 0 (@fdiv F) batched n dim (v ++ w :: pad)).
Proof.
move=> sv hn hw hs.
have [st -> /= ->] := C08_downcast junk batched pad sv hn hw.
have sv' : size [seq s * x | x <- v] = dim by rewrite size_map.
have [st' -> /= ->] := C08_downcast junk batched pad' sv' hn (mulf_neq0 hs hw).
by congr Some; rewrite -map_comp; apply: eq_map => x /=; rewrite -mulf_div divff // mul1r.
Qed.
Print Assumptions C08_scale_invariant.

Example C08_example :
  ctor_downcast (9%:Q) 0 (@fdiv rat_fieldType) true 4 3 [:: 2%:Q; 4%:Q; 6%:Q; 2%:Q]
  = Some [:: 1%:Q; 2%:Q; 3%:Q; 0].
Proof. by apply/eqP; vm_compute. Qed.
