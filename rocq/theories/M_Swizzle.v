(* Model of include/Mathter/Vector/Swizzle.hpp and of the vector constructors that use it.
   A swizzle object shares the storage array of its vector ([src], size = storage size of the
   vector); its type carries the list of source indices [idx].
   [None] = undefined behaviour (access outside an array). *)
From mathcomp Require Import all_ssreflect.
From Verif Require Import M_Simd.
Set Implicit Arguments. Unset Strict Implicit. Unset Printing Implicit Defensive.

Section Swizzle.
Variables (T : Type) (junk zero : T).

(* An array write with bounds check: None when the index is outside of the array *)
Definition write_at (s : seq T) (i : nat) (x : T) : option (seq T) :=
  if i < size s then Some (set_nth junk s i x) else None.
Definition read_at (s : seq T) (i : nat) : option T :=
  if i < size s then Some (nth junk s i) else None.

(* std::copy(src.begin(), src.end(), dst.begin()) between two arrays *)
Definition std_copy (src dst : seq T) : option (seq T) :=
  if size src <= size dst then Some (src ++ drop (size src) dst) else None.

(* Swizzle.hpp:93-99 LinearizationGenerator::get *)
Definition lin_index (idx : seq nat) (i : nat) : nat :=
  if i < size idx then nth 0 idx i else 0.

(* Swizzle.hpp:101-114 DelinearizationGenerator::get_occurence: first occurrence, else 0 *)
Fixpoint get_occurrence (sentinel : nat) (value : nat) (values : seq nat) (location : nat) : nat :=
  match values with
  | [::] => sentinel
  | v :: values' => if value == v then location
                    else get_occurrence sentinel value values' location.+1
  end.
Definition delin_index (idx : seq nat) (i : nat) : nat := get_occurrence 0 i idx 0.

(* Swizzle.hpp:116-131 BlendGenerator::get: occurrence found, i.e. different from the sentinel
   (1'000'000 in the code; here any number not smaller than the number of indices) *)
Definition blend_mask (sentinel : nat) (idx : seq nat) (i : nat) : bool :=
  get_occurrence sentinel i idx 0 != sentinel.

(* Parameters of the swizzle type Swizzle<T, dim, packed, idx...> *)
Variables (has_batch : nat -> bool) (dim : nat) (packed : bool) (idx : seq nat).
Let n_src := storage_size has_batch dim packed.
Let n_tgt := storage_size has_batch (size idx) packed.
(* Swizzle.hpp:197,222,250: `if constexpr (isSourceBatched && sizeof...(Indices) <= Dim)` *)
Definition simd_path : bool := is_batched has_batch dim packed && (size idx <= dim).

(* Swizzle.hpp:193-215 Linearize. SIMD: shuffle all lanes, then copy the first sizeof...(Indices)
   lanes into an uninitialised TargetStorage. Scalar: aggregate initialisation, the remaining
   elements are value-initialised. *)
Definition linearize (src : seq T) : seq T :=
  if simd_path then
    let lanes := mkseq (fun i => nth junk src (lin_index idx i)) n_src in
    take (size idx) lanes ++ nseq (n_tgt - size idx) junk
  else
    [seq nth junk src i | i <- idx] ++ nseq (n_tgt - size idx) zero.

(* Swizzle.hpp:238-242 the scalar loop of Delinearize:
   for i < target.size(): delinearized[table[i]] = target[i], where table has
   sizeof...(Indices) entries *)
Fixpoint delin_loop (i : nat) (target : seq T) (acc : seq T) : option (seq T) :=
  match target with
  | [::] => Some acc
  | x :: target' =>
      if i < size idx then
        obind (delin_loop i.+1 target') (write_at acc (nth 0 idx i) x)
      else None
  end.

(* Swizzle.hpp:218-243 Delinearize *)
Definition delinearize (target : seq T) : option (seq T) :=
  if simd_path then
    omap (fun targetPadded => mkseq (fun i => nth junk targetPadded (delin_index idx i)) n_src)
      (std_copy target (nseq n_src junk))
  else delin_loop 0 target (nseq n_src junk).

(* Swizzle.hpp:246-267 Blend; the SIMD select and the scalar loop compute the same lanes *)
Definition blend (sentinel : nat) (old fresh : seq T) : seq T :=
  mkseq (fun i => if blend_mask sentinel idx i then nth junk fresh i else nth junk old i) n_src.

(* Swizzle.hpp:277-286 swizzle = vector; [rhs] are the logical elements begin()..end() *)
Definition assign_vector (sentinel : nat) (src rhs : seq T) : option (seq T) :=
  obind (fun lhsLin => omap (blend sentinel src) (delinearize lhsLin))
    (std_copy rhs (nseq n_tgt zero)).

(* Swizzle.hpp:164-174 swizzle = swizzle: the whole target storage of the right-hand side,
   padding included, is copied into the target storage of the left-hand side *)
Definition assign_lin (sentinel : nat) (src rhsLin : seq T) : option (seq T) :=
  obind (fun lhsLin => omap (blend sentinel src) (delinearize lhsLin))
    (std_copy rhsLin (nseq n_tgt zero)).

(* Swizzle.hpp:177-183 swizzle = scalar, only for one index *)
Definition assign_scalar (src : seq T) (x : T) : option (seq T) :=
  foldl (fun acc i => obind (fun s => write_at s i x) acc) (Some src) idx.

(* Swizzle.hpp:136-161 operator[]: assert(idx < Dim), then array[table[idx]] where table has
   sizeof...(Indices) entries. Outer None: the assertion fires; inner None: out of bounds. *)
Definition swizzle_at (src : seq T) (i : nat) : option (option T) :=
  if i < dim then
    Some (if i < size idx then read_at src (nth 0 idx i) else None)
  else None.
End Swizzle.

Section Ctors.
Variables (T : Type) (junk zero : T).
(* Vector.hpp:322-336 Vector(const Swizzle&): copies the linearised storage, or its first
   sizeof...(Indices) elements when the storage types differ ([same] = storage types equal) *)
Definition ctor_swizzle (same : bool) (n : nat) (idx : seq nat) (lin : seq T) : seq T :=
  if same then lin
  else mkseq (fun i => if i < size idx then nth junk lin i else junk) n.

(* Vector.hpp:341-367 concatenating constructor: Assign<Offset> recursion over the parts, each
   given by its elements part[0..partDim-1], then ZeroPadding *)
Fixpoint assign_parts (offset : nat) (elements : seq T) (parts : seq (seq T)) : seq T :=
  match parts with
  | [::] => elements
  | part :: parts' =>
      let elements' :=
        foldl (fun acc i => set_nth junk acc (offset + i) (nth junk part i)) elements
              (iota 0 (size part)) in
      assign_parts (offset + size part) elements' parts'
  end.
Definition ctor_concat (n dim : nat) (parts : seq (seq T)) : seq T :=
  zero_padding junk zero dim (assign_parts 0 (nseq n junk) parts).

(* Concat.hpp:24-26 operator| *)
Definition pipe (n dim : nat) (lhs rhs : seq T) : seq T := ctor_concat n dim [:: lhs; rhs].

(* Vector.hpp:132-133 homogeneous up-cast Vector(rhs, 1): the concatenating constructor *)
Definition ctor_upcast (one : T) (n dim : nat) (rhs : seq T) : seq T :=
  ctor_concat n dim [:: rhs; [:: one]].
End Ctors.
