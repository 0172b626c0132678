(* Model of SIMD storage: padding lanes, elementwise operations, masked reductions, comparison.
   Sources: include/Mathter/Vector/{SIMDUtil,OperationUtil,Arithmetic,Comparison,Math,Vector}.hpp

   A vector object is its storage array (std::array<T, GetStorageSize>), a [seq T]; its
   dimension is a separate parameter. The logical elements are the first [dim] ones, the rest
   is padding. [junk] is the value of uninitialised / out-of-range reads. *)
From mathcomp Require Import all_ssreflect.
Set Implicit Arguments. Unset Strict Implicit. Unset Printing Implicit Defensive.

(* SIMDUtil.hpp:13-30 GetBatchSize *)
Definition batch_size (dim : nat) (packed : bool) : nat :=
  if packed then dim else
  match dim with
  | 1 => 1 | 2 => 2 | 3 => 4 | 4 => 4
  | 5 => 8 | 6 => 8 | 7 => 8 | 8 => 8
  | _ => dim
  end.

(* SIMDUtil.hpp:33-42 IsBatched. [has_batch n] stands for "xsimd::make_sized_batch<T, n> is not
   void", which depends on T and on the instruction set; it is a parameter everywhere. *)
Definition is_batched (has_batch : nat -> bool) (dim : nat) (packed : bool) : bool :=
  ~~ packed && has_batch (batch_size dim packed).

(* SIMDUtil.hpp:65-68 GetStorageSize *)
Definition storage_size (has_batch : nat -> bool) (dim : nat) (packed : bool) : nat :=
  if is_batched has_batch dim packed then batch_size dim packed else dim.

Section Lanes.
Variables (T : Type) (junk : T).

(* OperationUtil.hpp:19-38 FillMasked: lanes >= n replaced by [value] *)
Definition fill_masked (n : nat) (batch : seq T) (value : T) : seq T :=
  if n == size batch then batch
  else mkseq (fun i => if i < n then nth junk batch i else value) (size batch).

(* OperationUtil.hpp:41-60 FillMaskedWithFirst: lanes >= n replaced by lane 0 *)
Definition fill_masked_with_first (n : nat) (batch : seq T) : seq T :=
  mkseq (fun i => nth junk batch (if i < n then i else 0)) (size batch).

(* Vector.hpp:207-211 ZeroPadding *)
Definition zero_padding (zero : T) (dim : nat) (st : seq T) : seq T :=
  mkseq (fun i => if i < dim then nth junk st i else zero) (size st).

(* Vector.hpp:360-367 constructor from Dim scalars (all parts of dimension one) into a fresh
   storage of [n] lanes, followed by ZeroPadding *)
Definition ctor_scalars (zero : T) (n dim : nat) (xs : seq T) : seq T :=
  zero_padding zero dim (mkseq (fun i => nth junk xs i) n).

(* Vector.hpp:310-319 constructor from one scalar: a batched vector broadcasts into the padding
   too, otherwise fill and ZeroPadding *)
Definition ctor_all (zero : T) (batched : bool) (n dim : nat) (a : T) : seq T :=
  if batched then nseq n a
  else zero_padding zero dim (mkseq (fun i => if i < dim then a else junk) n).

(* Vector.hpp:266-273 conversion constructor from a vector of the same dimension *)
Definition ctor_convert (zero : T) (n dim : nat) (other : seq T) : seq T :=
  zero_padding zero dim (mkseq (fun i => if i < dim then nth junk other i else junk) n).

(* Vector.hpp:303-307 constructor from a pointer to (at least) dim elements *)
Definition ctor_pointer (zero : T) (n dim : nat) (elements : seq T) : seq T :=
  zero_padding zero dim (mkseq (fun i => if i < dim then nth junk elements i else junk) n).

(* OperationUtil.hpp:105-121 DoUnaryOp. [simd] selects the batched branch, which acts on all
   lanes of the storage; [n] is the storage size of the result. *)
Definition do_unary (R : Type) (zeroR : R) (simd : bool) (n dim : nat) (f : T -> R)
    (arg : seq T) : seq R :=
  if simd then map f arg
  else mkseq (fun i => if i < dim then f (nth junk arg i) else zeroR) n.
End Lanes.

Section Binary.
Variables (T1 T2 T3 R : Type) (junk1 : T1) (junk2 : T2) (junk3 : T3) (zeroR : R).

(* OperationUtil.hpp:124-142 DoBinaryOp *)
Definition do_binary (simd : bool) (n dim : nat) (f : T1 -> T2 -> R)
    (lhs : seq T1) (rhs : seq T2) : seq R :=
  if simd then mkseq (fun i => f (nth junk1 lhs i) (nth junk2 rhs i)) n
  else mkseq (fun i => if i < dim then f (nth junk1 lhs i) (nth junk2 rhs i) else zeroR) n.

(* OperationUtil.hpp:145-163 DoTernaryOp *)
Definition do_ternary (simd : bool) (n dim : nat) (f : T1 -> T2 -> T3 -> R)
    (a : seq T1) (b : seq T2) (c : seq T3) : seq R :=
  if simd then mkseq (fun i => f (nth junk1 a i) (nth junk2 b i) (nth junk3 c i)) n
  else mkseq (fun i => if i < dim then f (nth junk1 a i) (nth junk2 b i) (nth junk3 c i) else zeroR) n.
End Binary.

(* A lane operation that may trap (integer division by zero): the whole vector instruction
   traps if any lane does. *)
Fixpoint sequence_opt {T : Type} (s : seq (option T)) : option (seq T) :=
  match s with
  | [::] => Some [::]
  | Some x :: s' => omap (cons x) (sequence_opt s')
  | None :: _ => None
  end.

Section Division.
Variables (T : Type) (junk zero : T) (div : T -> T -> option T).

(* Arithmetic.hpp:33-48 divides_safe applied by DoBinaryOp (OperationUtil.hpp:132-142).
   SIMD branch: the divisor's padding lanes are overwritten with lane 0 before dividing, and
   the quotient's padding lanes with zero afterwards. Scalar branch: Dim divisions, then
   the concatenating constructor zeroes the padding. *)
Definition vec_div_vec (simd : bool) (n dim : nat) (lhs rhs : seq T) : option (seq T) :=
  if simd then
    let filled := fill_masked_with_first junk dim rhs in
    omap (fun result => fill_masked junk dim result zero)
      (sequence_opt (mkseq (fun i => div (nth junk lhs i) (nth junk filled i)) n))
  else
    omap (ctor_scalars junk zero n dim)
      (sequence_opt (mkseq (fun i => div (nth junk lhs i) (nth junk rhs i)) dim)).

(* Arithmetic.hpp:58-63,144 vector / scalar: broadcast constructor, then plain std::divides *)
Definition vec_div_scalar (simd batched : bool) (n dim : nat) (lhs : seq T) (s : T)
    : option (seq T) :=
  let rhs := ctor_all junk zero batched n dim s in
  if simd then sequence_opt (mkseq (fun i => div (nth junk lhs i) (nth junk rhs i)) n)
  else omap (ctor_scalars junk zero n dim)
         (sequence_opt (mkseq (fun i => div (nth junk lhs i) (nth junk rhs i)) dim)).

(* Vector.hpp:290-300 perspective down-cast from dim+1 elements *)
Definition ctor_downcast (batched : bool) (n dim : nat) (rhs : seq T) : option (seq T) :=
  let v := ctor_pointer junk zero n dim rhs in
  let divisor := nth junk rhs dim in
  if batched then sequence_opt (map (fun x => div x divisor) v)
  else omap (fun d => d ++ drop dim v) (sequence_opt (map (fun x => div x divisor) (take dim v))).
End Division.

Section Reduce.
Variables (T : Type) (junk : T).

(* Result of xsimd::reduce_add / std::reduce: the order and bracketing of the operation is
   unspecified, so the model is a relation: any bracketing of any permutation of the lanes. *)
Inductive reduces_to (op : T -> T -> T) : seq T -> T -> Prop :=
| red_one x : reduces_to op [:: x] x
| red_app s1 s2 a b : reduces_to op s1 a -> reduces_to op s2 b -> reduces_to op (s1 ++ s2) (op a b)
| red_swap s1 s2 a : reduces_to op (s1 ++ s2) a -> reduces_to op (s2 ++ s1) a.

(* Math.hpp:143-153 Sum. The scalar branch is std::reduce with initial value T{}. *)
Definition sum_lanes (zero : T) (simd : bool) (dim : nat) (v : seq T) : seq T :=
  if simd then fill_masked junk dim v zero else zero :: take dim v.
Definition vec_sum (add : T -> T -> T) (zero : T) (simd : bool) (dim : nat) (v : seq T) (r : T) : Prop :=
  reduces_to add (sum_lanes zero simd dim v) r.

(* Math.hpp:46-56 Min, 60-70 Max: SIMD branch reduces the lanes with padding := lane 0;
   the scalar branch std::min_element / std::max_element returns the first extremum. *)
Fixpoint extremum (before : T -> T -> bool) (best : T) (s : seq T) : T :=
  match s with
  | [::] => best
  | x :: s' => extremum before (if before x best then x else best) s'
  end.
Definition vec_min (op : T -> T -> T) (ltb : T -> T -> bool) (simd : bool) (dim : nat) (v : seq T) (r : T) : Prop :=
  if simd then reduces_to op (fill_masked_with_first junk dim v) r
  else r = extremum ltb (nth junk v 0) (behead (take dim v)).
(* std::max_element keeps the first element that no later one exceeds *)
Definition vec_max (op : T -> T -> T) (ltb : T -> T -> bool) (simd : bool) (dim : nat) (v : seq T) (r : T) : Prop :=
  if simd then reduces_to op (fill_masked_with_first junk dim v) r
  else r = extremum (fun x y => ltb y x) (nth junk v 0) (behead (take dim v)).
End Reduce.

Section Compare.
Variables (T : Type) (eqb : T -> T -> bool).
(* Comparison.hpp:22-32: std::equal over begin()..end(), which span Dim elements
   (Vector.hpp:400-433) *)
Fixpoint std_equal (s t : seq T) : bool :=
  match s, t with
  | [::], [::] => true
  | x :: s', y :: t' => eqb x y && std_equal s' t'
  | _, _ => false
  end.
Definition vec_eq (dim : nat) (lhs rhs : seq T) : bool := std_equal (take dim lhs) (take dim rhs).
Definition vec_neq (dim : nat) (lhs rhs : seq T) : bool := ~~ vec_eq dim lhs rhs.
End Compare.
