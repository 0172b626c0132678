(* Model of Vector/Math.hpp and the vector part of Common/Functional.hpp.
   A vector is the list of its Dim logical elements: theorems C01, C02 and C03 (Props_Simd.v) show that
   the storage-level operations act on exactly these elements, whatever the packing. *)
From mathcomp Require Import all_ssreflect all_algebra.
Set Implicit Arguments. Unset Strict Implicit. Unset Printing Implicit Defensive.
Import GRing.Theory Num.Theory.
Local Open Scope ring_scope.

Section Lanes.
Variables (T1 T2 T3 R : Type).
(* Vector/OperationUtil.hpp:66-180 at the level of logical elements *)
Definition vmap (f : T1 -> R) (a : seq T1) : seq R := [seq f x | x <- a].
Definition vmap2 (f : T1 -> T2 -> R) (a : seq T1) (b : seq T2) : seq R :=
  [seq f p.1 p.2 | p <- zip a b].
Definition vmap3 (f : T1 -> T2 -> T3 -> R) (a : seq T1) (b : seq T2) (c : seq T3) : seq R :=
  [seq f p.1.1 p.1.2 p.2 | p <- zip (zip a b) c].
End Lanes.

Section Ring.
Variable R : ringType.
(* Vector/Arithmetic.hpp:51-106 vector-vector operators *)
Definition vadd (a b : seq R) := vmap2 (fun x y => x + y) a b.
Definition vsub (a b : seq R) := vmap2 (fun x y => x - y) a b.
Definition vmul (a b : seq R) := vmap2 (fun x y => x * y) a b.
(* Vector/Arithmetic.hpp:109-176 vector-scalar operators: the scalar is broadcast *)
Definition vscale (a : seq R) (s : R) := [seq x * s | x <- a].
Definition vscalel (s : R) (a : seq R) := [seq s * x | x <- a].
(* Vector/Arithmetic.hpp:214-222 unary minus: arg * T(-1) *)
Definition vneg (a : seq R) := vscale a (- 1).
(* Vector/Arithmetic.hpp:239-248 FMA, element-wise std::fma: exact arithmetic *)
Definition vfma (a b c : seq R) := vmap3 (fun x y z => x * y + z) a b c.
(* Vector/Arithmetic.hpp:252-269 FMTA *)
Definition vfmta (a b c d : seq R) :=
  let w := vmul d c in
  let e := vfma d c (vneg w) in
  let f := vfma a b w in
  vadd f e.
(* Vector/Math.hpp:142-153 Sum (any order of summation: theorem C02_sum) *)
Definition vsum (a : seq R) : R := foldl (fun s x => s + x) 0 a.
(* Vector/Math.hpp:176-180 Dot; [conj] is the identity for real element types *)
Definition vdot (conj : R -> R) (a b : seq R) : R := vsum (vmul a (vmap conj b)).
(* Vector/Math.hpp:264-268 Fill *)
Definition vfill (lhs : seq R) (x : R) : seq R := nseq (size lhs) x.
(* Swizzle reads a.yzx etc., Vector/Swizzle.hpp (theorem C03) *)
Definition swz (a : seq R) (idx : seq nat) : seq R := [seq nth 0 a i | i <- idx].
(* Vector/Math.hpp:360-384 Cross, Dim == 2: (-y, x) ; Dim == 3 *)
Definition cross2 (a : seq R) : seq R := [:: - nth 0 a 1; nth 0 a 0].
Definition cross3 (a b : seq R) : seq R :=
  vfmta (swz a [:: 1; 2; 0]%N) (swz b [:: 2; 0; 1]%N)
        (vneg (swz a [:: 2; 0; 1]%N)) (swz b [:: 1; 2; 0]%N).
End Ring.

Section Order.
Variable R : realDomainType.
(* Common/Functional.hpp min/max = std::min/std::max: (b < a) ? b : a  and (a < b) ? b : a *)
Definition std_min (a b : R) := if b < a then b else a.
Definition std_max (a b : R) := if a < b then b else a.
(* Vector/Math.hpp:30-42 element-wise Min and Max *)
Definition vmin2 (a b : seq R) := vmap2 std_min a b.
Definition vmax2 (a b : seq R) := vmap2 std_max a b.
(* Vector/Math.hpp:73-78 Clamp, 81-85 Saturate *)
Definition vclamp (arg : seq R) (lower upper : R) : seq R :=
  vmin2 (vmax2 arg (nseq (size arg) lower)) (nseq (size arg) upper).
Definition vsaturate (arg : seq R) : seq R := vclamp arg 0 1.
(* Vector/Math.hpp:60-70 Max over elements (std::max_element, SIMD: theorem C02_max) *)
Definition vmaxelem (a : seq R) : R :=
  foldl (fun best x => if best < x then x else best) (head 0 a) (behead a).
(* Vector/Math.hpp:91-104 ScaleElements for real element types *)
Definition scale_elements (v : seq R) : R := vmaxelem (vmap (fun x => `|x|) v).
(* std::clamp(x, lo, hi) = x < lo ? lo : hi < x ? hi : x *)
Definition std_clamp (x lo hi : R) := if x < lo then lo else if hi < x then hi else x.
End Order.

Section Root.
Variable R : rcfType.
(* division; None = the divisor is zero (infinity or NaN in the code) *)
Definition sdiv (x y : R) : option R := if y == 0 then None else Some (x / y).
(* Vector/Arithmetic.hpp:131-134,151-155 vector / scalar *)
Definition vdivs (v : seq R) (s : R) : option (seq R) :=
  if s == 0 then None else Some [seq x / s | x <- v].
(* Vector/Math.hpp:190-194 LengthSquared, 197-201 Length *)
Definition length_squared (v : seq R) : R := vdot id v v.
Definition vlength (v : seq R) : R := Num.sqrt (length_squared v).
(* Vector/Math.hpp:204-213 LengthPrecise; [tmin] and [tmax] are
   std::numeric_limits<Real>::min() and max() *)
Definition length_precise (tmin tmax : R) (v : seq R) : option R :=
  let scale := std_clamp (scale_elements v) tmin tmax in
  if vdivs v scale is Some scaled then Some (vlength scaled * scale) else None.
(* Vector/Math.hpp:216-228 Distance, DistancePrecise *)
Definition vdistance (a b : seq R) : R := vlength (vsub a b).
Definition distance_precise (tmin tmax : R) (a b : seq R) := length_precise tmin tmax (vsub a b).
(* Vector/Math.hpp:231-238 Normalize; the assertion length != 0 is the None case *)
Definition vnormalize (v : seq R) : option (seq R) := vdivs v (vlength v).
(* Vector/Math.hpp:241-251 NormalizePrecise: a zero scale gives 0/0 = NaN in every lane, so the
   length is not finite and the fallback is returned *)
Definition normalize_precise_or (v degenerate : seq R) : seq R :=
  match vdivs v (scale_elements v) with
  | None => degenerate
  | Some scaled =>
      let length := vlength scaled in
      if length != 0 then [seq x / length | x <- scaled] else degenerate
  end.
(* Vector/Math.hpp:254-261 NormalizePrecise with the default fallback (1, 0, ..., 0) *)
Definition unit0 (dim : nat) : seq R := set_nth 0 (nseq dim 0) 0 1.
Definition normalize_precise (v : seq R) : seq R := normalize_precise_or v (unit0 (size v)).

(* Vector/Math.hpp:287-307 GramSchmidtOrthogonalize *)
Definition gs_proj (u v : seq R) : option (seq R) :=
  let uScaled := normalize_precise u in
  if sdiv (vdot id v uScaled) (vdot id u uScaled) is Some q then Some (vscalel q u) else None.
(* the inner loop over the previously written outputs *)
Fixpoint gs_inner (prev : seq (seq R)) (uk : seq R) : option (seq R) :=
  match prev with
  | [::] => Some uk
  | u :: prev' => if gs_proj u uk is Some p then gs_inner prev' (vsub uk p) else None
  end.
(* the outer loop: [done] are the outputs written so far *)
Fixpoint gs_outer (done vs : seq (seq R)) : option (seq (seq R)) :=
  match vs with
  | [::] => Some done
  | vk :: vs' => if gs_inner done vk is Some uk then gs_outer (rcons done uk) vs' else None
  end.
Definition gram_schmidt (vs : seq (seq R)) : option (seq (seq R)) := gs_outer [::] vs.
(* the same loop when the output iterator equals the input iterator: one array, element k is
   replaced after it has been orthogonalised against the elements before it *)
Fixpoint gs_in_place (fuel k : nat) (arr : seq (seq R)) : option (seq (seq R)) :=
  match fuel with
  | 0%N => Some arr
  | fuel'.+1 =>
      if gs_inner (take k arr) (nth [::] arr k) is Some uk
      then gs_in_place fuel' k.+1 (set_nth [::] arr k uk) else None
  end.
Definition gram_schmidt_in_place (vs : seq (seq R)) := gs_in_place (size vs) 0 vs.
End Root.
