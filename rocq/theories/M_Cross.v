(* Model of the generalized cross product, Vector/Math.hpp:319-389. *)
From mathcomp Require Import all_ssreflect all_algebra.
From Verif Require Import M_Vec M_Mat.
Set Implicit Arguments. Unset Strict Implicit. Unset Printing Implicit Defensive.
Import GRing.Theory.
Local Open Scope ring_scope.

Section Cross.
Variable F : fieldType.

(* Vector/Math.hpp:336-348: fill the sub-matrix for base vector [idx]: the columns j < idx, then the
   columns j > idx shifted by one. [vs] are the first Dim - 1 arguments. *)
Definition cross_fill (dim idx : nat) (vs : seq (seq F)) (D : mat F) : mat F :=
  let D1 := for_loop 0 idx (fun j D => for_loop 0 dim.-1 (fun i D =>
      set D i j (nth 0 (nth [::] vs i) j)) D) D in
  for_loop idx.+1 dim (fun j D => for_loop 0 dim.-1 (fun i D =>
      set D i j.-1 (nth 0 (nth [::] vs i) j)) D) D1.

(* Vector/Math.hpp:323-352 CrossND: detCalc (COLUMN_MAJOR) lives across the loop over idx, the sign
   starts at 2 * (Dim % 2) - 1 and alternates. State: result, detCalc, sign. None: throws, too few
   arguments (lines 331-333). *)
Definition crossND (jk : F) (dim : nat) (args : seq (seq F)) : option (seq F) :=
  if (size args < dim.-1)%N then None
  else
    let vs := take dim.-1 args in
    let: (result, _, _) := for_loop 0 dim (fun idx st =>
        let: (result, D, sign) := st in
        let D' := cross_fill dim idx vs D in
        (set_nth 0 result idx (sign * determinant dim.-1 D'), D', sign * -1))
      (nseq dim jk, uninit false jk dim.-1 dim.-1, (dim %% 2)%:R *+ 2 - 1) in
    Some result.

(* Vector/Math.hpp:359-389 Cross(first, last): dispatch on the dimension *)
Definition cross (jk : F) (dim : nat) (args : seq (seq F)) : option (seq F) :=
  if dim == 2%N then if args is a :: _ then Some (cross2 a) else None
  else if dim == 3%N then if args is a :: b :: _ then Some (cross3 a b) else None
  else crossND jk dim args.
End Cross.
