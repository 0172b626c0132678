(* Abstraction functions used in theorem statements: from the library's element lists to mathcomp
   row vectors and matrices. Nothing here is used by the model (M_*.v). *)
From mathcomp Require Import all_ssreflect all_algebra.
From Verif Require Import M_Mat.
Set Implicit Arguments. Unset Strict Implicit. Unset Printing Implicit Defensive.
Import GRing.Theory.
Local Open Scope ring_scope.

(* the row vector with the elements of the list *)
Definition rv (F : ringType) (n : nat) (v : seq F) : 'rV[F]_n := \row_i nth 0 v i.



(* the r x c mathematical matrix held by a matrix object *)
Definition mxof (F : ringType) (r c : nat) (A : mat F) : 'M[F]_(r, c) := \matrix_(i, j) get A i j.

(* a matrix object of shape r x c: the right number of stripes, each of the right length *)
Definition wf (T : Type) (r c : nat) (A : mat T) : bool :=
  (size (stripes A) == if rowmaj A then r else c) &&
  all (fun s => size s == if rowmaj A then c else r) (stripes A).
