(* Floating point solvers of triangular systems (Matrix/Algorithm.hpp) and the LU and LUP decompositions
   (Decompositions/DecomposeLU.hpp) of real matrices. Formats, rounding and simplifications as in M_Float.v. Matrices are given by
   their elements: a function of the row and the column; an assignment of a row or an element is an update of the function. Copies to
   another layout do not change elements (theorem C01) and are left out. [fused]: the compiler contracts a - x * y to a fused
   operation, in all places or in none. *)
From Coq Require Import ZArith List Arith.
From Flocq Require Import Core IEEE754.BinarySingleNaN.
From Verif Require Import M_Float M_FloatN.
Import ListNotations.

Section FloatLU.
Variables prec emax : Z.
Context (prec_gt_0_ : Prec_gt_0 prec) (prec_lt_emax_ : Prec_lt_emax prec emax).
Notation float := (binary_float prec emax).
Notation fsub := (fsub prec emax prec_gt_0_ prec_lt_emax_).
Notation fmul := (fmul prec emax prec_gt_0_ prec_lt_emax_).
Notation fdiv := (fdiv prec emax prec_gt_0_ prec_lt_emax_).
Notation ffma := (ffma prec emax prec_gt_0_ prec_lt_emax_).
Notation fzero := (fzero prec emax).
Notation fone := (fone prec emax prec_gt_0_ prec_lt_emax_).
Notation flt := (flt prec emax).
Notation fneq := (fneq prec emax).
Notation fabs := (fabs prec emax).

Definition fmat := nat -> nat -> float.
(* m.Row(t, v), m.Column(t, v), m(i, j) = x *)
Definition fset_row (A : fmat) (t : nat) (v : nat -> float) : fmat := fun i j => if Nat.eqb i t then v j else A i j.
Definition fset_col (A : fmat) (t : nat) (v : nat -> float) : fmat := fun i j => if Nat.eqb j t then v i else A i j.
Definition fset (A : fmat) (r c : nat) (x : float) : fmat := fun i j => if (Nat.eqb i r && Nat.eqb j c)%bool then x else A i j.
Definition ftranspose (A : fmat) : fmat := fun i j => A j i.
(* Transforms/IdentityBuilder.hpp:19-26 *)
Definition fidentity : fmat := fun i j => if Nat.eqb i j then fone else fzero.

Variable fused : bool.
(* one element of target - multiplier * row *)
Definition fmsub (a x y : float) : float := if fused then ffma (Bopp x) y a else fsub a (fmul x y).

(* Algorithm.hpp:21-36 and 49-64: the body of the loop over rowIdx = r. [targets] are the values of targetIdx in the order of the
   inner loop *)
Definition ftri_step (targets : list nat) (r : nat) (st : fmat * fmat) : fmat * fmat :=
  let '(A, b) := st in
  let leading := A r r in
  let rowA := fun j => fdiv (A r j) leading in
  let rowB := fun j => fdiv (b r j) leading in
  fold_left (fun st t =>
      let '(A, b) := st in
      let targetA := A t in
      let targetB := b t in
      let multiplier := targetA r in
      (fset_row A t (fun j => fmsub (targetA j) multiplier (rowA j)),
       fset_row b t (fun j => fmsub (targetB j) multiplier (rowB j))))
    targets (fset_row A r rowA, fset_row b r rowB).
(* Algorithm.hpp:14-40 SolveUpperTriangular, 43-68 SolveLowerTriangular, PRECEDE_VECTOR *)
Definition fsolve_upper (n : nat) (A b : fmat) : fmat :=
  snd (fold_left (fun st r => ftri_step (rev (seq 0 r)) r st) (rev (seq 0 n)) (A, b)).
Definition fsolve_lower (n : nat) (A b : fmat) : fmat :=
  snd (fold_left (fun st r => ftri_step (seq (S r) (n - S r)) r st) (seq 0 n) (A, b)).
(* Algorithm.hpp:71-83 the FOLLOW_VECTOR versions *)
Definition fsolve_upper_follow (n : nat) (A b : fmat) : fmat := ftranspose (fsolve_lower n (ftranspose A) (ftranspose b)).
Definition fsolve_lower_follow (n : nat) (A b : fmat) : fmat := ftranspose (fsolve_upper n (ftranspose A) (ftranspose b)).

(* DecomposeLU.hpp:217-223 and 256-262: zero out row i of column k; state L, U *)
Definition flu_row (k : nat) (pivotRow : nat -> float) (st : fmat * fmat) (i : nat) : fmat * fmat :=
  let '(L, U) := st in
  let scale := fdiv (U i k) (pivotRow k) in
  (fset L i k scale, fset (fset_row U i (fun j => fmsub (U i j) (pivotRow j) scale)) i k fzero).
Definition flu_rows (n k : nat) (pivotRow : nat -> float) (st : fmat * fmat) : fmat * fmat :=
  fold_left (flu_row k pivotRow) (seq (S k) (n - S k)) st.
(* DecomposeLU.hpp:206-227 DecomposeLU *)
Definition fdecompose_lu (n : nat) (A : fmat) : fmat * fmat :=
  fold_left (fun st k => flu_rows n k (snd st k) st) (seq 0 (n - 1)) (fidentity, A).

(* DecomposeLU.hpp:242-244: std::max_element of the absolute values of the column from row k on: the first largest one *)
Definition fmax_element (n k : nat) (v : nat -> float) : nat :=
  fold_left (fun best i => if flt (v best) (v i) then i else best) (seq (S k) (n - S k)) k.
(* std::swap(L(p, i), L(k, i)) *)
Definition fswap (p k : nat) (L : fmat) (i : nat) : fmat := fset (fset L p i (L k i)) k i (L p i).
(* std::swap(P[p], P[k]) *)
Definition swap_perm (p k : nat) (P : nat -> nat) : nat -> nat :=
  fun i => if Nat.eqb i k then P p else if Nat.eqb i p then P k else P i.
(* DecomposeLU.hpp:241-264: the body of the loop over zeroedColIdx = k; state L, U, P *)
Definition flup_step (n : nat) (st : (fmat * fmat) * (nat -> nat)) (k : nat) : (fmat * fmat) * (nat -> nat) :=
  let '((L, U), P) := st in
  let p := fmax_element n k (fun i => fabs (U i k)) in
  let pivotRow := U p in
  if fneq (pivotRow k) fzero then
    let U1 := fset_row U p (U k) in
    let U2 := fset_row U1 k pivotRow in
    let L1 := fold_left (fswap p k) (seq 0 k) L in
    (flu_rows n k pivotRow (L1, U2), swap_perm p k P)
  else st.
(* DecomposeLU.hpp:230-270 DecomposeLUP *)
Definition fdecompose_lup (n : nat) (A : fmat) : (fmat * fmat) * (nat -> nat) :=
  fold_left (flup_step n) (seq 0 (n - 1)) ((fidentity, A), fun i => i).

(* DecomposeLU.hpp:46-61 DecompositionLU::Solve(Matrix), for both orders. Solve(Vector), 64-72, is the case of one column (row) *)
Definition flu_solve (n : nat) (d : fmat * fmat) (b : fmat) : fmat := fsolve_upper n (snd d) (fsolve_lower n (fst d) b).
Definition flu_solve_follow (n : nat) (d : fmat * fmat) (b : fmat) : fmat :=
  fsolve_lower_follow n (fst d) (fsolve_upper_follow n (snd d) b).
(* DecomposeLU.hpp:172-187 InversePermute for FOLLOW_VECTOR, 190-205 Permute for PRECEDE_VECTOR. [junk]: the uninitialized matrix *)
Definition finverse_permute_follow (junk : fmat) (n : nat) (P : nat -> nat) (b : fmat) : fmat :=
  fold_left (fun B i => fset_col B (P i) (fun r => b r i)) (seq 0 n) junk.
Definition fpermute (junk : fmat) (n : nat) (P : nat -> nat) (b : fmat) : fmat :=
  fold_left (fun B i => fset_row B i (b (P i))) (seq 0 n) junk.
(* DecomposeLU.hpp:127-136 DecompositionLUP::Solve(Matrix) *)
Definition flup_solve (junk : fmat) (n : nat) (d : (fmat * fmat) * (nat -> nat)) (b : fmat) : fmat :=
  flu_solve n (fst d) (fpermute junk n (snd d) b).
Definition flup_solve_follow (junk : fmat) (n : nat) (d : (fmat * fmat) * (nat -> nat)) (b : fmat) : fmat :=
  finverse_permute_follow junk n (snd d) (flu_solve_follow n (fst d) b).
(* DecomposeLU.hpp:150-153 DecompositionLUP::Inverse, Matrix/Math.hpp:444-450 Inverse of matrices of general size *)
Definition finverse (junk : fmat) (n : nat) (A : fmat) : fmat := flup_solve junk n (fdecompose_lup n A) fidentity.
Definition finverse_follow (junk : fmat) (n : nat) (A : fmat) : fmat := flup_solve_follow junk n (fdecompose_lup n A) fidentity.
End FloatLU.
