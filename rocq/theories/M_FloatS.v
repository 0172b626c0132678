(* Floating point dot products and matrix products, Vector/Math.hpp, Matrix/Arithmetic.hpp. Formats, rounding and
   simplifications as in M_Float.v, reductions as in M_FloatN.v. *)
From Coq Require Import ZArith List.
From Flocq Require Import Core IEEE754.BinarySingleNaN.
From Verif Require Import M_Float M_FloatN.
Import ListNotations.

Section FloatS.
Variables prec emax : Z.
Context (prec_gt_0_ : Prec_gt_0 prec) (prec_lt_emax_ : Prec_lt_emax prec emax).
Notation float := (binary_float prec emax).
Notation fadd := (fadd prec emax prec_gt_0_ prec_lt_emax_).
Notation fmul := (fmul prec emax prec_gt_0_ prec_lt_emax_).
Notation ffma := (ffma prec emax prec_gt_0_ prec_lt_emax_).
Notation fsum := (fsum prec emax prec_gt_0_ prec_lt_emax_).

(* Vector/Math.hpp:177-180 Dot; Matrix/Arithmetic.hpp:50 Sum(lhs.Row(rowIdx) * rhs.Column(colIdx)). [pad]: padding lanes *)
Definition fdot (pad : nat) (lhs rhs : list float) (r : float) : Prop :=
  fsum pad (map (fun p => fmul (fst p) (snd p)) (combine lhs rhs)) r.
(* Common/Functional.hpp:34-58 madd: std::fma or xsimd::fma if [fused], otherwise a * b + c *)
Definition fmadd (fused : bool) (a b c : float) : float := if fused then ffma a b c else fadd (fmul a b) c.
(* One element of the products that accumulate over runIdx. Matrix/Arithmetic.hpp:30-33 (ROW_MAJOR x ROW_MAJOR), 67-70
   (COLUMN_MAJOR x any), 140-144 (vector x ROW_MAJOR): [lhs] is the row of the left, [rhs] the column of the right factor. A row
   is accumulated as a whole; its lanes are independent (theorem C01). *)
Definition frun (fused : bool) (lhs rhs : list float) : float :=
  match combine lhs rhs with
  | [] => fzero prec emax
  | p :: ps => fold_left (fun acc q => fmadd fused (fst q) (snd q) acc) ps (fmul (fst p) (snd p))
  end.
(* Matrix/Arithmetic.hpp:17-75, 185-192: element (i, j) of the product of a r x k and a k x c matrix, by the layouts of the
   factors ([rm]: ROW_MAJOR). Matrices are given by their elements; that the loops write each element once is theorem C21. *)
Definition row_of (k : nat) (A : nat -> nat -> float) (i : nat) : list float := map (fun l => A i l) (seq 0 k).
Definition column_of (k : nat) (B : nat -> nat -> float) (j : nat) : list float := map (fun l => B l j) (seq 0 k).
Definition fproduct (rm1 rm2 fused : bool) (pad k : nat) (A B : nat -> nat -> float) (i j : nat) (r : float) : Prop :=
  if (rm1 && negb rm2)%bool then fdot pad (row_of k A i) (column_of k B j) r
  else r = frun fused (row_of k A i) (column_of k B j).
(* Matrix/Arithmetic.hpp:136-161 vector x matrix: element j *)
Definition fvec_mat (rm fused : bool) (pad k : nat) (v : list float) (B : nat -> nat -> float) (j : nat) (r : float) : Prop :=
  if rm then r = frun fused v (column_of k B j) else fdot pad v (column_of k B j) r.
End FloatS.
