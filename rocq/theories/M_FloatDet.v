(* Determinants and inverses of 2x2, 3x3 and 4x4 matrices in floating point, Matrix/Math.hpp. Formats, rounding and simplifications as
   in M_Float.v, reductions as in M_FloatN.v. Except in fdet2 the matrix is given by its stripes: [E s t] is element t of stripe s, so
   the elements of the matrix or of its transpose, depending on the layout. *)
From Coq Require Import ZArith List Arith.
From Flocq Require Import Core IEEE754.BinarySingleNaN.
From Verif Require Import M_Float M_FloatN M_FloatS M_FloatLU.
Import ListNotations.

Section FloatDet.
Variables prec emax : Z.
Context (prec_gt_0_ : Prec_gt_0 prec) (prec_lt_emax_ : Prec_lt_emax prec emax).
Notation float := (binary_float prec emax).
Notation fadd := (fadd prec emax prec_gt_0_ prec_lt_emax_).
Notation fsub := (fsub prec emax prec_gt_0_ prec_lt_emax_).
Notation fmul := (fmul prec emax prec_gt_0_ prec_lt_emax_).
Notation fdiv := (fdiv prec emax prec_gt_0_ prec_lt_emax_).
Notation fzero := (fzero prec emax).
Notation fone := (fone prec emax prec_gt_0_ prec_lt_emax_).
Notation fmat := (fmat prec emax).
Notation fsum := (fsum prec emax prec_gt_0_ prec_lt_emax_).
Definition fm1 : float := Bopp fone.

(* Matrix/Math.hpp:166-169 *)
Definition fdet2 (m : fmat) : float := fsub (fmul (m 0 0) (m 1 1)) (fmul (m 1 0) (m 0 1)).

(* swizzles of the stripes and the elementwise operators of vectors *)
Definition fsw (E : fmat) (s : nat) (idx : list nat) : list float := map (E s) idx.
Definition fvmul (v w : list float) : list float := map (fun p => fmul (fst p) (snd p)) (combine v w).
Definition fvsub (v w : list float) : list float := map (fun p => fsub (fst p) (snd p)) (combine v w).
Definition fvadd (v w : list float) : list float := map (fun p => fadd (fst p) (snd p)) (combine v w).

(* Matrix/Math.hpp:172-183; [pad]: padding of the vectors of three elements *)
Definition fdet3_lanes (E : fmat) : list float :=
  fvmul (fsw E 0 [2; 1; 0]) (fvsub (fvmul (fsw E 1 [0; 2; 1]) (fsw E 2 [1; 0; 2])) (fvmul (fsw E 1 [1; 0; 2]) (fsw E 2 [0; 2; 1]))).
Definition fdet3 (pad : nat) (E : fmat) (r : float) : Prop := fsum pad (fdet3_lanes E) r.

(* Matrix/Math.hpp:186-228 *)
Definition feven_pair : list float := [fone; fm1; fm1; fone].
Definition fodd_pair : list float := [fm1; fone; fone; fm1].
Definition fdet4_lanes1 (E : fmat) := fvmul feven_pair (fvmul (fvmul (fvmul (fsw E 0 [1; 1; 0; 0]) (fsw E 1 [3; 2; 3; 2])) (fsw E 2 [2; 3; 2; 3])) (fsw E 3 [0; 0; 1; 1])).
Definition fdet4_lanes2 (E : fmat) := fvmul fodd_pair (fvmul (fvmul (fvmul (fsw E 0 [1; 0; 1; 0]) (fsw E 1 [3; 3; 0; 1])) (fsw E 2 [0; 1; 3; 3])) (fsw E 3 [2; 2; 2; 2])).
Definition fdet4_lanes3 (E : fmat) := fvmul feven_pair (fvmul (fvmul (fvmul (fsw E 0 [1; 0; 1; 0]) (fsw E 1 [2; 2; 0; 1])) (fsw E 2 [0; 1; 2; 2])) (fsw E 3 [3; 3; 3; 3])).
Definition fdet4_lanes4 (E : fmat) := fvmul (fsw E 1 [2; 1; 0]) (fvsub (fvmul (fsw E 2 [1; 0; 2]) (fsw E 3 [0; 2; 1])) (fvmul (fsw E 2 [0; 2; 1]) (fsw E 3 [1; 0; 2]))).
Definition fdet4_lanes5 (E : fmat) := fvmul (fsw E 1 [3; 1; 0]) (fvsub (fvmul (fsw E 2 [0; 3; 1]) (fsw E 3 [1; 0; 3])) (fvmul (fsw E 2 [1; 0; 3]) (fsw E 3 [0; 3; 1]))).
Definition fdet4 (pad : nat) (E : fmat) (r : float) : Prop :=
  exists s1 s2 s3 s4 s5, fsum 0 (fdet4_lanes1 E) s1 /\ fsum 0 (fdet4_lanes2 E) s2 /\ fsum 0 (fdet4_lanes3 E) s3 /\
    fsum pad (fdet4_lanes4 E) s4 /\ fsum pad (fdet4_lanes5 E) s5 /\
    r = fadd (fadd (fadd (fadd s1 s2) s3) (fmul (E 0 3) s4)) (fmul (E 0 2) s5).

(* Matrix/Math.hpp:297-311; [det]: the determinant computed, [X]: the stripes of the result *)
Definition fcof2 (E : fmat) : fmat := fun s t => match s, t with 0, 0 => E 1 1 | 0, _ => Bopp (E 0 1) | _, 0 => Bopp (E 1 0) | _, _ => E 0 0 end.
Definition finverse2 (E : fmat) (det : float) (X : fmat) : Prop :=
  det = fsub (fmul (E 0 0) (E 1 1)) (fmul (E 0 1) (E 1 0)) /\ X = fun s t => fdiv (fcof2 E s t) det.
(* Matrix/Math.hpp:315-347: stripe s of the result is { c0[s], c1[s], c2[s] } *)
Definition fcof3 (E : fmat) : fmat := fun s t =>
  let r0_zxy := fsw E 0 [2; 0; 1] in let r0_yzx := fsw E 0 [1; 2; 0] in
  let r1_zxy := fsw E 1 [2; 0; 1] in let r1_yzx := fsw E 1 [1; 2; 0] in
  let r2_zxy := fsw E 2 [2; 0; 1] in let r2_yzx := fsw E 2 [1; 2; 0] in
  nth s (match t with
  | 0 => fvsub (fvmul r1_yzx r2_zxy) (fvmul r1_zxy r2_yzx)
  | 1 => fvsub (fvmul r0_zxy r2_yzx) (fvmul r0_yzx r2_zxy)
  | _ => fvsub (fvmul r0_yzx r1_zxy) (fvmul r0_zxy r1_yzx)
  end) fzero.
Definition finverse3 (pad : nat) (E : fmat) (det : float) (X : fmat) : Prop := fdet3 pad E det /\ X = fun s t => fdiv (fcof3 E s t) det.
(* Matrix/Math.hpp:351-436 *)
Definition feven : list float := [fone; fm1; fone; fm1].
Definition fodd : list float := [fm1; fone; fm1; fone].
Definition fcof4 (E : fmat) : fmat := fun s t =>
  let w i := fsw E i [3; 3; 3; 2] in let y i := fsw E i [1; 0; 0; 0] in let z i := fsw E i [2; 2; 1; 1] in
  let w0y1 := fvmul (w 0) (y 1) in let w0z1 := fvmul (w 0) (z 1) in let y0w1 := fvmul (y 0) (w 1) in
  let y0z1 := fvmul (y 0) (z 1) in let z0w1 := fvmul (z 0) (w 1) in let z0y1 := fvmul (z 0) (y 1) in
  let w2y3 := fvmul (w 2) (y 3) in let w2z3 := fvmul (w 2) (z 3) in let y2w3 := fvmul (y 2) (w 3) in
  let y2z3 := fvmul (y 2) (z 3) in let z2w3 := fvmul (z 2) (w 3) in let z2y3 := fvmul (z 2) (y 3) in
  nth s (match t with
  | 0 => fvmul fodd (fvsub (fvadd (fvadd (fvsub (fvsub (fvmul (w 1) z2y3) (fvmul (z 1) w2y3)) (fvmul (w 1) y2z3)) (fvmul (y 1) w2z3)) (fvmul (z 1) y2w3)) (fvmul (y 1) z2w3))
  | 1 => fvmul feven (fvsub (fvadd (fvadd (fvsub (fvsub (fvmul (w 0) z2y3) (fvmul (z 0) w2y3)) (fvmul (w 0) y2z3)) (fvmul (y 0) w2z3)) (fvmul (z 0) y2w3)) (fvmul (y 0) z2w3))
  | 2 => fvmul fodd (fvsub (fvadd (fvadd (fvsub (fvsub (fvmul w0z1 (y 3)) (fvmul z0w1 (y 3))) (fvmul w0y1 (z 3))) (fvmul y0w1 (z 3))) (fvmul z0y1 (w 3))) (fvmul y0z1 (w 3)))
  | _ => fvmul feven (fvsub (fvadd (fvadd (fvsub (fvsub (fvmul w0z1 (y 2)) (fvmul z0w1 (y 2))) (fvmul w0y1 (z 2))) (fvmul y0w1 (z 2))) (fvmul z0y1 (w 2))) (fvmul y0z1 (w 2)))
  end) fzero.
Definition finverse4 (pad : nat) (E : fmat) (det : float) (X : fmat) : Prop := fdet4 pad E det /\ X = fun s t => fdiv (fcof4 E s t) det.
End FloatDet.
