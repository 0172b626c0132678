(* Floating point algorithms of Common/MathUtil.hpp, Vector/Math.hpp and Vector/Arithmetic.hpp, on IEEE-754 binary formats of any
   precision and range (float, double, the x87 and quadruple long double), rounding to nearest even. NaN payloads,
   contraction of expressions by the compiler and excess precision (FLT_EVAL_METHOD) are not modelled. All arguments have the
   same scalar type. *)
From Coq Require Import ZArith List.
From Flocq Require Import Core IEEE754.BinarySingleNaN.
Import ListNotations.

Section Float.
Variables prec emax : Z.
Context (prec_gt_0_ : Prec_gt_0 prec) (prec_lt_emax_ : Prec_lt_emax prec emax).
Notation float := (binary_float prec emax).

Definition fadd (x y : float) : float := Bplus mode_NE x y.
Definition fsub (x y : float) : float := Bminus mode_NE x y.
Definition fmul (x y : float) : float := Bmult mode_NE x y.
Definition fdiv (x y : float) : float := Bdiv mode_NE x y.
(* Common/Functional.hpp:74-84 fma of floating point types: std::fma *)
Definition ffma (x y z : float) : float := Bfma mode_NE x y z.
(* T(0), T(1) *)
Definition fzero : float := B754_zero false.
Definition fone : float := Bone.
Definition fabs (x : float) : float := Babs x.
(* x > y *)
Definition fgt (x y : float) : bool := match Bcompare x y with Some Gt => true | _ => false end.

(* Common/MathUtil.hpp:16-22 Fast2Sum *)
Definition fast2sum (a b : float) : float * float :=
  let s := fadd a b in
  let z := fsub s a in
  let c := fsub b z in
  (s, c).

(* Vector/Math.hpp:161-170: the body of the loop of SumCompensated *)
Definition sum_step (acc : float * float) (element : float) : float * float :=
  let '(sum, compensation) := acc in
  let t := fadd sum element in
  let compensation := if fgt (fabs sum) (fabs element)
    then fadd compensation (fadd (fsub sum t) element)
    else fadd compensation (fadd (fsub element t) sum) in
  (t, compensation).
(* Vector/Math.hpp:156-173 SumCompensated of the elements of a vector *)
Definition sum_compensated (v : list float) : float * float :=
  let '(sum, compensation) := fold_left sum_step v (fzero, fzero) in
  fast2sum sum compensation.
(* Vector/Math.hpp:183-187 DotCompensated; conj of a real number is the number *)
Definition dot_compensated (lhs rhs : list float) : float * float :=
  sum_compensated (map (fun p => fmul (fst p) (snd p)) (combine lhs rhs)).

(* The same for complex elements: T = std::complex, + and - by parts; [abs_gt]: std::abs(sum) > std::abs(element) *)
Definition cadd (x y : float * float) := (fadd (fst x) (fst y), fadd (snd x) (snd y)).
Definition csub (x y : float * float) := (fsub (fst x) (fst y), fsub (snd x) (snd y)).
Definition csum_step (abs_gt : float * float -> float * float -> bool) (acc : (float * float) * (float * float)) (element : float * float) :=
  let '(sum, compensation) := acc in
  let t := cadd sum element in
  let compensation := if abs_gt sum element
    then cadd compensation (cadd (csub sum t) element)
    else cadd compensation (cadd (csub element t) sum) in
  (t, compensation).
Definition cfast2sum (a b : float * float) :=
  let s := cadd a b in
  let z := csub s a in
  let c := csub b z in
  (s, c).
Definition csum_compensated abs_gt (v : list (float * float)) :=
  let '(sum, compensation) := fold_left (csum_step abs_gt) v ((fzero, fzero), (fzero, fzero)) in
  cfast2sum sum compensation.

(* Vector/Arithmetic.hpp:213-217 unary minus of one element: arg * -T(1) *)
Definition fneg (x : float) : float := fmul x (Bopp fone).
(* Vector/Arithmetic.hpp:251-269 FMTA, one element *)
Definition ffmta (a b c d : float) : float :=
  let w := fmul d c in
  let e := ffma d c (fneg w) in
  let f := ffma a b w in
  fadd f e.
(* Vector/Math.hpp:368-380 Cross in three dimensions *)
Definition fcross (a b : float * float * float) : float * float * float :=
  let '(ax, ay, az) := a in
  let '(bx, by_, bz) := b in
  (ffmta ay bz (fneg az) by_, ffmta az bx (fneg ax) bz, ffmta ax by_ (fneg ay) bx).
End Float.
