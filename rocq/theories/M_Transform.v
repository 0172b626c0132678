(* Model of Transforms/*Builder.hpp. Every builder is a value with conversion operators to matrices of
   several shapes; here it is a function of the target: [follow] is the order (true = FOLLOW_VECTOR),
   [rm] the layout, r x c the shape, [jk] the content of uninitialised memory. [cosf], [sinf], [tanf] are the
   functions std::cos, std::sin, std::tan of the element type; they are instantiated with the functions of
   Coq's real numbers in Props_Trig.v. Conversions between scalar types are not modelled. *)
From mathcomp Require Import all_ssreflect all_algebra.
From Verif Require Import M_Vec M_Mat M_Cross M_Quat.
Set Implicit Arguments. Unset Strict Implicit. Unset Printing Implicit Defensive.
Import GRing.Theory Num.Theory.
Local Open Scope ring_scope.

Section Ring.
Variable R : ringType.
Implicit Types (m : mat R) (v : seq R).

(* ZeroBuilder.hpp:22-30 matrix, 32-35 vector, 37-40 quaternion *)
Definition zero_mat (rm : bool) (jk : R) (r c : nat) : mat R :=
  Mat rm jk [seq nseq (stripe_dim rm r c) 0 | _ <- stripes (uninit rm jk r c)].
Definition zero_vec (dim : nat) : seq R := nseq dim 0.
Definition zero_quat (jk : R) (sf : bool) : quat R := of_elements jk sf 0 0 0 0.
(* IdentityBuilder.hpp:19-26, 28-31 *)
Definition identity (rm : bool) (jk : R) (r c : nat) : mat R :=
  for_loop 0 (minn r c) (fun i m => set m i i 1) (zero_mat rm jk r c).
Definition identity_quat (jk : R) (sf : bool) : quat R := of_elements jk sf 1 0 0 0.
(* ScaleBuilder.hpp:54-64 *)
Definition scale (rm : bool) (jk : R) (r c : nat) v : mat R :=
  let m := for_loop 0 (size v) (fun i m => set m i i (nth 0 v i)) (zero_mat rm jk r c) in
  for_loop (size v) (minn r c) (fun i m => set m i i 1) m.
(* TranslationBuilder.hpp:47-60 *)
Definition translation (follow rm : bool) (jk : R) (r c : nat) v : mat R :=
  let m := identity rm jk r c in
  if follow then for_loop 0 (size v) (fun i m => set m r.-1 i (nth 0 v i)) m
  else for_loop 0 (size v) (fun i m => set m i c.-1 (nth 0 v i)) m.
(* ShearBuilder.hpp:39-57 *)
Definition shear_aligned (follow rm : bool) (jk : R) (r c : nat) (slope : R) (dir mod : nat) : mat R :=
  let m := identity rm jk r c in
  if follow then set m mod dir slope else set m dir mod slope.
(* conversion of a PRECEDE_VECTOR matrix to the target order (Matrix.hpp:385-426) *)
Definition from_precede (follow rm : bool) (d : nat) m : mat R :=
  if follow then convert_order rm d d m else convert rm d d m.
(* ShearBuilder.hpp:17-30 *)
Definition shear (follow rm : bool) (jk : R) (r c : nat) (slope : R) (dir mod : seq R) : mat R :=
  let n := size dir in
  let d := ctor_vector rm jk n 1 dir in
  let mT := ctor_vector rm jk 1 n mod in
  let s := mat_add n n (identity rm jk n n) (mat_mul n 1 n (mat_scalel n 1 slope d) mT) in
  insert n n 0 0 (from_precede follow rm n s) (identity rm jk r c).

(* elem(i, j) of the rotation builders: indices according to FOLLOW_VECTOR *)
Definition felem_set (follow : bool) m (i j : nat) (x : R) : mat R := if follow then set m i j x else set m j i x.

Section Trig.
Variables cosf sinf : R -> R.
(* Rotation2DBuilder.hpp:53-69 *)
Definition rotation2d (follow rm : bool) (jk : R) (r c : nat) (angle : R) : mat R :=
  let m := identity rm jk r c in
  let C := cosf angle in
  let S := sinf angle in
  let m := felem_set follow m 0 0 C in
  let m := felem_set follow m 0 1 S in
  let m := felem_set follow m 1 0 (- S) in
  felem_set follow m 1 1 C.
(* Rotation3DBuilder.hpp:23-59 *)
Definition rotation_axis (follow rm : bool) (jk : R) (r c : nat) (angle : R) (axis : nat) : mat R :=
  let m := identity rm jk r c in
  let co := cosf angle in
  let s := sinf angle in
  if axis == 0%N then
    let m := felem_set follow m 1 1 co in
    let m := felem_set follow m 1 2 s in
    let m := felem_set follow m 2 1 (- s) in
    felem_set follow m 2 2 co
  else if axis == 1%N then
    let m := felem_set follow m 0 0 co in
    let m := felem_set follow m 0 2 (- s) in
    let m := felem_set follow m 2 0 s in
    felem_set follow m 2 2 co
  else
    let m := felem_set follow m 0 0 co in
    let m := felem_set follow m 0 1 s in
    let m := felem_set follow m 1 0 (- s) in
    felem_set follow m 1 1 co.
(* Rotation3DBuilder.hpp:62-83 *)
Definition rotation_axis_angle (follow rm : bool) (jk : R) (r c : nat) (axis : seq R) (angle : R) : mat R :=
  let co := cosf angle in
  let s := sinf angle in
  let u := ctor_vector rm jk 3 1 axis in
  let uT := ctor_vector rm jk 1 3 axis in
  let x := nth 0 axis 0 in let y := nth 0 axis 1 in let z := nth 0 axis 2 in
  let cross := ctor_elems rm jk 3 3 [:: 0; - z; y; z; 0; - x; - y; x; 0] in
  let ro := mat_add 3 3 (mat_add 3 3 (mat_scalel 3 3 co (identity rm jk 3 3)) (mat_scalel 3 3 s cross))
    (mat_mul 3 1 3 (mat_scalel 3 1 (1 - co) u) uT) in
  insert 3 3 0 0 (from_precede follow rm 3 ro) (identity rm jk r c).
(* 174-183 *)
Definition rotation_tri (follow rm : bool) (jk : R) (r c : nat) (a0 a1 a2 : R) (x0 x1 x2 : nat) : mat R :=
  let r0 := rotation_axis follow rm jk 3 3 a0 x0 in
  let r1 := rotation_axis follow rm jk 3 3 a1 x1 in
  let r2 := rotation_axis follow rm jk 3 3 a2 x2 in
  let ro := if follow then mat_mul 3 3 3 (mat_mul 3 3 3 r0 r1) r2 else mat_mul 3 3 3 (mat_mul 3 3 3 r2 r1) r0 in
  insert 3 3 0 0 ro (identity rm jk r c).
(* 254-272, 290-292, 301-303 *)
Definition rotation_x follow rm jk r c a := rotation_axis follow rm jk r c a 0.
Definition rotation_y follow rm jk r c a := rotation_axis follow rm jk r c a 1.
Definition rotation_z follow rm jk r c a := rotation_axis follow rm jk r c a 2.
Definition rotation_euler follow rm jk r c z1 x2 z3 := rotation_tri follow rm jk r c z1 x2 z3 2 0 2.
Definition rotation_rpy follow rm jk r c x1 y2 z3 := rotation_tri follow rm jk r c x1 y2 z3 0 1 2.
End Trig.
End Ring.

Section Field.
Variable F : fieldType.
Implicit Types (m : mat F) (v : seq F).

(* Matrix/Arithmetic.hpp:163-176, 295-363: the operator* that a product of a point of dimension d and an r x c
   matrix selects; [follow]: point * matrix, otherwise matrix * point *)
Definition transform (follow : bool) (d r c : nat) m v : option (seq F) :=
  if follow then
    if (r == d) && (c == d) then Some (vec_mat d d v m)
    else if (r == d.+1) && (c == d) then Some (vec_mat_affine d.+1 v m)
    else if (r == d.+1) && (c == d.+1) then vec_mat_homogeneous d.+1 v m
    else None
  else
    if (r == d) && (c == d) then Some (mat_vec d d m v)
    else if (r == d) && (c == d.+1) then Some (mat_vec_affine d.+1 m v)
    else if (r == d.+1) && (c == d.+1) then mat_vec_homogeneous d.+1 m v
    else None.

Section Trig.
Variables cosf sinf : F -> F.
(* Rotation3DBuilder.hpp:86-92 *)
Definition rotation_quat (jk : F) (sf : bool) (axis : seq F) (angle : F) : quat F :=
  of_scalar_vector jk sf (cosf (angle / 2%:R)) (vscalel (sinf (angle / 2%:R)) axis).
(* 120-125 *)
Definition rotation_axis_quat (jk : F) (sf : bool) (angle : F) (axis : nat) : quat F :=
  rotation_quat jk sf (set_nth 0 (zero_vec F 3) axis 1) angle.
(* 159-171 *)
Definition rotation_tri_quat (jk : F) (sf : bool) (a0 a1 a2 : F) (x0 x1 x2 : nat) : quat F :=
  let r0 := rotation_quat jk sf (set_nth 0 (zero_vec F 3) x0 1) a0 in
  let r1 := rotation_quat jk sf (set_nth 0 (zero_vec F 3) x1 1) a1 in
  let r2 := rotation_quat jk sf (set_nth 0 (zero_vec F 3) x2 1) a2 in
  qmul jk (qmul jk r2 r1) r0.
End Trig.

(* scalar / vector; None: a zero divisor *)
Definition sdivv (s : F) v : option (seq F) := if 0 \in v then None else Some [seq s / x | x <- v].
(* OrthographicBuilder.hpp:49-62 *)
Definition orthographic (follow rm : bool) (jk : F) (r c : nat) (minB maxB : seq F) (pn pf : F) : option (mat F) :=
  let d := size minB in
  let volume := vsub maxB minB in
  if sdivv 2%:R volume is Some sc then
    let sc := set_nth 0 sc d.-1 (nth 0 sc d.-1 * (2%:R^-1 * (pf - pn))) in
    let off := vmul [seq x / 2%:R | x <- vneg (vadd maxB minB)] sc in
    let off := set_nth 0 off d.-1 (nth 0 off d.-1 + (pf + pn) / 2%:R) in
    Some (for_loop 0 d (fun i m =>
      let m := set m i i (nth 0 sc i) in
      if follow then set m d i (nth 0 off i) else set m i d (nth 0 off i)) (identity rm jk r c))
  else None.
End Field.

Section Real.
Variable F : realFieldType.
Variable tanf : F -> F.
Implicit Types (m : mat F) (v : seq F).

(* PerspectiveBuilder.hpp:34-66; target (Dim + 1) x (Dim + 1), Dim - 1 ratios. None: a zero divisor *)
Definition perspective (follow rm : bool) (jk : F) (fovX : F) (ratios : seq F) (N0 F0 n f : F) : option (mat F) :=
  let dim := (size ratios).+2 in
  let m := zero_mat rm jk dim dim in
  let absFovX := `|fovX| in
  let C := if N0 < 0 then -1 else 1 in
  if F0 - N0 == 0 then None else
  let A := C * (f * F0 - n * N0) / (F0 - N0) in
  let B := C * F0 * N0 * (n - f) / (F0 - N0) in
  if sdivv (nth 0 ratios 0) ratios is Some adj then
    let w := tanf (2%:R^-1 * absFovX) in
    if w == 0 then None else
    let adj := [seq x / w | x <- adj] in
    let m := for_loop 0 (size adj) (fun i m => set m i i (nth 0 adj i)) m in
    let m := set m (dim - 2) (dim - 2) A in
    let: (B, C) := if follow then (C, B) else (B, C) in
    let m := set m (dim - 2) (dim - 1) B in
    Some (set m (dim - 1) (dim - 2) C)
  else None.
(* 106-109 two dimensions, 123-129 three dimensions *)
Definition perspective2d (follow rm : bool) (jk : F) (fov N0 F0 n f : F) : option (mat F) :=
  perspective follow rm jk `|fov| [:: if fov < 0 then -1 else 1] N0 F0 n f.
Definition perspective3d (follow rm : bool) (jk : F) (fovX aspect N0 F0 n f : F) : option (mat F) :=
  let ratioX := if fovX < 0 then -1 else 1 in
  if aspect == 0 then None else
  let ratioY := 1 / aspect in
  perspective follow rm jk `|fovX| [:: ratioX; ratioY] N0 F0 n f.
End Real.

Section Root.
Variable F : rcfType.
Implicit Types (m : mat F) (v : seq F).

(* ViewBuilder.hpp:50-91. [std::rotate(first, middle, last)] is [rot] by the distance from first to middle.
   extendedBases[0] is uninitialised until line 63. None: the cross product or the Gram-Schmidt process fails *)
Definition view_rotation (jk : F) (eye target : seq F) (bases : seq (seq F)) (flips : seq bool) : option (mat F) :=
  let d := size eye in
  let look := vsub eye target in
  let ext := rcons bases look in
  if cross jk d ext is Some side then
    let ext := side :: rot (size ext).-1 ext in
    if gram_schmidt ext is Some cols then
      let cols := [seq normalize_precise v | v <- cols] in
      let cols := head [::] cols :: rot 1 (behead cols) in
      let cols := mkseq (fun i => if nth false flips i then vneg (nth [::] cols i) else nth [::] cols i) d in
      Some (Mat false jk cols)
    else None
  else None.
Definition view (follow rm : bool) (jk : F) (r c : nat) (eye target : seq F) (bases : seq (seq F)) (flips : seq bool) : option (mat F) :=
  let d := size eye in
  if view_rotation jk eye target bases flips is Some rotation then
    let t := vec_mat d d (vneg eye) rotation in
    let m := identity rm jk r c in
    let m := insert d d 0 0 (if follow then convert rm d d rotation else convert_order rm d d rotation) m in
    Some (if follow then insert 1 d d 0 (ctor_vector rm jk 1 d t) m else insert d 1 0 d (ctor_vector rm jk d 1 t) m)
  else None.
(* 127-130, 142-145 *)
Definition look_at2 follow rm jk r c (eye target : seq F) (positiveYForward flipX : bool) :=
  view follow rm jk r c eye target [::] [:: flipX; positiveYForward].
Definition look_at3 follow rm jk r c (eye target up : seq F) (positiveZForward flipX flipY : bool) :=
  view follow rm jk r c eye target [:: up] [:: flipX; flipY; positiveZForward].
End Root.
