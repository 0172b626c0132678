(* Model of Geometry/*.hpp. Vectors are the lists of their logical elements (M_Vec.v); all objects of one function
   have the same element type (conversions between float and double are not modelled). The assertions
   that directions and normals have unit length are hypotheses of the theorems.
   [tmin], [tmax]: std::numeric_limits<T>::min() and max(); [eps]: epsilon(). *)
From mathcomp Require Import all_ssreflect all_algebra.
From Verif Require Import M_Vec M_Mat M_LU M_QR M_SVD.
Set Implicit Arguments. Unset Strict Implicit. Unset Printing Implicit Defensive.
Import GRing.Theory Num.Theory.
Local Open Scope ring_scope.

Section Bezier.
Variable R : ringType.
(* BezierCurve.hpp:60-73 PointAt: the two nested loops over the array [reduction]; the order of the curve
   is one less than the number of control points *)
Definition bezier_row (u t : R) (i : nat) (reduction : seq (seq R)) : seq (seq R) :=
  for_loop 1 i.+1 (fun j red =>
    set_nth [::] red j.-1 (vadd (vscalel u (nth [::] red j.-1)) (vscalel t (nth [::] red j)))) reduction.
Definition bezier (controlPoints : seq (seq R)) (t : R) : seq R :=
  let order := (size controlPoints).-1 in
  let u := 1 - t in
  nth [::] (foldl (fun red i => bezier_row u t i red) controlPoints (rev (iota 1 order))) 0.
End Bezier.

Section Geometry.
Variable R : rcfType.
Implicit Types (p q v : seq R).

(* Line.hpp:16-63, Ray.hpp:14-34: a ray is a line *)
Record line := Line { direction : seq R; base : seq R }.
(* Line.hpp:39-41 Through *)
Definition line_through p q : line := Line (normalize_precise (vsub q p)) p.
(* Line.hpp:55-57 PointAt *)
Definition point_at (l : line) (param : R) : seq R := vadd (base l) (vscalel param (direction l)).

(* LineSegment.hpp:15-78 *)
Record segment := Segment { point1 : seq R; point2 : seq R }.
(* lines 28-29: base, direction, length *)
Definition segment_from (b d : seq R) (len : R) : segment := Segment b (vadd b (vscale d len)).
(* lines 36-43 Length, Direction *)
Definition segment_length (s : segment) : R := vlength (vsub (point2 s) (point1 s)).
Definition segment_direction (s : segment) : seq R := normalize_precise (vsub (point2 s) (point1 s)).
(* lines 56-58 Interpol *)
Definition interpol (s : segment) (t : R) : seq R := vadd (vscalel t (point2 s)) (vscalel (1 - t) (point1 s)).
(* lines 63-68 InterpolOf; None: a division by zero *)
Definition interpol_of (tmin tmax : R) (s : segment) (point : seq R) : option R :=
  let offset := vsub point (point1 s) in
  let dir := vsub (point2 s) (point1 s) in
  let* len := length_precise tmin tmax dir in
  let* unit := vdivs dir len in
  sdiv (vdot id offset unit) len.
(* lines 71-73 Line *)
Definition segment_line (s : segment) : line := Line (segment_direction s) (point1 s).

(* Hyperplane.hpp:16-74 *)
Record hyperplane := Plane { normal : seq R; scalar : R }.
(* lines 28-30 from a point and a normal *)
Definition plane_from (b n : seq R) : hyperplane := Plane n (vdot id n b).
(* lines 38-41 from a 2D line; 44-47 to a 2D line *)
Definition plane_of_line (l : line) : hyperplane :=
  let n := cross2 (direction l) in Plane n (vdot id n (base l)).
(* lines 60-62 Base, 65-67 Distance *)
Definition plane_base (pl : hyperplane) : seq R := vscale (normal pl) (scalar pl).
Definition plane_distance (pl : hyperplane) (point : seq R) : R := vdot id point (normal pl) - scalar pl.
Definition line_of_plane (pl : hyperplane) : line := Line (cross2 (normal pl)) (plane_base pl).

(* Intersection.hpp:24-42 IntersectHyperplaneLine *)
Definition hit_param (pl : hyperplane) (l : line) : option R :=
  let bpMinusBl := vsub (plane_base pl) (base l) in
  let nDotD := vdot id (normal pl) (direction l) in
  if nDotD == 0 then None else Some (vdot id (normal pl) bpMinusBl / nDotD).
(* Intersection.hpp:79-90 plane and line *)
Definition hit_plane_line (pl : hyperplane) (l : line) : option (seq R) :=
  if hit_param pl l is Some t then Some (point_at l t) else None.
(* Intersection.hpp:108-117 plane and segment. [0 <= t] of an empty optional is false. *)
Definition hit_plane_segment (pl : hyperplane) (s : segment) : option (seq R) :=
  if hit_param pl (segment_line s) is Some t then
    if (0 <= t) && (t < vdistance (point1 s) (point2 s)) then Some (point_at (segment_line s) t) else None
  else None.
(* Intersection.hpp:135-144 plane and ray *)
Definition hit_plane_ray (pl : hyperplane) (r : line) : option (seq R) :=
  if hit_param pl r is Some t then if 0 <= t then Some (point_at r t) else None else None.
(* Intersection.hpp:162-166 two lines in 2D *)
Definition hit_line_line (l r : line) : option (seq R) := hit_plane_line (plane_of_line l) r.
(* Intersection.hpp:192-196 line and segment in 2D *)
Definition hit_line_segment (l : line) (s : segment) : option (seq R) := hit_plane_segment (plane_of_line l) s.

(* Intersection.hpp:45-55 IsWithin of a segment; [neg0]: the sign bit of a zero [limit] *)
Definition is_within (neg0 : bool) (s : segment) (point : seq R) : bool :=
  let e := vsub (point2 s) (point1 s) in
  let absEnd := [seq `|x| | x <- e] in
  let offset := vsub point (point1 s) in
  let axisIdx := max_element 0 absEnd in
  let limit := nth 0 e axisIdx in
  let coord := copysign neg0 1 limit * nth 0 offset axisIdx in
  (0 <= coord) && (coord <= `|limit|).
(* Intersection.hpp:59-68 IsWithin of a ray (not called by any Intersect) *)
Definition is_within_ray (neg0 : bool) (r : line) (point : seq R) : bool :=
  let absDir := [seq `|x| | x <- direction r] in
  let offset := vsub point (base r) in
  let axisIdx := max_element 0 absDir in
  let limit := nth 0 (direction r) axisIdx in
  0 <= copysign neg0 1 limit * nth 0 offset axisIdx.
(* Intersection.hpp:175-183 two segments in 2D *)
Definition hit_segment_segment (neg0 neg1 : bool) (l r : segment) : option (seq R) :=
  if hit_line_line (segment_line l) (segment_line r) is Some x then
    if is_within neg0 l x && is_within neg1 r x then Some x else None
  else None.

(* Triangle.hpp:14-55 *)
Record triangle := Triangle { ca : seq R; cb : seq R; cc : seq R }.
(* lines 38-44 Area; 48-50 Centroid *)
Definition heron (tmin tmax : R) (t : triangle) : option R :=
  let* l0 := length_precise tmin tmax (vsub (ca t) (cb t)) in
  let* l1 := length_precise tmin tmax (vsub (ca t) (cc t)) in
  let* l2 := length_precise tmin tmax (vsub (cb t) (cc t)) in
  let s := 2%:R^-1 * (l0 + l1 + l2) in
  Some (s * (s - l0) * (s - l1) * (s - l2)).
(* std::sqrt of a negative number is NaN: None *)
Definition area (tmin tmax : R) (t : triangle) : option R :=
  let* x := heron tmin tmax t in if 0 <= x then Some (Num.sqrt x) else None.
Definition centroid (t : triangle) : option (seq R) := vdivs (vadd (vadd (ca t) (cb t)) (cc t)) 3%:R.

(* Intersection.hpp:214-252 ray and triangle *)
Definition hit_ray_triangle (eps : R) (r : line) (t : triangle) : option (seq R) :=
  let edge1 := vsub (cb t) (ca t) in
  let edge2 := vsub (cc t) (ca t) in
  let h := cross3 (direction r) edge2 in
  let a := vdot id edge1 h in
  if `|a| < eps then None
  else
    let f := 1 / a in
    let s := vsub (base r) (ca t) in
    let u := f * vdot id s h in
    if (u < 0) || (1 < u) then None
    else
      let q := cross3 s edge1 in
      let v := f * vdot id (direction r) q in
      if (v < 0) || (1 < u + v) then None
      else
        let d := f * vdot id edge2 q in
        if d < eps then None else Some (point_at r d).
End Geometry.
