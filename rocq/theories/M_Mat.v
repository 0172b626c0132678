(* Model of Matrix/Matrix.hpp, Cast.hpp, Comparison.hpp, Arithmetic.hpp and Math.hpp.
   A matrix object is its memory layout flag and its list of stripes (rows for ROW_MAJOR, columns for
   COLUMN_MAJOR). The shape (Rows, Columns) is a template parameter of the code and an explicit
   parameter of the model functions. [junk] is the value obtained by reading memory that was never
   written or lies outside the stripes; it is arbitrary. The order template parameter
   (PRECEDE_VECTOR / FOLLOW_VECTOR) has no runtime content. Stripes are the logical vectors of M_Vec.v. *)
From mathcomp Require Import all_ssreflect all_algebra.
From Verif Require Import M_Vec.
Set Implicit Arguments. Unset Strict Implicit. Unset Printing Implicit Defensive.
Import GRing.Theory.

(* for (i = lo; i < hi; ++i) body *)
Definition for_loop (S : Type) (lo hi : nat) (body : nat -> S -> S) (s : S) : S :=
  foldl (fun s i => body i s) s (iota lo (hi - lo)).
(* the same with an early exit: the body returns None when the code divides by zero *)
Fixpoint for_opt (S : Type) (idx : seq nat) (body : nat -> S -> option S) (s : S) : option S :=
  match idx with
  | [::] => Some s
  | i :: idx' => if body i s is Some s' then for_opt idx' body s' else None
  end.

Section Storage.
Variable T : Type.

(* Matrix.hpp:25-32 MatrixStorage *)
Record mat := Mat { rowmaj : bool; junk : T; stripes : seq (seq T) }.
Definition stripe_dim (rm : bool) (r c : nat) := if rm then c else r.
Definition stripe_count (rm : bool) (r c : nat) := if rm then r else c.
(* a default constructed matrix: memory content is undetermined *)
Definition uninit (rm : bool) (jk : T) (r c : nat) : mat :=
  Mat rm jk (nseq (stripe_count rm r c) (nseq (stripe_dim rm r c) jk)).

(* Matrix.hpp:248-261 operator()(row, col): ROW_MAJOR ? stripes[row][col] : stripes[col][row] *)
Definition get (A : mat) (i j : nat) : T :=
  if rowmaj A then nth (junk A) (nth [::] (stripes A) i) j
  else nth (junk A) (nth [::] (stripes A) j) i.
Definition set_stripe (A : mat) (k : nat) (v : seq T) : mat :=
  Mat (rowmaj A) (junk A) (set_nth [::] (stripes A) k v).
Definition set (A : mat) (i j : nat) (x : T) : mat :=
  let (s, t) := if rowmaj A then (i, j) else (j, i) in
  set_stripe A s (set_nth (junk A) (nth [::] (stripes A) s) t x).

(* Matrix.hpp:264-281 operator()(idx) of a one-row or one-column matrix *)
Definition get1 (r : nat) (A : mat) (idx : nat) : T :=
  if r == 1 then get A 0 idx else get A idx 0.

(* Matrix.hpp:284-310 Column, Row getters. The loop of the opposite layout writes each element of a
   new vector once, in order: the list of the elements. *)
Definition get_col (r : nat) (A : mat) (j : nat) : seq T :=
  if rowmaj A then mkseq (fun i => get A i j) r else nth [::] (stripes A) j.
Definition get_row (c : nat) (A : mat) (i : nat) : seq T :=
  if rowmaj A then nth [::] (stripes A) i else mkseq (fun j => get A i j) c.
(* Matrix.hpp:313-337 Column, Row setters *)
Definition set_col (r : nat) (A : mat) (j : nat) (v : seq T) : mat :=
  if rowmaj A then for_loop 0 r (fun i A => set A i j (nth (junk A) v i)) A
  else set_stripe A j v.
Definition set_row (c : nat) (A : mat) (i : nat) (v : seq T) : mat :=
  if rowmaj A then set_stripe A i v
  else for_loop 0 c (fun j A => set A i j (nth (junk A) v j)) A.

(* Matrix.hpp:204-208, 353-358 constructor from scalars: Assign<i, j>(head, args...) recursion *)
Fixpoint assign (c : nat) (i j : nat) (elems : seq T) (A : mat) : mat :=
  match elems with
  | [::] => A
  | x :: rest => assign c (if j != c.-1 then i else i.+1) ((j + 1) %% c) rest (set A i j x)
  end.
Definition ctor_elems (rm : bool) (jk : T) (r c : nat) (elems : seq T) : mat :=
  assign c 0 0 elems (uninit rm jk r c).

(* Matrix.hpp:211-222 constructor from a vector (Rows == 1 or Columns == 1) *)
Definition ctor_vector (rm : bool) (jk : T) (r c : nat) (v : seq T) : mat :=
  let A := uninit rm jk r c in
  let vectorDim := if minn r c == 1 then maxn r c else 0 in
  if stripe_dim rm r c == vectorDim then set_stripe A 0 v
  else for_loop 0 (stripe_count rm r c)
         (fun i A => set_stripe A i (set_nth jk (nth [::] (stripes A) i) 0 (nth jk v i))) A.
(* Matrix.hpp:340-350 conversion to a vector *)
Definition to_vector (r c : nat) (A : mat) : seq T :=
  if r == 1 then get_row c A 0 else get_col r A 0.

(* Matrix.hpp:168-183 conversion to another layout, same order. The loop that copies stripe by
   stripe is written as a map. Conversions of the element type are not modelled. *)
Definition convert (rm : bool) (r c : nat) (A : mat) : mat :=
  if rm == rowmaj A then
    Mat rm (junk A) [seq nth [::] (stripes A) i | i <- iota 0 (stripe_count rm r c)]
  else for_loop 0 r (fun i B => for_loop 0 c (fun j B => set B i j (get A i j)) B)
         (uninit rm (junk A) r c).
(* Matrix.hpp:186-201 conversion to the opposite order: the r x c result is read from a c x r source *)
Definition convert_order (rm : bool) (r c : nat) (A : mat) : mat :=
  if rm != rowmaj A then
    Mat rm (junk A) [seq nth [::] (stripes A) i | i <- iota 0 (stripe_count rm r c)]
  else for_loop 0 r (fun i B => for_loop 0 c (fun j B => set B i j (get A j i)) B)
         (uninit rm (junk A) r c).
(* Cast.hpp:30-36 FlipLayoutAndOrder of an r x c matrix *)
Definition flip_layout_and_order (r c : nat) (A : mat) : mat := convert_order (~~ rowmaj A) c r A.
(* Cast.hpp:39-55 FlipOrder of an r x c matrix *)
Definition flip_order (preserve : bool) (r c : nat) (A : mat) : mat :=
  if preserve then convert_order (rowmaj A) c r A else Mat (rowmaj A) (junk A) (stripes A).

(* Matrix.hpp:361-372 Extract<er, ec>(wr, wc) *)
Definition extract (er ec wr wc : nat) (A : mat) : mat :=
  for_loop 0 er (fun i B => for_loop 0 ec (fun j B => set B i j (get A (i + wr) (j + wc))) B)
    (uninit (rowmaj A) (junk A) er ec).
(* Matrix.hpp:375-386 Insert of an ir x ic submatrix *)
Definition insert (ir ic wr wc : nat) (sub A : mat) : mat :=
  for_loop 0 ir (fun i A => for_loop 0 ic (fun j A => set A (i + wr) (j + wc) (get sub i j)) A) A.

(* Math.hpp:277-286 Transpose of an r x c matrix *)
Definition transpose (r c : nat) (A : mat) : mat :=
  for_loop 0 r (fun i B => for_loop 0 c (fun j B => set B j i (get A i j)) B)
    (uninit (rowmaj A) (junk A) c r).
End Storage.

Section Compare.
Variable T : eqType.
(* Comparison.hpp:26-36 operator==, same order *)
Definition mat_eq (r c : nat) (A B : mat T) : bool :=
  for_loop 0 r (fun i e => for_loop 0 c (fun j e => e && (get A i j == get B i j)) e) true.
(* Comparison.hpp:13-23 operator==, opposite orders *)
Definition mat_eq_order (r c : nat) (A B : mat T) : bool :=
  for_loop 0 r (fun i e => for_loop 0 c (fun j e => e && (get A i j == get B j i)) e) true.
(* Comparison.hpp:39-48 operator!= *)
Definition mat_neq (r c : nat) (A B : mat T) : bool := ~~ mat_eq r c A B.
End Compare.

Local Open Scope ring_scope.

Section Arithmetic.
Variable R : ringType.
Implicit Types (A B : mat R) (v : seq R).

(* Vector/Arithmetic.hpp:226-235 MultiplyAdd *)
Definition vmuladd (a b c : seq R) : seq R := vmap3 (fun x y z => x * y + z) a b c.

(* Arithmetic.hpp:17-36 ROW_MAJOR x ROW_MAJOR *)
Definition mul_rr (r k c : nat) A B : mat R :=
  for_loop 0 r (fun i M =>
    for_loop 1 k (fun l M =>
        set_row c M i (vmuladd (nseq c (get A i l)) (get_row c B l) (get_row c M i)))
      (set_row c M i (vscalel (get A i 0) (get_row c B 0))))
    (uninit true (junk A) r c).
(* Arithmetic.hpp:39-54 ROW_MAJOR x COLUMN_MAJOR *)
Definition mul_rc (r k c : nat) A B : mat R :=
  for_loop 0 r (fun i M => for_loop 0 c (fun j M =>
      set M i j (vsum (vmul (get_row k A i) (get_col k B j)))) M)
    (uninit true (junk A) r c).
(* Arithmetic.hpp:57-75 COLUMN_MAJOR x any *)
Definition mul_cx (r k c : nat) A B : mat R :=
  for_loop 0 c (fun j M =>
    for_loop 1 k (fun l M =>
        set_col r M j (vmuladd (get_col r A l) (nseq r (get B l j)) (get_col r M j)))
      (set_col r M j (vscale (get_col r A 0) (get B 0 j))))
    (uninit false (junk A) r c).
(* Arithmetic.hpp:185-192 operator*: overload resolution on the layouts *)
Definition mat_mul (r k c : nat) A B : mat R :=
  if rowmaj A then (if rowmaj B then mul_rr r k c A B else mul_rc r k c A B) else mul_cx r k c A B.
(* Arithmetic.hpp:194-200 operator*=: the product is converted to the layout of lhs *)
Definition mat_mul_assign (n : nat) A B : mat R := convert (rowmaj A) n n (mat_mul n n n A B).

(* Arithmetic.hpp:78-98 Elementwise, 101-134 Scalar. [f] is the vector operation *)
Definition elementwise (f : seq R -> seq R -> seq R) (r c : nat) A B : mat R :=
  for_loop 0 (stripe_count (rowmaj A) r c) (fun s M =>
      if rowmaj A then set_row c M s (f (get_row c A s) (get_row c B s))
      else set_col r M s (f (get_col r A s) (get_col r B s)))
    (uninit (rowmaj A) (junk A) r c).
Definition mat_add := elementwise (@vadd R).
Definition mat_sub := elementwise (@vsub R).
Definition hadamard := elementwise (@vmul R).
Definition scalar_op (f : seq R -> seq R) (r c : nat) A : mat R :=
  for_loop 0 (stripe_count (rowmaj A) r c) (fun s M => set_stripe M s (f (nth [::] (stripes A) s)))
    (uninit (rowmaj A) (junk A) r c).
(* Arithmetic.hpp:270-296: matrix OP scalar and scalar OP matrix *)
Definition mat_scale r c A (s : R) := scalar_op (fun v => vscale v s) r c A.
Definition mat_scalel r c (s : R) A := scalar_op (fun v => vscalel s v) r c A.
Definition mat_adds r c A (s : R) := scalar_op (fun v => [seq x + s | x <- v]) r c A.
Definition mat_subs r c A (s : R) := scalar_op (fun v => [seq x - s | x <- v]) r c A.
Definition mat_sadd r c (s : R) A := scalar_op (fun v => [seq s + x | x <- v]) r c A.
Definition mat_ssub r c (s : R) A := scalar_op (fun v => [seq s - x | x <- v]) r c A.
(* Arithmetic.hpp:404-413 unary minus *)
Definition mat_neg r c A := scalar_op (fun v => vneg v) r c A.
(* the compound assignments, 222-231 and 254-262: lhs = lhs OP rhs *)
Definition mat_add_assign r c A B := mat_add r c A B.
Definition mat_sub_assign r c A B := mat_sub r c A B.
Definition mat_scale_assign r c A (s : R) := mat_scale r c A s.

(* Arithmetic.hpp:136-147 vector x ROW_MAJOR, 149-161 vector x COLUMN_MAJOR *)
Definition vec_mat (k c : nat) v B : seq R :=
  if rowmaj B then
    for_loop 1 k (fun l w => vmuladd (nseq c (nth (junk B) v l)) (get_row c B l) w)
      (vscalel (nth (junk B) v 0) (get_row c B 0))
  else mkseq (fun j => vsum (vmul v (get_col k B j))) c.
(* Arithmetic.hpp:163-176 matrix x vector: through FlipLayoutAndOrder, for either layout *)
Definition mat_vec (r k : nat) A v : seq R := vec_mat k r v (flip_layout_and_order r k A).
(* Arithmetic.hpp:344-363 affine transform: the matrix is k x (k-1) / (k-1) x k *)
Definition vec_mat_affine (k : nat) v B : seq R := vec_mat k k.-1 (rcons v 1) B.
Definition mat_vec_affine (k : nat) A v : seq R := mat_vec k.-1 k A (rcons v 1).

(* Math.hpp:59-65 Sum *)
Definition mat_sum (r c : nat) A : R :=
  for_loop 0 (stripe_count (rowmaj A) r c) (fun s acc => acc + vsum (nth [::] (stripes A) s)) 0.
(* Math.hpp:112-116 NormSquared for real element types (Real and Conj are the identity) *)
Definition norm_squared (r c : nat) A : R := mat_sum r c (hadamard r c A A).
(* Math.hpp:154-161 Trace *)
Definition trace (n : nat) A : R := vsum (mkseq (fun i => get A i i) n).

(* Math.hpp:165-169 *)
Definition det2 A : R := get A 0 0 * get A 1 1 - get A 1 0 * get A 0 1.
(* swizzle of a stripe *)
Definition sw A (s : nat) (idx : seq nat) : seq R := swz (nth [::] (stripes A) s) idx.
Arguments sw A s%N idx.
(* Math.hpp:172-183 *)
Definition det3 A : R :=
  vsum (vmul (sw A 0 [:: 2; 1; 0]%N)
             (vsub (vmul (sw A 1 [:: 0; 2; 1]%N) (sw A 2 [:: 1; 0; 2]%N))
                   (vmul (sw A 1 [:: 1; 0; 2]%N) (sw A 2 [:: 0; 2; 1]%N)))).
(* Math.hpp:186-228 (the letters of the swizzles: x = 0, y = 1, z = 2, w = 3) *)
Definition even_pair : seq R := [:: 1; -1; -1; 1].
Definition odd_pair : seq R := [:: -1; 1; 1; -1].
Definition det4 A : R :=
  vsum (vmul even_pair (vmul (vmul (vmul (sw A 0 [:: 1; 1; 0; 0]%N) (sw A 1 [:: 3; 2; 3; 2]%N))
                                   (sw A 2 [:: 2; 3; 2; 3]%N)) (sw A 3 [:: 0; 0; 1; 1]%N)))
  + vsum (vmul odd_pair (vmul (vmul (vmul (sw A 0 [:: 1; 0; 1; 0]%N) (sw A 1 [:: 3; 3; 0; 1]%N))
                                   (sw A 2 [:: 0; 1; 3; 3]%N)) (sw A 3 [:: 2; 2; 2; 2]%N)))
  + vsum (vmul even_pair (vmul (vmul (vmul (sw A 0 [:: 1; 0; 1; 0]%N) (sw A 1 [:: 2; 2; 0; 1]%N))
                                   (sw A 2 [:: 0; 1; 2; 2]%N)) (sw A 3 [:: 3; 3; 3; 3]%N)))
  + nth 0 (nth [::] (stripes A) 0) 3 *
      vsum (vmul (sw A 1 [:: 2; 1; 0]%N)
                 (vsub (vmul (sw A 2 [:: 1; 0; 2]%N) (sw A 3 [:: 0; 2; 1]%N))
                       (vmul (sw A 2 [:: 0; 2; 1]%N) (sw A 3 [:: 1; 0; 2]%N))))
  + nth 0 (nth [::] (stripes A) 0) 2 *
      vsum (vmul (sw A 1 [:: 3; 1; 0]%N)
                 (vsub (vmul (sw A 2 [:: 0; 3; 1]%N) (sw A 3 [:: 1; 0; 3]%N))
                       (vmul (sw A 2 [:: 1; 0; 3]%N) (sw A 3 [:: 0; 3; 1]%N)))).
End Arithmetic.

Arguments sw {R} A s%N idx.

Section Field.
Variable F : fieldType.
Implicit Types (A B : mat F) (v : seq F).

(* division of a matrix by a scalar; None: the divisor is zero *)
Definition mat_div (r c : nat) A (s : F) : option (mat F) :=
  if s == 0 then None else Some (scalar_op (fun v => [seq x / s | x <- v]) r c A).
(* Arithmetic.hpp:219 element-wise operator/ *)
Definition mat_ediv (r c : nat) A B : mat F := elementwise (vmap2 (fun x y => x / y)) r c A B.

(* Arithmetic.hpp:308-341 homogeneous transform with perspective division: n x n matrix *)
Definition perspective_divide v : option (seq F) :=
  let w := last 0 v in
  if w == 0 then None else Some [seq x / w | x <- take (size v).-1 v].
Definition vec_mat_homogeneous (n : nat) v B : option (seq F) :=
  perspective_divide (vec_mat n n (rcons v 1) B).
Definition mat_vec_homogeneous (n : nat) A v : option (seq F) :=
  perspective_divide (mat_vec n n A (rcons v 1)).

(* Math.hpp:297-311 *)
Definition inverse2 A : option (mat F) :=
  let e s t := nth 0 (nth [::] (stripes A) s) t in
  let result := Mat (rowmaj A) (junk A) [:: [:: e 1%N 1%N; - e 0%N 1%N]; [:: - e 1%N 0%N; e 0%N 0%N]] in
  mat_div 2 2 result (e 0%N 0%N * e 1%N 1%N - e 0%N 1%N * e 1%N 0%N).
(* the stripeArg constructor of a matrix with n stripes from columns of coefficients:
   stripe i is { c0[i], c1[i], ... } *)
Definition of_cols A (n : nat) (cs : seq (seq F)) : mat F :=
  Mat (rowmaj A) (junk A) (mkseq (fun i => [seq nth 0 col i | col <- cs]) n).
(* Math.hpp:315-347 *)
Definition inverse3 A : option (mat F) :=
  let zxy := [:: 2; 0; 1]%N in let yzx := [:: 1; 2; 0]%N in
  let c0 := vsub (vmul (sw A 1 yzx) (sw A 2 zxy)) (vmul (sw A 1 zxy) (sw A 2 yzx)) in
  let c1 := vsub (vmul (sw A 0 zxy) (sw A 2 yzx)) (vmul (sw A 0 yzx) (sw A 2 zxy)) in
  let c2 := vsub (vmul (sw A 0 yzx) (sw A 1 zxy)) (vmul (sw A 0 zxy) (sw A 1 yzx)) in
  mat_div 3 3 (of_cols A 3 [:: c0; c1; c2]) (det3 A).
(* Math.hpp:351-436 *)
Definition inverse4 A : option (mat F) :=
  let even := [:: 1; -1; 1; -1] : seq F in
  let odd := [:: -1; 1; -1; 1] : seq F in
  let wwwz s := sw A s [:: 3; 3; 3; 2]%N in
  let yxxx s := sw A s [:: 1; 0; 0; 0]%N in
  let zzyy s := sw A s [:: 2; 2; 1; 1]%N in
  let r0w_r1y := vmul (wwwz 0%N) (yxxx 1%N) in
  let r0w_r1z := vmul (wwwz 0%N) (zzyy 1%N) in
  let r0y_r1w := vmul (yxxx 0%N) (wwwz 1%N) in
  let r0y_r1z := vmul (yxxx 0%N) (zzyy 1%N) in
  let r0z_r1w := vmul (zzyy 0%N) (wwwz 1%N) in
  let r0z_r1y := vmul (zzyy 0%N) (yxxx 1%N) in
  let r2w_r3y := vmul (wwwz 2%N) (yxxx 3%N) in
  let r2w_r3z := vmul (wwwz 2%N) (zzyy 3%N) in
  let r2y_r3w := vmul (yxxx 2%N) (wwwz 3%N) in
  let r2y_r3z := vmul (yxxx 2%N) (zzyy 3%N) in
  let r2z_r3w := vmul (zzyy 2%N) (wwwz 3%N) in
  let r2z_r3y := vmul (zzyy 2%N) (yxxx 3%N) in
  (* a - b - c + d + e - f, left associated as in the code *)
  let comb a b c d e f := vsub (vadd (vadd (vsub (vsub a b) c) d) e) f in
  let c0 := vmul odd (comb (vmul (wwwz 1%N) r2z_r3y) (vmul (zzyy 1%N) r2w_r3y) (vmul (wwwz 1%N) r2y_r3z)
                           (vmul (yxxx 1%N) r2w_r3z) (vmul (zzyy 1%N) r2y_r3w) (vmul (yxxx 1%N) r2z_r3w)) in
  let c1 := vmul even (comb (vmul (wwwz 0%N) r2z_r3y) (vmul (zzyy 0%N) r2w_r3y) (vmul (wwwz 0%N) r2y_r3z)
                           (vmul (yxxx 0%N) r2w_r3z) (vmul (zzyy 0%N) r2y_r3w) (vmul (yxxx 0%N) r2z_r3w)) in
  let c2 := vmul odd (comb (vmul r0w_r1z (yxxx 3%N)) (vmul r0z_r1w (yxxx 3%N)) (vmul r0w_r1y (zzyy 3%N))
                           (vmul r0y_r1w (zzyy 3%N)) (vmul r0z_r1y (wwwz 3%N)) (vmul r0y_r1z (wwwz 3%N))) in
  let c3 := vmul even (comb (vmul r0w_r1z (yxxx 2%N)) (vmul r0z_r1w (yxxx 2%N)) (vmul r0w_r1y (zzyy 2%N))
                           (vmul r0y_r1w (zzyy 2%N)) (vmul r0z_r1y (wwwz 2%N)) (vmul r0y_r1z (wwwz 2%N))) in
  mat_div 4 4 (of_cols A 4 [:: c0; c1; c2; c3]) (det4 A).

(* Math.hpp:233-265 BareissAlgorithm *)
(* lines 240-251: look for a row i >= k with a nonzero entry in column k-1 while minor is zero.
   State: matrix, minor, flipSign. [candidate] is a reference to the element (i, k-1): line 247 (minor = candidate)
   reads it again after the two rows have been exchanged. *)
Definition bareiss_search (n k : nat) (st : mat F * F * bool) : mat F * F * bool :=
  for_loop k n (fun i st =>
    let: (A, minor, flip) := st in
    if minor == 0 then
      if get A i k.-1 != 0 then
        let rowk1 := get_row n A k.-1 in
        let rowi := get_row n A i in
        let A' := set_row n (set_row n A k.-1 rowi) i rowk1 in
        (A', get A' i k.-1, ~~ flip)
      else st
    else st) st.
(* lines 258-262 *)
Definition bareiss_eliminate (n k : nat) (minor : F) A : mat F :=
  for_loop k.+1 n (fun i A => for_loop k.+1 n (fun j A =>
    set A i j ((get A i j * get A k k - get A i k * get A k j) / minor)) A) A.
(* the outer loop; a zero minor returns 0 from the function (lines 254-256) *)
Fixpoint bareiss_loop (n : nat) (ks : seq nat) A (flip : bool) : F :=
  match ks with
  | [::] => if flip then - get A n.-1 n.-1 else get A n.-1 n.-1
  | k :: ks' =>
      let minor := if k == 0%N then 1 else get A k.-1 k.-1 in
      let: (A1, minor1, flip1) := bareiss_search n k (A, minor, flip) in
      if minor1 == 0 then 0
      else bareiss_loop n ks' (bareiss_eliminate n k minor1 A1) flip1
  end.
Definition bareiss (n : nat) A : F := bareiss_loop n (iota 0 n.-1) A false.

(* Math.hpp:165-274 Determinant: overload by size; size 1 also goes to the general version *)
Definition determinant (n : nat) A : F :=
  match n with
  | 2%N => det2 A
  | 3%N => det3 A
  | 4%N => det4 A
  | _ => bareiss n A
  end.
End Field.

(* Math.hpp:16-57 Min, Max, ScaleElements over the stripes *)
Section Order.
Variable R : realDomainType.
Definition vminelem (a : seq R) : R :=
  foldl (fun best x => if x < best then x else best) (head 0 a) (behead a).
Definition mat_min (r c : nat) (A : mat R) : R :=
  for_loop 1 (stripe_count (rowmaj A) r c)
    (fun s best => std_min best (vminelem (nth [::] (stripes A) s))) (vminelem (nth [::] (stripes A) 0)).
Definition mat_max (r c : nat) (A : mat R) : R :=
  for_loop 1 (stripe_count (rowmaj A) r c)
    (fun s best => std_max best (vmaxelem (nth [::] (stripes A) s))) (vmaxelem (nth [::] (stripes A) 0)).
Definition mat_scale_elements (r c : nat) (A : mat R) : R :=
  for_loop 0 (stripe_count (rowmaj A) r c)
    (fun s scale => std_max scale (scale_elements (nth [::] (stripes A) s))) 0.
End Order.

Section Root.
Variable R : rcfType.
(* Math.hpp:119-123 Norm *)
Definition norm (r c : nat) (A : mat R) : R := Num.sqrt (norm_squared r c A).
(* Math.hpp:126-151 NormPrecise for real element types *)
Definition norm_precise (r c : nat) (A : mat R) : option R :=
  let re := scalar_op (fun v => [seq `|x| | x <- v]) r c A in
  let maxElement := mat_max r c re in
  if maxElement == 0 then Some 0
  else if mat_div r c re maxElement is Some reScaled
       then Some (Num.sqrt (mat_sum r c (hadamard r c reScaled reScaled)) * maxElement)
       else None.
End Root.
