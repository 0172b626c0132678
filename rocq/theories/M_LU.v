(* Model of Matrix/Algorithm.hpp, Decompositions/DecomposeLU.hpp and the builders Zero and Identity.
   Order FOLLOW_VECTOR has its own solver functions (suffix _follow). None: a division by zero. *)
From mathcomp Require Import all_ssreflect all_algebra.
From Verif Require Import M_Vec M_Mat.
Set Implicit Arguments. Unset Strict Implicit. Unset Printing Implicit Defensive.
Import GRing.Theory Num.Theory.
Local Open Scope ring_scope.

Section Builders.
Variable R : ringType.
(* Transforms/ZeroBuilder.hpp:21-29 *)
Definition zero_mat (rm : bool) (jk : R) (r c : nat) : mat R :=
  for_loop 0 (stripe_count rm r c) (fun s A => set_stripe A s (nseq (stripe_dim rm r c) 0)) (uninit rm jk r c).
(* Transforms/IdentityBuilder.hpp:19-26 *)
Definition identity (rm : bool) (jk : R) (r c : nat) : mat R :=
  for_loop 0 (minn r c) (fun i A => set A i i 1) (zero_mat rm jk r c).
End Builders.

Section Triangular.
Variable F : fieldType.
Implicit Types (A b L U : mat F).

(* Algorithm.hpp:21-36 and 49-64: the body of the loop over rowIdx. [targets] are the values of
   targetIdx in the order of the inner loop. *)
Definition tri_step (n c : nat) (targets : seq nat) (r : nat) (st : mat F * mat F) : option (mat F * mat F) :=
  let: (A, b) := st in
  let leading := get A r r in
  if leading == 0 then None
  else
    let rowA := [seq x / leading | x <- get_row n A r] in
    let rowB := [seq x / leading | x <- get_row c b r] in
    Some (foldl (fun st t =>
        let: (A, b) := st in
        let targetA := get_row n A t in
        let targetB := get_row c b t in
        let multiplier := nth 0 targetA r in
        (set_row n A t (vsub targetA (vscalel multiplier rowA)),
         set_row c b t (vsub targetB (vscalel multiplier rowB))))
      (set_row n A r rowA, set_row c b r rowB) targets).

(* Algorithm.hpp:14-40 SolveUpperTriangular, PRECEDE_VECTOR: A is n x n, b is n x c *)
Definition solve_upper (n c : nat) A b : option (mat F) :=
  omap (fun st => convert (rowmaj b) n c st.2)
    (for_opt (rev (iota 0 n)) (fun r => tri_step n c (rev (iota 0 r)) r)
       (convert true n n A, convert true n c b)).
(* Algorithm.hpp:43-68 SolveLowerTriangular, PRECEDE_VECTOR *)
Definition solve_lower (n c : nat) A b : option (mat F) :=
  omap (fun st => convert (rowmaj b) n c st.2)
    (for_opt (iota 0 n) (fun r => tri_step n c (iota r.+1 (n - r.+1)) r)
       (convert true n n A, convert true n c b)).
(* Algorithm.hpp:71-83 the FOLLOW_VECTOR versions: b is r x n *)
Definition solve_upper_follow (n r : nat) A b : option (mat F) :=
  omap (flip_layout_and_order n r)
    (solve_lower n r (flip_layout_and_order n n A) (flip_layout_and_order r n b)).
Definition solve_lower_follow (n r : nat) A b : option (mat F) :=
  omap (flip_layout_and_order n r)
    (solve_upper n r (flip_layout_and_order n n A) (flip_layout_and_order r n b)).

(* DecomposeLU.hpp:213-222 and 256-262: zero out row i of column k; state L, U *)
Definition lu_row (n k : nat) (pivotRow : seq F) (i : nat) (st : mat F * mat F) : mat F * mat F :=
  let: (L, U) := st in
  let scale := get U i k / nth 0 pivotRow k in
  let U1 := set_row n U i (vsub (get_row n U i) (vscale pivotRow scale)) in
  (set L i k scale, set U1 i k 0).
(* DecomposeLU.hpp:206-227 DecomposeLU *)
Definition decompose_lu (n : nat) A : option (mat F * mat F) :=
  for_opt (iota 0 n.-1) (fun k st =>
      let pivotRow := get_row n st.2 k in
      if nth 0 pivotRow k == 0 then None
      else Some (for_loop k.+1 n (lu_row n k pivotRow) st))
    (identity (rowmaj A) (junk A) n n, A).

(* DecomposeLU.hpp:46-61 DecompositionLU::Solve(Matrix), PRECEDE_VECTOR: b is n x c *)
Definition lu_solve (n c : nat) (d : mat F * mat F) b : option (mat F) :=
  obind (solve_upper n c d.2) (solve_lower n c d.1 b).
(* the same for FOLLOW_VECTOR: b is r x n *)
Definition lu_solve_follow (n r : nat) (d : mat F * mat F) b : option (mat F) :=
  obind (solve_lower_follow n r d.1) (solve_upper_follow n r d.2 b).
(* DecomposeLU.hpp:64-72 Solve(Vector) *)
Definition lu_solve_vec (n : nat) (d : mat F * mat F) (v : seq F) : option (seq F) :=
  omap (to_vector n 1) (lu_solve n 1 d (ctor_vector (rowmaj d.1) (junk d.1) n 1 v)).
Definition lu_solve_vec_follow (n : nat) (d : mat F * mat F) (v : seq F) : option (seq F) :=
  omap (to_vector 1 n) (lu_solve_follow n 1 d (ctor_vector (rowmaj d.1) (junk d.1) 1 n v)).
(* DecomposeLU.hpp:75-78 Inverse *)
Definition lu_inverse (n : nat) (d : mat F * mat F) : option (mat F) :=
  lu_solve n n d (identity (rowmaj d.1) (junk d.1) n n).
Definition lu_inverse_follow (n : nat) (d : mat F * mat F) : option (mat F) :=
  lu_solve_follow n n d (identity (rowmaj d.1) (junk d.1) n n).

(* DecomposeLU.hpp:85-119 DecompositionLUP *)
Record lup := Lup { lupL : mat F; lupU : mat F; lupP : seq nat }.

(* DecomposeLU.hpp:162-169 ExpandPermutation *)
Definition expand_permutation (rm : bool) (jk : F) (n : nat) (P : seq nat) : mat F :=
  for_loop 0 n (fun i PM => set PM i (nth 0%N P i) 1) (zero_mat rm jk n n).
(* DecomposeLU.hpp:172-187 InversePermute, and 190-205 Permute *)
Definition inverse_permute (n c : nat) (P : seq nat) b : mat F :=
  for_loop 0 n (fun i B => set_row c B (nth 0%N P i) (get_row c b i)) (uninit (rowmaj b) (junk b) n c).
Definition inverse_permute_follow (n r : nat) (P : seq nat) b : mat F :=
  for_loop 0 n (fun i B => set_col r B (nth 0%N P i) (get_col r b i)) (uninit (rowmaj b) (junk b) r n).
Definition permute (n c : nat) (P : seq nat) b : mat F :=
  for_loop 0 n (fun i B => set_row c B i (get_row c b (nth 0%N P i))) (uninit (rowmaj b) (junk b) n c).
Definition permute_follow (n r : nat) (P : seq nat) b : mat F :=
  for_loop 0 n (fun i B => set_col r B i (get_col r b (nth 0%N P i))) (uninit (rowmaj b) (junk b) r n).

(* DecomposeLU.hpp:127-136 DecompositionLUP::Solve(Matrix) *)
Definition lup_solve (n c : nat) (d : lup) b : option (mat F) :=
  lu_solve n c (lupL d, lupU d) (permute n c (lupP d) b).
Definition lup_solve_follow (n r : nat) (d : lup) b : option (mat F) :=
  omap (inverse_permute_follow n r (lupP d)) (lu_solve_follow n r (lupL d, lupU d) b).
(* DecomposeLU.hpp:139-147 Solve(Vector) *)
Definition lup_solve_vec (n : nat) (d : lup) (v : seq F) : option (seq F) :=
  omap (to_vector n 1) (lup_solve n 1 d (ctor_vector (rowmaj (lupL d)) (junk (lupL d)) n 1 v)).
Definition lup_solve_vec_follow (n : nat) (d : lup) (v : seq F) : option (seq F) :=
  omap (to_vector 1 n) (lup_solve_follow n 1 d (ctor_vector (rowmaj (lupL d)) (junk (lupL d)) 1 n v)).
(* DecomposeLU.hpp:150-153 Inverse *)
Definition lup_inverse (n : nat) (d : lup) : option (mat F) :=
  lup_solve n n d (identity (rowmaj (lupL d)) (junk (lupL d)) n n).
Definition lup_inverse_follow (n : nat) (d : lup) : option (mat F) :=
  lup_solve_follow n n d (identity (rowmaj (lupL d)) (junk (lupL d)) n n).
End Triangular.

Section LUP.
(* a field with an absolute value: the reals and the complex numbers *)
Variable F : numFieldType.
Implicit Types (A L U : mat F).

(* std::max_element(first + k, last): index of the first largest element *)
Definition max_element (k : nat) (v : seq F) : nat :=
  for_loop k.+1 (size v) (fun i best => if nth 0 v best < nth 0 v i then i else best) k.
(* std::swap of two elements of the permutation vector *)
Definition swap_nth (v : seq nat) (i j : nat) : seq nat :=
  set_nth 0%N (set_nth 0%N v i (nth 0%N v j)) j (nth 0%N v i).

(* DecomposeLU.hpp:242-264: body of the loop over zeroedColIdx = k; state L, U, P *)
Definition lup_step (n k : nat) (st : mat F * mat F * seq nat) : mat F * mat F * seq nat :=
  let: (L, U, P) := st in
  let pr := max_element k [seq `|x| | x <- get_col n U k] in
  let pivotRow := get_row n U pr in
  if nth 0 pivotRow k != 0 then
    let U1 := set_row n U pr (get_row n U k) in
    let U2 := set_row n U1 k pivotRow in
    let L1 := for_loop 0 k (fun i L => set (set L pr i (get L k i)) k i (get L pr i)) L in
    (for_loop k.+1 n (lu_row n k pivotRow) (L1, U2), swap_nth P pr k)
  else st.
(* DecomposeLU.hpp:230-270 DecomposeLUP *)
Definition decompose_lup (n : nat) A : lup F :=
  let: (L, U, P) := for_loop 0 n.-1 (lup_step n)
      (identity (rowmaj A) (junk A) n n, convert true n n A, iota 0 n) in
  Lup L (convert (rowmaj A) n n U) P.

(* Matrix/Math.hpp:444-450 Inverse, general size *)
Definition inverse_general (n : nat) A : option (mat F) := lup_inverse n (decompose_lup n A).
Definition inverse_general_follow (n : nat) A : option (mat F) := lup_inverse_follow n (decompose_lup n A).
End LUP.
