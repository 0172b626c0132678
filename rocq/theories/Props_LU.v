(* Properties C31-C36: triangular solvers, LU and LUP decompositions, general inverse. *)
From mathcomp Require Import all_ssreflect all_algebra.
From Verif Require Import Spec M_Vec P_Vec M_Mat P_Mat M_LU P_Tri P_LU P_LU2.
Set Implicit Arguments. Unset Strict Implicit. Unset Printing Implicit Defensive.
Import Order.Theory GRing.Theory Num.Theory.
Local Open Scope ring_scope.

(** * C32 Triangular solvers *)
(* A triangular: the solution of A X = b, or division by zero if a diagonal element is zero *)
Theorem C32_upper (F : fieldType) (n c : nat) (A b : mat F) :
  wf n n A -> wf n c b -> (forall i j, (j < i < n)%N -> get A i j = 0) ->
  ((forall i, (i < n)%N -> get A i i != 0) ->
     exists2 x, solve_upper n c A b = Some x &
       [/\ wf n c x, rowmaj x = rowmaj b & mxof n n A *m mxof n c x = mxof n c b]) /\
  ((exists2 i, (i < n)%N & get A i i = 0) -> solve_upper n c A b = None).
Proof.
move=> wA wb h; have hu : upper n A by move=> i l hi li; apply: h; rewrite li.
have H := solve_upper_mx wA wb hu; have ud := unit_diag (det_upper_mx hu); split=> [/ud uA|[i hi z]].
  by move: H; rewrite uA => [[x e [wx rx _ hx]]]; exists x.
by move: H; case: ifP => // /ud /(_ i hi); rewrite z eqxx.
Qed.
Print Assumptions C32_upper.

Theorem C32_lower (F : fieldType) (n c : nat) (A b : mat F) :
  wf n n A -> wf n c b -> (forall i j, (i < j < n)%N -> get A i j = 0) ->
  ((forall i, (i < n)%N -> get A i i != 0) ->
     exists2 x, solve_lower n c A b = Some x &
       [/\ wf n c x, rowmaj x = rowmaj b & mxof n n A *m mxof n c x = mxof n c b]) /\
  ((exists2 i, (i < n)%N & get A i i = 0) -> solve_lower n c A b = None).
Proof.
move=> wA wb h; have hu : lower n A by move=> i l il hl; apply: h; rewrite il.
have H := solve_lower_mx wA wb hu; have ud := unit_diag (det_lower_mx hu); split=> [/ud uA|[i hi z]].
  by move: H; rewrite uA => [[x e [wx rx _ hx]]]; exists x.
by move: H; case: ifP => // /ud /(_ i hi); rewrite z eqxx.
Qed.
Print Assumptions C32_lower.

(* order FOLLOW_VECTOR: X A = b *)
Theorem C32_upper_follow (F : fieldType) (n r : nat) (A b : mat F) :
  wf n n A -> wf r n b -> (forall i j, (j < i < n)%N -> get A i j = 0) ->
  ((forall i, (i < n)%N -> get A i i != 0) ->
     exists2 x, solve_upper_follow n r A b = Some x &
       [/\ wf r n x, rowmaj x = rowmaj b & mxof r n x *m mxof n n A = mxof r n b]) /\
  ((exists2 i, (i < n)%N & get A i i = 0) -> solve_upper_follow n r A b = None).
Proof.
move=> wA wb h; have hu : upper n A by move=> i l hi li; apply: h; rewrite li.
have H := solve_upper_follow_mx wA wb hu; have ud := unit_diag (det_upper_mx hu); split=> [/ud uA|[i hi z]].
  by move: H; rewrite uA => [[x e [wx rx _ hx]]]; exists x.
by move: H; case: ifP => // /ud /(_ i hi); rewrite z eqxx.
Qed.
Print Assumptions C32_upper_follow.

Theorem C32_lower_follow (F : fieldType) (n r : nat) (A b : mat F) :
  wf n n A -> wf r n b -> (forall i j, (i < j < n)%N -> get A i j = 0) ->
  ((forall i, (i < n)%N -> get A i i != 0) ->
     exists2 x, solve_lower_follow n r A b = Some x &
       [/\ wf r n x, rowmaj x = rowmaj b & mxof r n x *m mxof n n A = mxof r n b]) /\
  ((exists2 i, (i < n)%N & get A i i = 0) -> solve_lower_follow n r A b = None).
Proof.
move=> wA wb h; have hu : lower n A by move=> i l il hl; apply: h; rewrite il.
have H := solve_lower_follow_mx wA wb hu; have ud := unit_diag (det_lower_mx hu); split=> [/ud uA|[i hi z]].
  by move: H; rewrite uA => [[x e [wx rx _ hx]]]; exists x.
by move: H; case: ifP => // /ud /(_ i hi); rewrite z eqxx.
Qed.
Print Assumptions C32_lower_follow.

(* The other triangle is not ignored: two matrices with the same upper triangle, different solutions *)
Definition q22 (a b c d : rat) : mat rat := ctor_elems true 77%:Q 2 2 [:: a; b; c; d].
Definition q21 (a b : rat) : mat rat := ctor_elems true 77%:Q 2 1 [:: a; b].
Theorem C32_other_triangle_refuted : exists (A A' b x x' : mat rat),
  [/\ [/\ wf 2 2 A, wf 2 2 A' & wf 2 1 b], forall i j, (i <= j < 2)%N -> get A i j = get A' i j,
      solve_upper 2 1 A b = Some x, solve_upper 2 1 A' b = Some x' & get x 0 0 != get x' 0 0].
Proof.
exists (q22 2%:Q 1 0 1), (q22 2%:Q 1 1 1), (q21 3%:Q 1).
have h : (if solve_upper 2 1 (q22 2%:Q 1 0 1) (q21 3%:Q 1) is Some x then
          if solve_upper 2 1 (q22 2%:Q 1 1 1) (q21 3%:Q 1) is Some x' then get x 0 0 != get x' 0 0
          else false else false) by vm_compute.
move: h; case: (solve_upper 2 1 (q22 2%:Q 1 0 1) _) => // x; case: (solve_upper _ _ _ _) => // x' h.
by exists x, x'; split=> //; case=> [|[|i]] [|[|j]].
Qed.
Print Assumptions C32_other_triangle_refuted.

Definition up3 rm : mat rat := ctor_elems rm 77%:Q 3 3 [:: 2%:Q; 1; 3%:Q; 0; 4%:Q; 5%:Q; 0; 0; 7%:Q].
Definition rhs3 rm : mat rat := ctor_elems rm 77%:Q 3 2 [:: 6%:Q; 1; 9%:Q; 4%:Q; 7%:Q; 0].
Example C32_example : forall rm rm',
  [/\ wf 3 3 (up3 rm), wf 3 2 (rhs3 rm'), forall i j, (j < i < 3)%N -> get (up3 rm) i j = 0 &
      omap (fun x => [seq get_row 2 x i | i <- [:: 0; 1; 2]%N]) (solve_upper 3 2 (up3 rm) (rhs3 rm')) =
      Some [:: [:: 1; 0]; [:: 1; 1]; [:: 1; 0]]].
Proof.
by do 2 case; split=> // -[|[|[|i]]] [|[|[|j]]] // /andP [].
Qed.

(** * C33 LU decomposition *)
Theorem C33_lu (F : fieldType) (n : nat) (A : mat F) :
  (0 < n)%N -> wf n n A ->
  ((forall k, (0 < k < n)%N -> \det (mxof k k A) != 0) ->
   exists L U, [/\ decompose_lu n A = Some (L, U),
     [/\ wf n n L, wf n n U, rowmaj L = rowmaj A & rowmaj U = rowmaj A],
     (forall i j, (i < j < n)%N -> get L i j = 0) /\ (forall i, (i < n)%N -> get L i i = 1),
     forall i j, (j < i < n)%N -> get U i j = 0 &
     mxof n n L *m mxof n n U = mxof n n A]) /\
  ((exists2 k, (0 < k < n)%N & \det (mxof k k A) = 0) -> decompose_lu n A = None).
Proof.
move=> n0 wA; have := decompose_luP n0 wA; case: decompose_lu => [[L U] [hi e1 e2 hd]|[k hk z]]; split=> //.
- move=> _; exists L, U; have [w1 w2 hl h1 hu] := lu_inv_ok hi; split=> //.
  + by split=> // i j /andP [ij jn]; apply: hl.
  + by move=> i j /andP [ji hi']; apply: hu.
  by rewrite (lu_inv_mx hi).
- by case=> k /andP [_ kn] z; have := hd k kn; rewrite z eqxx.
by move=> h; have := h k hk; rewrite z eqxx.
Qed.
Print Assumptions C33_lu.

Definition lu3 rm : mat rat := ctor_elems rm 77%:Q 3 3 [:: 2%:Q; 1; 1; 4%:Q; 3%:Q; 3%:Q; 8%:Q; 7%:Q; 9%:Q].
Example C33_example : forall rm, omap (fun d =>
    ([seq get_row 3 d.1 i | i <- [:: 0; 1; 2]%N], [seq get_row 3 d.2 i | i <- [:: 0; 1; 2]%N]))
    (decompose_lu 3 (lu3 rm)) =
  Some ([:: [:: 1; 0; 0]; [:: 2%:Q; 1; 0]; [:: 4%:Q; 3%:Q; 1]],
        [:: [:: 2%:Q; 1; 1]; [:: 0; 1; 1]; [:: 0; 0; 2%:Q]]).
Proof. by case; apply/eqP; vm_compute. Qed.

(** * C34 LUP decomposition *)
Theorem C34_lup (F : numFieldType) (n : nat) (A : mat F) :
  (0 < n)%N -> wf n n A ->
  let d := decompose_lup n A in
  [/\ [/\ wf n n (lupL d), wf n n (lupU d), rowmaj (lupL d) = rowmaj A & rowmaj (lupU d) = rowmaj A],
      perm_eq (lupP d) (iota 0 n),
      [/\ forall i j, (i < j < n)%N -> get (lupL d) i j = 0, forall i, (i < n)%N -> get (lupL d) i i = 1 &
          forall i j, (i < n)%N -> (j < n)%N -> `|get (lupL d) i j| <= 1],
      forall i j, (j < i < n)%N -> get (lupU d) i j = 0 &
      forall i j : 'I_n, (mxof n n (lupL d) *m mxof n n (lupU d)) i j = get A (nth 0%N (lupP d) i) j].
Proof.
move=> n0 wA d; have [hi pP hL [e1 _] e2] := decompose_lupP n0 wA; have [w1 w2 hl h1 hu] := lu_inv_ok hi.
split=> //.
- by split=> // i j /andP [ij jn]; apply: hl.
- by move=> i j /andP [ji hi']; apply: hu.
by move=> i j; rewrite (lu_inv_mx hi) mxE.
Qed.
Print Assumptions C34_lup.

(* the expanded permutation matrix PM: PM A = L U, and PM is orthogonal *)
Theorem C34_expand_permutation (F : numFieldType) (n : nat) (A : mat F) (rm : bool) (jk : F) :
  (0 < n)%N -> wf n n A ->
  let d := decompose_lup n A in
  let PM := expand_permutation rm jk n (lupP d) in
  [/\ wf n n PM, mxof n n PM *m mxof n n A = mxof n n (lupL d) *m mxof n n (lupU d) &
      mxof n n PM *m (mxof n n PM)^T = 1%:M].
Proof.
move=> n0 wA d PM; have [hi pP _ _ _] := decompose_lupP n0 wA; rewrite -/d in hi pP.
have [w0 _ _ h0] := zero_matP rm jk n n.
pose P k (B : mat F) := wf n n B /\ forall i j, (i < n)%N -> (j < n)%N ->
  get B i j = ((i < k)%N && (nth 0%N (lupP d) i == j))%:R.
have [w h] : P n PM.
  apply: (@for_loop_ind _ P) => //.
  move=> k B /andP [_ hk] [wB hB]; have hk' := perm_lt pP hk; split; first exact: wf_set.
  move=> i j hi' hj; rewrite get_set hB // ltnS [(i <= k)%N]leq_eqVlt.
  case: (i =P k) => [->|_] //=; rewrite ltnn /= [j == _]eq_sym.
  by case: eqP.
have e : mxof n n PM = pmx F n (lupP d) by apply/matrixP => i j; rewrite !mxE h // ltn_ord.
by rewrite e (lu_inv_mx hi) (pmx_mul _ (get A)) // pmx_unit.
Qed.
Print Assumptions C34_expand_permutation.

Definition sing3 rm : mat rat := ctor_elems rm 77%:Q 3 3 [:: 0; 1; 2%:Q; 0; 3%:Q; 1; 0; 2%:Q; 4%:Q].
Definition cyc3 rm : mat rat := ctor_elems rm 77%:Q 3 3 [:: 0; 1; 0; 0; 0; 1; 1; 0; 0].
Example C34_example : forall rm,
  [/\ lupP (decompose_lup 3 (lu3 rm)) = [:: 2; 0; 1]%N,
      lupP (decompose_lup 3 (sing3 rm)) = [:: 0; 1; 2]%N &
      lupP (decompose_lup 3 (cyc3 rm)) = [:: 2; 0; 1]%N].
Proof. by case; split; apply/eqP; vm_compute. Qed.

(** * C35 Solve *)
Theorem C35_lu_solve (F : fieldType) (n c : nat) (A b : mat F) d :
  (0 < n)%N -> wf n n A -> decompose_lu n A = Some d ->
  (wf n c b ->
   (\det (mxof n n A) != 0 -> exists2 x, lu_solve n c d b = Some x &
      [/\ wf n c x, rowmaj x = rowmaj b & mxof n n A *m mxof n c x = mxof n c b]) /\
   (\det (mxof n n A) = 0 -> lu_solve n c d b = None)) /\
  (wf c n b ->
   (\det (mxof n n A) != 0 -> exists2 x, lu_solve_follow n c d b = Some x &
      [/\ wf c n x, rowmaj x = rowmaj b & mxof c n x *m mxof n n A = mxof c n b]) /\
   (\det (mxof n n A) = 0 -> lu_solve_follow n c d b = None)).
Proof.
move=> n0 wA e; have := decompose_luP n0 wA; rewrite e; case: d {e} => L U [hi _ _ _].
have ok := lu_inv_ok hi; have uL := lu_ok_unit ok.
have eA : mxof n n L *m mxof n n U = mxof n n A by rewrite (lu_inv_mx hi).
have uU : (mxof n n U \in unitmx) = (\det (mxof n n A) != 0).
  by rewrite -unitfE -unitmxE -eA unitmx_mul uL.
split=> wb.
  have := lu_solve_mx ok wb; rewrite uU eA; case: eqP => [z|nz] h; split=> //.
  by case: h => x ex [wx rx _ hx]; exists x.
have := lu_solve_follow_mx ok wb; rewrite uU eA; case: eqP => [z|nz] h; split=> //.
by case: h => x ex [wx rx _ hx]; exists x.
Qed.
Print Assumptions C35_lu_solve.

Lemma lup_mx (F : numFieldType) n (A : mat F) : (0 < n)%N -> wf n n A ->
  let d := decompose_lup n A in
  [/\ lu_ok n (lupL d) (lupU d), perm_eq (lupP d) (iota 0 n),
      mxof n n (lupL d) *m mxof n n (lupU d) = pmx F n (lupP d) *m mxof n n A &
      (mxof n n (lupU d) \in unitmx) = (\det (mxof n n A) != 0)].
Proof.
move=> n0 wA d; have [hi pP _ _ _] := decompose_lupP n0 wA; rewrite -/d in hi pP.
have ok := lu_inv_ok hi; have uL := lu_ok_unit ok.
have e : mxof n n (lupL d) *m mxof n n (lupU d) = pmx F n (lupP d) *m mxof n n A.
  by rewrite (lu_inv_mx hi) (pmx_mul _ (get A)).
split=> //; rewrite -unitfE -unitmxE.
have := congr1 (fun M => M \in unitmx) e; rewrite !unitmx_mul uL /= => ->.
by have [-> _] := mulmx1_unit (pmx_unit F pP).
Qed.

Theorem C35_lup_solve (F : numFieldType) (n c : nat) (A b : mat F) :
  (0 < n)%N -> wf n n A ->
  let d := decompose_lup n A in
  (wf n c b ->
   (\det (mxof n n A) != 0 -> exists2 x, lup_solve n c d b = Some x &
      [/\ wf n c x, rowmaj x = rowmaj b & mxof n n A *m mxof n c x = mxof n c b]) /\
   (\det (mxof n n A) = 0 -> lup_solve n c d b = None)) /\
  (wf c n b ->
   (\det (mxof n n A) != 0 -> exists2 x, lup_solve_follow n c d b = Some x &
      [/\ wf c n x, rowmaj x = rowmaj b & mxof c n x *m mxof n n A = mxof c n b]) /\
   (\det (mxof n n A) = 0 -> lup_solve_follow n c d b = None)).
Proof.
move=> n0 wA d; have [ok pP eA uU] := lup_mx n0 wA; rewrite -/d in ok pP eA uU.
have PPt := pmx_unit F pP; have PtP := mulmx1C PPt.
split=> wb.
  have [wp rp jp hp] := permuteP pP wb.
  have := lu_solve_mx ok wp; rewrite uU eA /lup_solve; case: eqP => [z|nz] h; split=> // _.
  case: h => x ex [wx rx _ hx]; exists x; rewrite ?rx //; split=> //.
  have ep : mxof n c (permute n c (lupP d) b) = pmx F n (lupP d) *m mxof n c b.
    by rewrite (pmx_mul _ (get b)) //; apply/matrixP => i j; rewrite !mxE hp.
  by move: hx; rewrite ep -mulmxA => /(congr1 (mulmx (pmx F n (lupP d))^T)); rewrite !mulmxA PtP !mul1mx.
have := lu_solve_follow_mx ok wb; rewrite uU eA /lup_solve_follow.
case: eqP => [z|nz] h; split=> // _; first by rewrite h.
case: h => y -> [wy ry _ hy]; have [wx rx _ hx] := inverse_permute_followP pP wy.
exists (inverse_permute_follow n c (lupP d) y); rewrite ?rx //; split=> //.
set x := inverse_permute_follow _ _ _ _ in wx rx hx *.
rewrite -hy mulmxA; congr (_ *m _).
have -> : mxof c n y = mxof c n x *m (pmx F n (lupP d))^T; last by rewrite -mulmxA PtP mulmx1.
rewrite -[RHS]trmxK trmx_mul trmxK.
have -> : (mxof c n x)^T = \matrix_(i < n, j < c) get x j i by apply/matrixP => i j; rewrite !mxE.
by rewrite (pmx_mul _ (fun i j => get x j i)) //; apply/matrixP => i j; rewrite !mxE hx.
Qed.
Print Assumptions C35_lup_solve.

(* vector right-hand sides *)
Theorem C35_lup_solve_vec (F : numFieldType) (n : nat) (A : mat F) (v : seq F) :
  (0 < n)%N -> wf n n A -> size v = n -> \det (mxof n n A) != 0 ->
  (exists2 x, lup_solve_vec n (decompose_lup n A) v = Some x &
     size x = n /\ mxof n n A *m (rv n x)^T = (rv n v)^T) /\
  (exists2 x, lup_solve_vec_follow n (decompose_lup n A) v = Some x &
     size x = n /\ rv n x *m mxof n n A = rv n v).
Proof.
move=> n0 wA sv nz; set d := decompose_lup n A; set rm := rowmaj (lupL d); set jk := junk (lupL d).
have mn1 : minn n 1 = 1%N by apply/minn_idPr. have mx1 : maxn n 1 = n by apply/maxn_idPl.
split.
  have [|wb rb hb] := @ctor_vectorP _ rm jk n 1 v mn1; first by rewrite mx1.
  have [/(_ wb) [/(_ nz) [x ex [wx rx hx]] _] _] := C35_lup_solve 1 (ctor_vector rm jk n 1 v) n0 wA.
  rewrite /lup_solve_vec ex; have [sx hx'] := @to_vectorP _ 0 n 1 x wx mn1.
  exists (to_vector n 1 x); rewrite // sx mx1; split=> //.
  have <- : mxof n 1 x = (rv n (to_vector n 1 x))^T.
    by apply/matrixP => i j; rewrite !mxE ord1 -hx' // addn0.
  by rewrite hx; apply/matrixP => i j; rewrite !mxE ord1 hb // addn0 (set_nth_default 0) ?sv.
have m1n : minn 1 n = 1%N by rewrite minnC. have x1n : maxn 1 n = n by rewrite maxnC.
have [|wb rb hb] := @ctor_vectorP _ rm jk 1 n v m1n; first by rewrite x1n.
have [_ /(_ wb) [/(_ nz) [x ex [wx rx hx]] _]] := C35_lup_solve 1 (ctor_vector rm jk 1 n v) n0 wA.
rewrite /lup_solve_vec_follow ex; have [sx hx'] := @to_vectorP _ 0 1 n x wx m1n.
exists (to_vector 1 n x); rewrite // sx x1n; split=> //.
have <- : mxof 1 n x = rv n (to_vector 1 n x).
  by apply/matrixP => i j; rewrite !mxE ord1 -hx' // add0n.
by rewrite hx; apply/matrixP => i j; rewrite !mxE ord1 hb // add0n (set_nth_default 0) ?sv.
Qed.
Print Assumptions C35_lup_solve_vec.

Theorem C35_lu_solve_vec (F : fieldType) (n : nat) (A : mat F) (v : seq F) d :
  (0 < n)%N -> wf n n A -> decompose_lu n A = Some d -> size v = n -> \det (mxof n n A) != 0 ->
  (exists2 x, lu_solve_vec n d v = Some x & size x = n /\ mxof n n A *m (rv n x)^T = (rv n v)^T) /\
  (exists2 x, lu_solve_vec_follow n d v = Some x & size x = n /\ rv n x *m mxof n n A = rv n v).
Proof.
move=> n0 wA e sv nz; set rm := rowmaj d.1; set jk := junk d.1.
have mn1 : minn n 1 = 1%N by apply/minn_idPr. have mx1 : maxn n 1 = n by apply/maxn_idPl.
split.
  have [|wb rb hb] := @ctor_vectorP _ rm jk n 1 v mn1; first by rewrite mx1.
  have [/(_ wb) [/(_ nz) [x ex [wx rx hx]] _] _] := C35_lu_solve 1 (ctor_vector rm jk n 1 v) n0 wA e.
  rewrite /lu_solve_vec ex; have [sx hx'] := @to_vectorP _ 0 n 1 x wx mn1.
  exists (to_vector n 1 x); rewrite // sx mx1; split=> //.
  have <- : mxof n 1 x = (rv n (to_vector n 1 x))^T.
    by apply/matrixP => i j; rewrite !mxE ord1 -hx' // addn0.
  by rewrite hx; apply/matrixP => i j; rewrite !mxE ord1 hb // addn0 (set_nth_default 0) ?sv.
have m1n : minn 1 n = 1%N by rewrite minnC. have x1n : maxn 1 n = n by rewrite maxnC.
have [|wb rb hb] := @ctor_vectorP _ rm jk 1 n v m1n; first by rewrite x1n.
have [_ /(_ wb) [/(_ nz) [x ex [wx rx hx]] _]] := C35_lu_solve 1 (ctor_vector rm jk 1 n v) n0 wA e.
rewrite /lu_solve_vec_follow ex; have [sx hx'] := @to_vectorP _ 0 1 n x wx m1n.
exists (to_vector 1 n x); rewrite // sx x1n; split=> //.
have <- : mxof 1 n x = rv n (to_vector 1 n x).
  by apply/matrixP => i j; rewrite !mxE ord1 -hx' // add0n.
by rewrite hx; apply/matrixP => i j; rewrite !mxE ord1 hb // add0n (set_nth_default 0) ?sv.
Qed.
Print Assumptions C35_lu_solve_vec.

(* Permute and InversePermute undo each other *)
Theorem C35_permute (F : fieldType) (n c : nat) (P : seq nat) (b : mat F) :
  perm_eq P (iota 0 n) ->
  (wf n c b -> forall i j, (i < n)%N -> (j < c)%N ->
     get (inverse_permute n c P (permute n c P b)) i j = get b i j /\
     get (permute n c P (inverse_permute n c P b)) i j = get b i j) /\
  (wf c n b -> forall i j, (i < c)%N -> (j < n)%N ->
     get (inverse_permute_follow n c P (permute_follow n c P b)) i j = get b i j /\
     get (permute_follow n c P (inverse_permute_follow n c P b)) i j = get b i j).
Proof.
move=> p; split=> w i j hi hj.
  have [w1 _ _ h1] := permuteP p w; have [w2 _ h2] := inverse_permuteP p w1.
  have [w3 _ h3] := inverse_permuteP p w; have [_ _ _ h4] := permuteP p w3.
  rewrite h4 // h3 //; split=> //; have [k hk <-] := perm_onto p hi.
  by rewrite h2 // h1.
have [w1 _ h1] := permute_followP p w; have [w2 _ _ h2] := inverse_permute_followP p w1.
have [w3 _ _ h3] := inverse_permute_followP p w; have [_ _ h4] := permute_followP p w3.
rewrite h4 // h3 //; split=> //; have [k hk <-] := perm_onto p hj.
by rewrite h2 // h1.
Qed.
Print Assumptions C35_permute.

(* a 3-cycle: solving in the two orders *)
Example C35_example : forall rm, wf 3 3 (cyc3 rm) /\
  lup_solve_vec 3 (decompose_lup 3 (cyc3 rm)) [:: 1; 2%:Q; 3%:Q] = Some [:: 3%:Q; 1; 2%:Q] /\
  lup_solve_vec_follow 3 (decompose_lup 3 (cyc3 rm)) [:: 1; 2%:Q; 3%:Q] = Some [:: 2%:Q; 3%:Q; 1].
Proof. by case; split=> //; split; apply/eqP; vm_compute. Qed.

(** * C36 Inverse from the decompositions *)
Theorem C36_lu_inverse (F : fieldType) (n : nat) (A : mat F) d :
  (0 < n)%N -> wf n n A -> decompose_lu n A = Some d -> \det (mxof n n A) != 0 ->
  (exists2 x, lu_inverse n d = Some x & [/\ wf n n x, rowmaj x = rowmaj A,
     mxof n n A *m mxof n n x = 1%:M & mxof n n x *m mxof n n A = 1%:M]) /\
  (exists2 x, lu_inverse_follow n d = Some x & [/\ wf n n x, rowmaj x = rowmaj A,
     mxof n n A *m mxof n n x = 1%:M & mxof n n x *m mxof n n A = 1%:M]).
Proof.
move=> n0 wA e nz; have := decompose_luP n0 wA; rewrite e; case: d e => L U e [_ eL _ _].
have [wI rI _ _] := identityP (rowmaj L) (junk L) n n.
have := C35_lu_solve n (identity (rowmaj L) (junk L) n n) n0 wA e.
rewrite /lu_inverse /lu_inverse_follow /= mxof_identity rI; rewrite eL in wI *.
move=> [/(_ wI) [/(_ nz) [x -> [w1 r1 h1]] _] /(_ wI) [/(_ nz) [y -> [w2 r2 h2]] _]].
by split; [exists x|exists y] => //; split=> //; apply: mulmx1C.
Qed.
Print Assumptions C36_lu_inverse.

Theorem C36_lup_inverse (F : numFieldType) (n : nat) (A : mat F) :
  (0 < n)%N -> wf n n A -> \det (mxof n n A) != 0 ->
  (exists2 x, lup_inverse n (decompose_lup n A) = Some x & [/\ wf n n x, rowmaj x = rowmaj A,
     mxof n n A *m mxof n n x = 1%:M & mxof n n x *m mxof n n A = 1%:M]) /\
  (exists2 x, lup_inverse_follow n (decompose_lup n A) = Some x & [/\ wf n n x, rowmaj x = rowmaj A,
     mxof n n A *m mxof n n x = 1%:M & mxof n n x *m mxof n n A = 1%:M]).
Proof.
move=> n0 wA nz; set d := decompose_lup n A; have [_ _ _ [eL _] _] := decompose_lupP n0 wA; rewrite -/d in eL.
have [wI rI _ _] := identityP (rowmaj (lupL d)) (junk (lupL d)) n n.
have := C35_lup_solve n (identity (rowmaj (lupL d)) (junk (lupL d)) n n) n0 wA; rewrite -/d.
rewrite /lup_inverse /lup_inverse_follow /= mxof_identity rI; rewrite eL in wI *.
move=> [/(_ wI) [/(_ nz) [x -> [w1 r1 h1]] _] /(_ wI) [/(_ nz) [y -> [w2 r2 h2]] _]].
by split; [exists x|exists y] => //; split=> //; apply: mulmx1C.
Qed.
Print Assumptions C36_lup_inverse.

(** * C31 Inverse of larger matrices *)
Theorem C31_inverse (F : numFieldType) (n : nat) (A : mat F) :
  (0 < n)%N -> wf n n A ->
  (\det (mxof n n A) != 0 ->
   (exists2 x, inverse_general n A = Some x & [/\ wf n n x, rowmaj x = rowmaj A,
      mxof n n A *m mxof n n x = 1%:M & mxof n n x *m mxof n n A = 1%:M]) /\
   (exists2 x, inverse_general_follow n A = Some x & [/\ wf n n x, rowmaj x = rowmaj A,
      mxof n n A *m mxof n n x = 1%:M & mxof n n x *m mxof n n A = 1%:M])) /\
  (\det (mxof n n A) = 0 -> inverse_general n A = None /\ inverse_general_follow n A = None).
Proof.
move=> n0 wA; split=> [|z]; first exact: C36_lup_inverse.
set d := decompose_lup n A.
have [wI _ _ _] := identityP (rowmaj (lupL d)) (junk (lupL d)) n n.
have [/(_ wI) [_ h1] /(_ wI) [_ h2]] :=
  C35_lup_solve n (identity (rowmaj (lupL d)) (junk (lupL d)) n n) n0 wA.
by split; [apply: h1|apply: h2].
Qed.
Print Assumptions C31_inverse.

Definition perm5 rm : mat rat := ctor_elems rm 77%:Q 5 5
  [:: 0; 2%:Q; 0; 0; 0;  0; 0; 4%:Q; 0; 0;  1; 0; 0; 0; 0;  0; 0; 0; 1; 0;  0; 0; 0; 1; 1].
Example C31_example : forall rm,
  omap (fun x => [seq get_row 5 x i | i <- iota 0 5]) (inverse_general 5 (perm5 rm)) =
  Some [:: [:: 0; 0; 1; 0; 0]; [:: 2%:Q^-1; 0; 0; 0; 0]; [:: 0; 4%:Q^-1; 0; 0; 0];
           [:: 0; 0; 0; 1; 0]; [:: 0; 0; 0; - 1; 1]].
Proof. by case; apply/eqP; vm_compute. Qed.
