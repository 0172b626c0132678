(* Properties C17-C28 and C30: matrix storage, conversions, arithmetic, functions, small
   determinants and inverses. [mxof r c A] (Spec.v) is the mathematical matrix of the elements read
   through operator(); [wf r c A] says that the object has the memory shape of an r x c matrix. *)
From mathcomp Require Import all_ssreflect all_algebra.
From mathcomp Require Import ring.
From Verif Require Import Spec M_Vec P_Vec P_Det M_Mat P_Mat P_Mat2.
Set Implicit Arguments. Unset Strict Implicit. Unset Printing Implicit Defensive.
Import Order.Theory GRing.Theory Num.Theory.

(* test matrices: 2 x 3 and 3 x 2 over the integers, in both layouts *)
Local Open Scope ring_scope.
Definition ex23 rm : mat int := ctor_elems rm (-99) 2 3 [:: 1; 2; 3; 4; 5; 6].
Definition ex32 rm : mat int := ctor_elems rm 77 3 2 [:: 1; 0; -1; 2; 0; 3].
Definition ex22 rm : mat int := ctor_elems rm 77 2 2 [:: 2; 1; 5; 3].
Local Close Scope ring_scope.

(** * C17 Construction from scalars *)
Theorem C17_construction (T : Type) (rm : bool) (jk x0 : T) (r c : nat) (elems : seq T) :
  size elems = r * c ->
  wf r c (ctor_elems rm jk r c elems) /\
  forall i j, i < r -> j < c -> get (ctor_elems rm jk r c elems) i j = nth x0 elems (i * c + j).
Proof.
move=> h; have [w _ hg] := ctor_elemsP rm jk h; split=> // i j hi hj; rewrite hg //.
apply: set_nth_default; rewrite h.
by apply: (@leq_trans (i.+1 * c)); rewrite ?leq_mul2r ?hi ?orbT // mulSn addnC ltn_add2r.
Qed.
Print Assumptions C17_construction.

(* two matrices built from the same scalars in different layouts hold the same elements *)
Theorem C17_layout_independent (T : Type) (rm rm' : bool) (jk jk' : T) (r c : nat) (elems : seq T) i j :
  size elems = r * c -> i < r -> j < c ->
  get (ctor_elems rm jk r c elems) i j = get (ctor_elems rm' jk' r c elems) i j.
Proof.
move=> h hi hj; have [_ h1] := C17_construction rm jk jk h; have [_ h2] := C17_construction rm' jk' jk h.
by rewrite h1 ?h2.
Qed.
Print Assumptions C17_layout_independent.

(* a one-column or one-row matrix built from a vector holds it, and converts back to it *)
Theorem C17_vector (T : Type) (rm : bool) (jk : T) (r c : nat) (v : seq T) :
  minn r c = 1 -> size v = maxn r c ->
  (forall i j, i < r -> j < c -> get (ctor_vector rm jk r c v) i j = nth jk v (maxn i j)) /\
  to_vector r c (ctor_vector rm jk r c v) = v.
Proof.
move=> hm sv; have [w _ hg] := ctor_vectorP rm jk hm sv; split.
  move=> i j hi hj; rewrite hg //; congr nth; move: hm hi hj.
  by rewrite /minn; case: ltnP => _ ->; rewrite ltnS leqn0; [move/eqP -> => _|move=> _ /eqP ->];
     rewrite ?max0n ?maxn0 ?addn0.
have [s1 h1] := to_vectorP jk w hm.
apply: (@eq_from_nth _ jk); rewrite s1 // => k hk.
have [i [j [hi hj ->]]] : exists i j, [/\ i < r, j < c & k = i + j].
  move: hm hk; rewrite /minn /maxn; case: ltnP => _ e hk; first by exists 0, k; rewrite e.
  by exists k, 0; rewrite e addn0.
by rewrite h1 // hg.
Qed.
Print Assumptions C17_vector.

Example C17_example :
  [/\ get (ex23 true) 1 0 = 4, get (ex23 false) 1 0 = 4 & stripes (ex23 false) = [:: [:: 1; 4]; [:: 2; 5]; [:: 3; 6]]]%R.
Proof. by []. Qed.
Example C17_vector_example : to_vector 3 1 (ctor_vector true 0 3 1 [:: 5; 6; 7]) = [:: 5; 6; 7]
  /\ stripes (ctor_vector true 0 3 1 [:: 5; 6; 7]) = [:: [:: 5]; [:: 6]; [:: 7]].
Proof. by []. Qed.

(** * C18 Element access is a faithful store *)
(* histories of writes *)
Inductive write (T : Type) := WElem of nat & nat & T | WRow of nat & seq T | WCol of nat & seq T.
Definition legal T (r c : nat) (w : write T) : bool :=
  match w with
  | WElem i j _ => (i < r) && (j < c)
  | WRow i v => (i < r) && (size v == c)
  | WCol j v => (j < c) && (size v == r)
  end.
(* what the library does *)
Definition perform T (r c : nat) (A : mat T) (w : write T) : mat T :=
  match w with
  | WElem i j x => set A i j x
  | WRow i v => set_row c A i v
  | WCol j v => set_col r A j v
  end.
(* what the user expects, on a mathematical array *)
Definition expect T (x0 : T) (f : nat -> nat -> T) (w : write T) : nat -> nat -> T :=
  fun i j => match w with
  | WElem i' j' x => if (i == i') && (j == j') then x else f i j
  | WRow i' v => if i == i' then nth x0 v j else f i j
  | WCol j' v => if j == j' then nth x0 v i else f i j
  end.

Theorem C18_faithful_store (T : Type) (x0 : T) (r c : nat) (A : mat T) (ws : seq (write T)) :
  wf r c A -> all (legal r c) ws ->
  wf r c (foldl (perform r c) A ws) /\
  forall i j, i < r -> j < c ->
    get (foldl (perform r c) A ws) i j = foldl (expect x0) (get A) ws i j.
Proof.
move=> w; have : forall i j, i < r -> j < c -> get A i j = get A i j by [].
move: {1 3}(get A) => f; elim: ws A f w => [|x ws IH] A f w hf /=.
  by split=> // i j hi hj; rewrite hf.
case/andP => hx hws; have [w' hf'] : wf r c (perform r c A x) /\
    forall i j, i < r -> j < c -> expect x0 f x i j = get (perform r c A x) i j.
  case: x hx => [i' j' x|i' v|j' v] /= /andP [h1 h2].
  - by split=> [|i j hi hj]; [apply: wf_set|rewrite get_set hf].
  - have [[w1 _ _] hg] := set_rowP w h1 (eqP h2); split=> // i j hi hj; rewrite hg hf //.
    by case: eqP => // _; apply: set_nth_default; rewrite (eqP h2).
  - have [[w1 _ _] hg] := set_colP w h1 (eqP h2); split=> // i j hi hj; rewrite hg hf //.
    by case: eqP => // _; apply: set_nth_default; rewrite (eqP h2).
have [w2 h2] := IH _ _ w' hf' hws; split=> // i j hi hj; rewrite h2 //.
Qed.
Print Assumptions C18_faithful_store.

Theorem C18_row_column (T : Type) (x0 : T) (r c : nat) (A : mat T) : wf r c A ->
  (forall i, i < r -> size (get_row c A i) = c /\ forall j, j < c -> nth x0 (get_row c A i) j = get A i j) /\
  (forall j, j < c -> size (get_col r A j) = r /\ forall i, i < r -> nth x0 (get_col r A j) i = get A i j).
Proof.
move=> w; split=> k hk; split; rewrite ?(size_get_row w) ?(size_get_col w) // => l hl.
  by rewrite (nth_get_row _ w).
by rewrite (nth_get_col _ w).
Qed.
Print Assumptions C18_row_column.

Example C18_example :
  let h := [:: WElem 0 1 50%R; WCol 2 [:: 7; 8]%R; WRow 1 [:: 9; 9; 10]%R; WElem 1 0 (-1)%R] in
  [/\ all (legal 2 3) h, wf 2 3 (ex23 false) &
     [seq get_row 3 (foldl (perform 2 3) (ex23 false) h) i | i <- [:: 0; 1]] = [:: [:: 1; 50; 7]; [:: -1; 9; 10]]%R].
Proof. by []. Qed.

(** * C19 Conversions *)
Theorem C19_layout (T : Type) (rm : bool) (r c : nat) (A : mat T) : wf r c A ->
  [/\ wf r c (convert rm r c A), rowmaj (convert rm r c A) = rm &
      forall i j, i < r -> j < c -> get (convert rm r c A) i j = get A i j].
Proof. by move=> w; have [? ? _ ?] := convertP rm w. Qed.
Print Assumptions C19_layout.

Theorem C19_order (T : Type) (rm : bool) (r c : nat) (A : mat T) : wf r c A ->
  [/\ wf c r (convert_order rm c r A), rowmaj (convert_order rm c r A) = rm &
      forall i j, i < c -> j < r -> get (convert_order rm c r A) i j = get A j i].
Proof. by move=> w; have [? ? _ ?] := convert_orderP rm w. Qed.
Print Assumptions C19_order.

(* FlipLayoutAndOrder moves no data, and FlipOrder<preserveElements = false>... both transpose or
   keep the elements as documented *)
Theorem C19_flip (T : Type) (r c : nat) (A : mat T) : wf r c A ->
  [/\ stripes (flip_layout_and_order r c A) = stripes A,
      rowmaj (flip_layout_and_order r c A) = ~~ rowmaj A &
      forall i j, i < c -> j < r -> get (flip_layout_and_order r c A) i j = get A j i].
Proof.
move=> w; have [_ e _ h] := flip_layout_and_orderP w; split=> //.
rewrite /flip_layout_and_order /convert_order; have -> : (~~ rowmaj A != rowmaj A) by case: (rowmaj A).
rewrite /= -[RHS](mkseq_nth [::]) (wf_count w) /stripe_count.
by case: (rowmaj A).
Qed.
Print Assumptions C19_flip.
(* FlipOrder: transposed elements when they are to be kept as a map, the same elements otherwise *)
Theorem C19_flip_order (T : Type) (preserve : bool) (r c : nat) (A : mat T) : wf r c A ->
  (forall i j, i < c -> j < r -> get (flip_order true r c A) i j = get A j i) /\
  (forall i j, get (flip_order false r c A) i j = get A i j) /\
  rowmaj (flip_order preserve r c A) = rowmaj A.
Proof.
move=> w; have [_ e h] := C19_order (rowmaj A) w; split; [exact: h|split=> //].
by case: preserve.
Qed.
Print Assumptions C19_flip_order.

Theorem C19_roundtrip (T : Type) (rm1 : bool) (r c : nat) (A : mat T) : wf r c A ->
  convert (rowmaj A) r c (convert rm1 r c A) = A /\
  convert_order (rowmaj A) r c (convert_order rm1 c r A) = A.
Proof.
(* a matrix object is determined by its layout and elements *)
have ext (B : mat T) : wf r c A -> wf r c B -> rowmaj B = rowmaj A -> junk B = junk A ->
    (forall i j, i < r -> j < c -> get B i j = get A i j) -> B = A.
  move=> wA wB e1 e2 h; have hA := wf_count wA; have hB := wf_count wB.
  have dA := wf_dim wA; have dB := wf_dim wB; rewrite e1 in hB dB.
  have {h} : stripes B = stripes A.
    apply: (@eq_from_nth _ [::]); rewrite hB ?hA // => s hs.
    apply: (@eq_from_nth _ (junk A)); rewrite dB ?dA // => t ht.
    move: h hs ht; rewrite /get e1 e2 /stripe_count /stripe_dim; case: (rowmaj A) => h hs ht.
      exact: h. exact: (h t s).
  by case: A B e1 e2 {wA wB hA hB dA dB} => rA jA sA [rB jB sB] /= -> -> ->.
move=> w; split.
  have [w1 e1 e2 h1] := convertP rm1 w; have [w2 e3 e4 h2] := convertP (rowmaj A) w1.
  by apply: ext => //; rewrite ?e4 // => i j hi hj; rewrite h2 // h1.
have [w1 e1 e2 h1] := convert_orderP rm1 w; have [w2 e3 e4 h2] := convert_orderP (rowmaj A) w1.
by apply: ext => //; rewrite ?e4 // => i j hi hj; rewrite h2 // h1.
Qed.
Print Assumptions C19_roundtrip.

Local Open Scope ring_scope.
(* the converted matrix acts on vectors in the same way: PRECEDE r x c to FOLLOW c x r *)
Theorem C19_action (R : ringType) (rm : bool) (r c : nat) (A : mat R) (v : seq R) :
  wf r c A -> (0 < c)%N -> size v = c ->
  vec_mat c r v (convert_order rm c r A) = mat_vec r c A v.
Proof.
move=> w c0 sv; have [w1 _ _ h] := convert_orderP rm w.
rewrite (vec_matP w1) // (mat_vecP w) //; apply/eq_in_map => i; rewrite mem_iota => hi.
by apply: eq_bigr => l _; rewrite h.
Qed.
Print Assumptions C19_action.

Theorem C19_action_follow (R : ringType) (rm : bool) (r c : nat) (A : mat R) (v : seq R) :
  wf r c A -> (0 < r)%N -> size v = r ->
  mat_vec c r (convert_order rm c r A) v = vec_mat r c v A.
Proof.
move=> w c0 sv; have [w1 _ _ h] := convert_orderP rm w.
rewrite (vec_matP w) // (mat_vecP w1) //; apply/eq_in_map => i; rewrite mem_iota => hi.
by apply: eq_bigr => l _; rewrite h.
Qed.
Print Assumptions C19_action_follow.

Example C19_example : [/\ wf 2 3 (ex23 true),
  stripes (convert false 2 3 (ex23 true)) = [:: [:: 1; 4]; [:: 2; 5]; [:: 3; 6]],
  mat_vec 2 3 (ex23 true) [:: 1; 10; 100] = [:: 321; 654] &
  vec_mat 3 2 [:: 1; 10; 100] (convert_order true 3 2 (ex23 true)) = [:: 321; 654]].
Proof. by []. Qed.
Local Close Scope ring_scope.

(** * C20 Extract and Insert *)
Theorem C20_extract (T : Type) (r c er ec wr wc : nat) (A : mat T) :
  wf r c A -> er + wr <= r -> ec + wc <= c ->
  wf er ec (extract er ec wr wc A) /\
  forall i j, i < er -> j < ec -> get (extract er ec wr wc A) i j = get A (wr + i) (wc + j).
Proof.
move=> _ _ _; have [w _ h] := extractP er ec wr wc A; split=> // i j hi hj.
by rewrite h // addnC [j + _]addnC.
Qed.
Print Assumptions C20_extract.

Theorem C20_insert (T : Type) (r c ir ic wr wc : nat) (sub A : mat T) :
  wf r c A -> wf ir ic sub -> ir + wr <= r -> ic + wc <= c ->
  [/\ wf r c (insert ir ic wr wc sub A),
      forall i j, i < ir -> j < ic -> get (insert ir ic wr wc sub A) (wr + i) (wc + j) = get sub i j &
      forall i j, ~~ ((wr <= i < wr + ir) && (wc <= j < wc + ic)) ->
        get (insert ir ic wr wc sub A) i j = get A i j].
Proof.
move=> w ws h1 h2; have [[w' _ _] h] := insertP sub w h1 h2; split=> //.
  move=> i j hi hj; rewrite h !leq_addr ![_ + wr]addnC ![_ + wc]addnC !ltn_add2l hi hj /=.
  by rewrite !addKn.
by move=> i j; rewrite h ![_ + wr]addnC ![_ + wc]addnC => /negbTE ->.
Qed.
Print Assumptions C20_insert.

Theorem C20_extract_insert (T : Type) (r c ir ic wr wc : nat) (sub A : mat T) :
  wf r c A -> wf ir ic sub -> ir + wr <= r -> ic + wc <= c ->
  forall i j, i < ir -> j < ic ->
    get (extract ir ic wr wc (insert ir ic wr wc sub A)) i j = get sub i j.
Proof.
move=> w ws h1 h2 i j hi hj; have [w' h _] := C20_insert w ws h1 h2.
by have [_ h'] := C20_extract w' h1 h2; rewrite h' // h.
Qed.
Print Assumptions C20_extract_insert.

Theorem C20_insert_extract (T : Type) (r c ir ic wr wc : nat) (A : mat T) :
  wf r c A -> ir + wr <= r -> ic + wc <= c ->
  forall i j, get (insert ir ic wr wc (extract ir ic wr wc A) A) i j = get A i j.
Proof.
move=> w h1 h2 i j; have [we he] := C20_extract w h1 h2; have [_ g1 g2] := C20_insert w we h1 h2.
case hin: ((wr <= i < wr + ir) && (wc <= j < wc + ic)); last by rewrite g2 // hin.
case/andP: hin => /andP [a1 a2] /andP [b1 b2].
have := g1 (i - wr) (j - wc); rewrite !ltn_subLR // => /(_ a2 b2).
by rewrite !subnKC // => ->; rewrite he ?ltn_subLR // !subnKC.
Qed.
Print Assumptions C20_insert_extract.

Example C20_example : [/\ wf 3 2 (ex32 false), 2 + 1 <= 3, 2 + 0 <= 2,
  [seq get_row 2 (extract 2 2 1 0 (ex32 false)) i | i <- [:: 0; 1]] = [:: [:: -1; 2]; [:: 0; 3]]%R &
  [seq get_row 2 (insert 2 2 1 0 (ex22 true) (ex32 false)) i | i <- [:: 0; 1; 2]]
     = [:: [:: 1; 0]; [:: 2; 1]; [:: 5; 3]]%R].
Proof. by []. Qed.

Local Open Scope ring_scope.
(** * C21 Matrix product *)
Theorem C21_product (R : ringType) (r k c : nat) (A B : mat R) :
  wf r k A -> wf k c B -> (0 < k)%N ->
  wf r c (mat_mul r k c A B) /\ mxof r c (mat_mul r k c A B) = mxof r k A *m mxof k c B.
Proof. by move=> wA wB k0; have [w _ _] := mat_mulP wA wB k0; split=> //; apply: mxof_mul. Qed.
Print Assumptions C21_product.

Theorem C21_layout_independent (R : ringType) (r k c : nat) (rmA rmB : bool) (A B : mat R) :
  wf r k A -> wf k c B -> (0 < k)%N -> forall i j, (i < r)%N -> (j < c)%N ->
  get (mat_mul r k c (convert rmA r k A) (convert rmB k c B)) i j = get (mat_mul r k c A B) i j.
Proof.
move=> wA wB k0 i j hi hj; have [wA' _ hA] := C19_layout rmA wA; have [wB' _ hB] := C19_layout rmB wB.
have [_ _ ->] // := mat_mulP wA wB k0; have [_ _ ->] // := mat_mulP wA' wB' k0.
by apply: eq_bigr => l _; rewrite hA ?hB.
Qed.
Print Assumptions C21_layout_independent.

Theorem C21_product_assign (R : ringType) (n : nat) (A B : mat R) : wf n n A -> wf n n B -> (0 < n)%N ->
  [/\ wf n n (mat_mul_assign n A B), rowmaj (mat_mul_assign n A B) = rowmaj A &
      mxof n n (mat_mul_assign n A B) = mxof n n A *m mxof n n B].
Proof.
move=> wA wB n0; have [w _ _] := mat_mulP wA wB n0; have [w' e h] := C19_layout (rowmaj A) w.
by split=> //; rewrite -mxof_mul //; apply/matrixP => i j; rewrite !mxE h.
Qed.
Print Assumptions C21_product_assign.

Example C21_example : forall a b, wf 2 3 (ex23 a) /\ wf 3 2 (ex32 b) /\
  [seq get_row 2 (mat_mul 2 3 2 (ex23 a) (ex32 b)) i | i <- [:: 0; 1]%N] = [:: [:: -1; 13]; [:: -1; 28]].
Proof. by do 2 case. Qed.

(** * C22 Matrix-vector products *)
Theorem C22_vec_mat (R : ringType) (k c : nat) (v : seq R) (B : mat R) :
  wf k c B -> (0 < k)%N -> size v = k ->
  size (vec_mat k c v B) = c /\ rv c (vec_mat k c v B) = rv k v *m mxof k c B.
Proof.
move=> w k0 sv; rewrite (vec_matP w) // size_mkseq; split=> //.
by apply/rowP => j; rewrite !mxE nth_mkseq //; apply: eq_bigr => l _; rewrite !mxE.
Qed.
Print Assumptions C22_vec_mat.

Theorem C22_mat_vec (R : comRingType) (r k : nat) (A : mat R) (v : seq R) :
  wf r k A -> (0 < k)%N -> size v = k ->
  size (mat_vec r k A v) = r /\ (rv r (mat_vec r k A v))^T = mxof r k A *m (rv k v)^T.
Proof.
move=> w k0 sv; rewrite (mat_vecP w) // size_mkseq; split=> //.
apply/matrixP => i j; rewrite !mxE nth_mkseq //; apply: eq_bigr => l _; rewrite !mxE mulrC //.
Qed.
Print Assumptions C22_mat_vec.

Example C22_example : forall a, mat_vec 2 3 (ex23 a) [:: 1; 10; 100] = [:: 321; 654] /\
  vec_mat 2 3 [:: 1; 10] (ex23 a) = [:: 41; 52; 63].
Proof. by case. Qed.

(** * C23 Composition *)
(* a chain of transforms: matrix number i maps dimension d_i to d_(i+1) *)
Fixpoint chain_ok (R : ringType) (d : nat) (ms : seq (nat * mat R)) : bool :=
  match ms with
  | [::] => true
  | (d', M) :: ms' => [&& (0 < d')%N, wf d' d M & chain_ok d' ms']
  end.
(* PRECEDE: the composed matrix is Mn * ... * M2 * M1 *)
Definition compose_precede (R : ringType) (d0 : nat) (first : nat * mat R) (ms : seq (nat * mat R)) :=
  foldl (fun P M => (M.1, mat_mul M.1 P.1 d0 M.2 P.2)) first ms.
Definition apply_precede (R : ringType) (d0 : nat) (v : seq R) (ms : seq (nat * mat R)) :=
  foldl (fun w M => (M.1, mat_vec M.1 w.1 M.2 w.2)) (d0, v) ms.

Theorem C23_chain_precede (R : comRingType) (d0 d1 : nat) (M1 : mat R) (ms : seq (nat * mat R)) (v : seq R) :
  (0 < d0)%N -> chain_ok d0 ((d1, M1) :: ms) -> size v = d0 ->
  mat_vec (compose_precede d0 (d1, M1) ms).1 d0 (compose_precede d0 (d1, M1) ms).2 v =
  (apply_precede d0 v ((d1, M1) :: ms)).2.
Proof.
move=> h0 /= /and3P [h1 w1 hc] sv; rewrite /compose_precede /apply_precede /=.
have : mat_vec d1 d0 M1 v = mat_vec d1 d0 M1 v by [].
move: {2 3}(mat_vec d1 d0 M1 v) => u.
elim: ms d1 M1 u h1 w1 hc => [|[d2 M2] ms IH] d1 M1 u h1 w1 //= /and3P [h2 w2 hc] e.
have [w3 e3] := C21_product w2 w1 h1; apply: IH => //.
have [s1 a1] := C22_mat_vec w1 h0 sv; have [s2 a2] := C22_mat_vec w3 h0 sv.
rewrite -e; have [s3 a3] := C22_mat_vec w2 h1 s1.
apply: (@eq_from_nth _ 0); rewrite s2 ?s3 // => i hi.
have /colP/(_ (Ordinal hi)) : (rv d2 (mat_vec d2 d0 (mat_mul d2 d1 d0 M2 M1) v))^T =
  (rv d2 (mat_vec d2 d1 M2 (mat_vec d1 d0 M1 v)))^T.
  by rewrite a2 a3 a1 e3 mulmxA.
by rewrite !mxE.
Qed.
Print Assumptions C23_chain_precede.

(* FOLLOW: the composed matrix is M1 * M2 * ... * Mn; matrix number i is d_i x d_(i+1) *)
Fixpoint chain_ok_follow (R : ringType) (d : nat) (ms : seq (nat * mat R)) : bool :=
  match ms with
  | [::] => true
  | (d', M) :: ms' => [&& (0 < d')%N, wf d d' M & chain_ok_follow d' ms']
  end.
Definition compose_follow (R : ringType) (d0 : nat) (first : nat * mat R) (ms : seq (nat * mat R)) :=
  foldl (fun P M => (M.1, mat_mul d0 P.1 M.1 P.2 M.2)) first ms.
Definition apply_follow (R : ringType) (d0 : nat) (v : seq R) (ms : seq (nat * mat R)) :=
  foldl (fun w M => (M.1, vec_mat w.1 M.1 w.2 M.2)) (d0, v) ms.

Theorem C23_chain_follow (R : ringType) (d0 d1 : nat) (M1 : mat R) (ms : seq (nat * mat R)) (v : seq R) :
  (0 < d0)%N -> chain_ok_follow d0 ((d1, M1) :: ms) -> size v = d0 ->
  vec_mat d0 (compose_follow d0 (d1, M1) ms).1 v (compose_follow d0 (d1, M1) ms).2 =
  (apply_follow d0 v ((d1, M1) :: ms)).2.
Proof.
move=> h0 /= /and3P [h1 w1 hc] sv; rewrite /compose_follow /apply_follow /=.
have : vec_mat d0 d1 v M1 = vec_mat d0 d1 v M1 by [].
move: {2 3}(vec_mat d0 d1 v M1) => u.
elim: ms d1 M1 u h1 w1 hc => [|[d2 M2] ms IH] d1 M1 u h1 w1 //= /and3P [h2 w2 hc] e.
have [w3 e3] := C21_product w1 w2 h1; apply: IH => //.
have [s1 a1] := C22_vec_mat w1 h0 sv; have [s2 a2] := C22_vec_mat w3 h0 sv.
rewrite -e; have [s3 a3] := C22_vec_mat w2 h1 s1.
apply: (@eq_from_nth _ 0); rewrite s2 ?s3 // => i hi.
have /rowP/(_ (Ordinal hi)) : rv d2 (vec_mat d0 d2 v (mat_mul d0 d1 d2 M1 M2)) =
  rv d2 (vec_mat d1 d2 (vec_mat d0 d1 v M1) M2).
  by rewrite a2 a3 a1 e3 mulmxA.
by rewrite !mxE.
Qed.
Print Assumptions C23_chain_follow.

(* composing then converting the order = converting then composing in reverse *)
Theorem C23_convert_compose (R : comRingType) (rm1 rm2 rm3 : bool) (r k c : nat) (A B : mat R) :
  wf r k A -> wf k c B -> (0 < k)%N ->
  forall i j, (i < c)%N -> (j < r)%N ->
  get (convert_order rm1 c r (mat_mul r k c A B)) i j =
  get (mat_mul c k r (convert_order rm2 c k B) (convert_order rm3 k r A)) i j.
Proof.
move=> wA wB k0 i j hi hj; have [wM _ hM] := mat_mulP wA wB k0.
have [_ _ ->] // := C19_order rm1 wM; rewrite hM //.
have [wA' _ hA] := C19_order rm3 wA; have [wB' _ hB] := C19_order rm2 wB.
have [_ _ ->] // := mat_mulP wB' wA' k0.
by apply: eq_bigr => l _; rewrite hA ?hB // mulrC.
Qed.
Print Assumptions C23_convert_compose.

Example C23_example :
  let ms := [:: (2%N, ex23 false); (2%N, ex22 true)] in
  [/\ chain_ok 2 ((3%N, ex32 true) :: ms),
      mat_vec 2 2 (compose_precede 2 (3%N, ex32 true) ms).2 [:: 1; 2] = [:: 105; 290] &
      (apply_precede 2 [:: 1; 2] ((3%N, ex32 true) :: ms)).2 = [:: 105; 290]].
Proof. by []. Qed.

(** * C24 Homogeneous and affine transformation *)
(* the reference: homogeneous image of a point under v*M / M*v *)
Theorem C24_homogeneous_follow (F : fieldType) (d : nat) (v : seq F) (B : mat F) :
  wf d.+1 d.+1 B -> size v = d ->
  let h j := \sum_(l < d) nth 0 v l * get B l j + get B d j in
  vec_mat_homogeneous d.+1 v B = if h d == 0 then None else Some (mkseq (fun j => h j / h d) d).
Proof.
move=> w sv h; rewrite /vec_mat_homogeneous (vec_matP w) ?size_rcons ?sv //.
rewrite (_ : mkseq _ d.+1 = mkseq h d.+1); last first.
  apply: eq_mkseq => j; rewrite big_ord_recr /= nth_rcons sv ltnn eqxx mul1r; congr (_ + _).
  by apply: eq_bigr => l _; rewrite nth_rcons sv ltn_ord.
rewrite /perspective_divide mkseqS last_rcons; case: ifP => // _.
by rewrite size_rcons -cats1 take_size_cat // /mkseq -map_comp.
Qed.
Print Assumptions C24_homogeneous_follow.

Theorem C24_homogeneous_precede (F : fieldType) (d : nat) (v : seq F) (A : mat F) :
  wf d.+1 d.+1 A -> size v = d ->
  let h i := \sum_(l < d) get A i l * nth 0 v l + get A i d in
  mat_vec_homogeneous d.+1 A v = if h d == 0 then None else Some (mkseq (fun i => h i / h d) d).
Proof.
move=> w sv h; rewrite /mat_vec_homogeneous (mat_vecP w) ?size_rcons ?sv //.
rewrite (_ : mkseq _ d.+1 = mkseq h d.+1); last first.
  apply: eq_mkseq => j; rewrite big_ord_recr /= nth_rcons sv ltnn eqxx mul1r; congr (_ + _).
  by apply: eq_bigr => l _; rewrite nth_rcons sv ltn_ord mulrC.
rewrite /perspective_divide mkseqS last_rcons; case: ifP => // _.
by rewrite size_rcons -cats1 take_size_cat // /mkseq -map_comp.
Qed.
Print Assumptions C24_homogeneous_precede.

Theorem C24_affine (F : fieldType) (d : nat) (v : seq F) (A B : mat F) :
  wf d d.+1 A -> wf d.+1 d B -> size v = d ->
  mat_vec_affine d.+1 A v = mkseq (fun i => \sum_(l < d) get A i l * nth 0 v l + get A i d) d /\
  vec_mat_affine d.+1 v B = mkseq (fun j => \sum_(l < d) nth 0 v l * get B l j + get B d j) d.
Proof.
move=> wA wB sv; rewrite /mat_vec_affine /vec_mat_affine (vec_matP wB) ?(mat_vecP wA) ?size_rcons ?sv //.
split; apply: eq_mkseq => j; rewrite big_ord_recr /= nth_rcons sv ltnn eqxx mul1r; congr (_ + _);
  apply: eq_bigr => l _; rewrite nth_rcons sv ltn_ord //; exact: mulrC.
Qed.
Print Assumptions C24_affine.

(* a square matrix whose last row is (0 ... 0 1) does the same as its affine part *)
Theorem C24_affine_padded_precede (F : fieldType) (d : nat) (v : seq F) (A S : mat F) :
  wf d d.+1 A -> wf d.+1 d.+1 S -> size v = d ->
  (forall i j, (i < d)%N -> (j <= d)%N -> get S i j = get A i j) ->
  (forall j, (j <= d)%N -> get S d j = (j == d)%:R) ->
  mat_vec_homogeneous d.+1 S v = Some (mat_vec_affine d.+1 A v).
Proof.
move=> wA wS sv h1 h2; rewrite (C24_homogeneous_precede wS sv) h2 // eqxx.
have e0 : \sum_(l < d) get S d l * nth 0 v l = 0.
  by rewrite big1 // => l _; rewrite h2 ?(ltn_eqF (ltn_ord l)) ?mul0r //; apply: ltnW.
have wB : wf d.+1 d (uninit true (0 : F) d.+1 d) by apply: wf_uninit.
rewrite e0 add0r oner_eq0 /= (proj1 (C24_affine wA wB sv)); congr Some.
apply/eq_in_map => i; rewrite mem_iota => hi; rewrite divr1 h1 //; congr (_ + _).
by apply: eq_bigr => l _; rewrite h1 //; apply: ltnW.
Qed.
Print Assumptions C24_affine_padded_precede.

Theorem C24_affine_padded_follow (F : fieldType) (d : nat) (v : seq F) (B S : mat F) :
  wf d.+1 d B -> wf d.+1 d.+1 S -> size v = d ->
  (forall i j, (i <= d)%N -> (j < d)%N -> get S i j = get B i j) ->
  (forall i, (i <= d)%N -> get S i d = (i == d)%:R) ->
  vec_mat_homogeneous d.+1 v S = Some (vec_mat_affine d.+1 v B).
Proof.
move=> wB wS sv h1 h2; rewrite (C24_homogeneous_follow wS sv) h2 // eqxx.
have e0 : \sum_(l < d) nth 0 v l * get S l d = 0.
  by rewrite big1 // => l _; rewrite h2 ?(ltn_eqF (ltn_ord l)) ?mulr0 //; apply: ltnW.
have wA : wf d d.+1 (uninit true (0 : F) d d.+1) by apply: wf_uninit.
rewrite e0 add0r oner_eq0 /= (proj2 (C24_affine wA wB sv)); congr Some.
apply/eq_in_map => i; rewrite mem_iota => hi; rewrite divr1 h1 //; congr (_ + _).
by apply: eq_bigr => l _; rewrite h1 //; apply: ltnW.
Qed.
Print Assumptions C24_affine_padded_follow.

Example C24_example :
  let M := ctor_elems false 0 3 3 [:: 1%:Q; 2%:Q; 3%:Q; 0; 1; 5%:Q; 1; 1; 1] in
  [/\ wf 3 3 M, mat_vec_homogeneous 3 M [:: 1; 1] = Some [:: 2%:Q; 2%:Q] &
     mat_vec_homogeneous 3 M [:: -1; 0] = None].
Proof. by split; vm_compute. Qed.

(** * C25 Elementwise and scalar operations *)
Theorem C25_elementwise (R : ringType) (r c : nat) (A B : mat R) :
  wf r c A -> wf r c B ->
  [/\ wf r c (mat_add r c A B), wf r c (mat_sub r c A B), wf r c (hadamard r c A B) &
  forall i j, (i < r)%N -> (j < c)%N ->
  [/\ get (mat_add r c A B) i j = get A i j + get B i j,
      get (mat_sub r c A B) i j = get A i j - get B i j &
      get (hadamard r c A B) i j = get A i j * get B i j]].
Proof.
move=> wA wB; have [w1 _ h1] := elementwiseP wA wB (@vmap2_pw R +%R).
have [w2 _ h2] := elementwiseP wA wB (@vmap2_pw R (fun x y => x - y)).
have [w3 _ h3] := elementwiseP wA wB (@vmap2_pw R *%R).
by split=> // i j hi hj; split; [apply: h1|apply: h2|apply: h3].
Qed.
Print Assumptions C25_elementwise.

Theorem C25_scalar (R : ringType) (r c : nat) (A : mat R) (s : R) : wf r c A ->
  [/\ wf r c (mat_scale r c A s), wf r c (mat_scalel r c s A), wf r c (mat_neg r c A) &
  forall i j, (i < r)%N -> (j < c)%N ->
  [/\ get (mat_scale r c A s) i j = get A i j * s, get (mat_scalel r c s A) i j = s * get A i j &
      get (mat_neg r c A) i j = - get A i j] /\
  [/\ get (mat_adds r c A s) i j = get A i j + s, get (mat_subs r c A s) i j = get A i j - s,
      get (mat_sadd r c s A) i j = s + get A i j & get (mat_ssub r c s A) i j = s - get A i j]].
Proof.
move=> w.
have [w1 _ h1] := scalar_opP (f := fun v => vscale v s) w (fun v => erefl).
have [w2 _ h2] := scalar_opP (f := fun v => vscalel s v) w (fun v => erefl).
have [w3 _ h3] := scalar_opP (f := fun v => vneg v) w (fun v => erefl).
have [_ _ h4] := scalar_opP (f := fun v => [seq x + s | x <- v]) w (fun v => erefl).
have [_ _ h5] := scalar_opP (f := fun v => [seq x - s | x <- v]) w (fun v => erefl).
have [_ _ h6] := scalar_opP (f := fun v => [seq s + x | x <- v]) w (fun v => erefl).
have [_ _ h7] := scalar_opP (f := fun v => [seq s - x | x <- v]) w (fun v => erefl).
split=> // i j hi hj; split; split.
- exact: h1. - exact: h2. - by rewrite h3 // mulrN1. - exact: h4. - exact: h5. - exact: h6. - exact: h7.
Qed.
Print Assumptions C25_scalar.

Theorem C25_division (F : fieldType) (r c : nat) (A : mat F) (s : F) : wf r c A ->
  (mat_div r c A s = None <-> s = 0) /\
  forall B, mat_div r c A s = Some B -> wf r c B /\
    forall i j, (i < r)%N -> (j < c)%N -> get B i j = get A i j / s /\ get B i j * s = get A i j.
Proof.
move=> w; rewrite /mat_div; case: eqP => [->|/eqP s0]; first by split.
split; first by split=> // e; rewrite e eqxx in s0.
have [w1 _ h1] := scalar_opP (f := fun v => [seq x / s | x <- v]) w (fun v => erefl).
by move=> B [<-]; split=> // i j hi hj; rewrite h1 // divfK.
Qed.
Print Assumptions C25_division.

(* module laws, for operands in any mixture of layouts *)
Theorem C25_module_laws (R : comRingType) (r c : nat) (A B : mat R) (s : R) :
  wf r c A -> wf r c B ->
  [/\ mxof r c (mat_add r c A B) = mxof r c A + mxof r c B,
      mxof r c (mat_sub r c A B) = mxof r c A - mxof r c B,
      mxof r c (mat_scale r c A s) = s *: mxof r c A,
      mxof r c (mat_scalel r c s A) = s *: mxof r c A &
      mxof r c (mat_neg r c A) = - mxof r c A].
Proof.
move=> wA wB; have [_ _ _ h1] := C25_elementwise wA wB; have [_ _ _ h2] := C25_scalar s wA.
split; apply/matrixP => i j; have [? ? _] := h1 i j (ltn_ord i) (ltn_ord j);
  have [[? ? ?] _] := h2 i j (ltn_ord i) (ltn_ord j); rewrite !mxE //.
by rewrite mulrC.
Qed.
Print Assumptions C25_module_laws.

Example C25_example :
  [seq get_row 3 (mat_add 2 3 (ex23 true) (ex23 false)) i | i <- [:: 0; 1]%N] = [:: [:: 2; 4; 6]; [:: 8; 10; 12]] /\
  [seq get_row 3 (mat_ssub 2 3 1 (ex23 false)) i | i <- [:: 0; 1]%N] = [:: [:: 0; -1; -2]; [:: -3; -4; -5]].
Proof. by []. Qed.

(** * C26 Transpose, Trace, Sum, Norm, Min, Max *)
Theorem C26_transpose (T : Type) (r c : nat) (A : mat T) :
  wf c r (transpose r c A) /\
  (forall i j, (i < r)%N -> (j < c)%N -> get (transpose r c A) j i = get A i j) /\
  forall i j, (i < r)%N -> (j < c)%N -> get (transpose c r (transpose r c A)) i j = get A i j.
Proof.
have [w _ _ h] := transposeP r c A; have [_ _ _ h2] := transposeP c r (transpose r c A).
by split=> //; split=> i j hi hj; rewrite ?h2 // h.
Qed.
Print Assumptions C26_transpose.

Theorem C26_transpose_product (R : comRingType) (r k c : nat) (A B : mat R) :
  wf r k A -> wf k c B -> (0 < k)%N ->
  mxof c r (transpose r c (mat_mul r k c A B)) =
  mxof c r (mat_mul c k r (transpose k c B) (transpose r k A)).
Proof.
move=> wA wB k0; have [wAt [hA _]] := C26_transpose r k A; have [wBt [hB _]] := C26_transpose k c B.
have [_ ->] := C21_product wBt wAt k0.
apply/matrixP => i j; have [_ [h _]] := C26_transpose r c (mat_mul r k c A B).
have [_ _ hM] := mat_mulP wA wB k0; rewrite !mxE h // hM //; apply: eq_bigr => l _.
by rewrite !mxE hA ?hB // mulrC.
Qed.
Print Assumptions C26_transpose_product.

(* Sum, Trace, Norm are functions of the elements alone: explicit formulas without the layout *)
Theorem C26_sum_trace_norm (R : rcfType) (r c : nat) (A : mat R) : wf r c A -> (0 < r)%N -> (0 < c)%N ->
  [/\ mat_sum r c A = \sum_(i < r) \sum_(j < c) get A i j,
      trace r A = \sum_(i < r) get A i i,
      norm r c A = Num.sqrt (\sum_(i < r) \sum_(j < c) get A i j ^+ 2) &
      norm_precise r c A = Some (norm r c A)].
Proof.
move=> w r0 c0; rewrite (mat_sumP w) traceP (norm_preciseE w) // /norm (norm_squaredP w); split=> //.
Qed.
Print Assumptions C26_sum_trace_norm.

Theorem C26_norm_trace (R : rcfType) (r c : nat) (A : mat R) : wf r c A -> (0 < r)%N -> (0 < c)%N ->
  norm r c A ^+ 2 = \tr ((mxof r c A)^T *m mxof r c A) /\
  norm r c A ^+ 2 = trace c (mat_mul c r c (transpose r c A) A).
Proof.
move=> w r0 c0; have e : norm r c A ^+ 2 = \tr ((mxof r c A)^T *m mxof r c A).
  have [_ _ -> _] := C26_sum_trace_norm w r0 c0; rewrite sqr_sqrtr; last first.
    by apply: sumr_ge0 => i _; apply: sumr_ge0 => j _; rewrite sqr_ge0.
  rewrite exchange_big; apply: eq_bigr => j _; rewrite !mxE; apply: eq_bigr => i _.
  by rewrite !mxE expr2.
split=> //; rewrite e traceP; apply: eq_bigr => j _; have [wt [h _]] := C26_transpose r c A.
have [_ _ ->] // := mat_mulP wt w r0; rewrite mxE; apply: eq_bigr => i _.
by rewrite !mxE h.
Qed.
Print Assumptions C26_norm_trace.

Theorem C26_min_max (R : realDomainType) (r c : nat) (A : mat R) : wf r c A -> (0 < r)%N -> (0 < c)%N ->
  [/\ exists i j, [/\ (i < r)%N, (j < c)%N & mat_min r c A = get A i j],
      exists i j, [/\ (i < r)%N, (j < c)%N & mat_max r c A = get A i j] &
      forall i j, (i < r)%N -> (j < c)%N -> mat_min r c A <= get A i j <= mat_max r c A].
Proof.
move=> w r0 c0; have [a1 a2] := mat_minP w r0 c0; have [b1 b2] := mat_maxP w r0 c0.
by split=> // i j hi hj; rewrite a2 ?b2.
Qed.
Print Assumptions C26_min_max.

Theorem C26_layout_independent (R : rcfType) (rm : bool) (r c : nat) (A : mat R) :
  wf r c A -> (0 < r)%N -> (0 < c)%N -> let B := convert rm r c A in
  [/\ mat_sum r c B = mat_sum r c A, norm r c B = norm r c A,
      mat_min r c B = mat_min r c A, mat_max r c B = mat_max r c A & r = c -> trace r B = trace r A].
Proof.
move=> w r0 c0 B; have [wB _ h] := C19_layout rm w; rewrite -/B in wB h.
have [i1 i2 hA] := C26_min_max w r0 c0; have [j1 j2 hB] := C26_min_max wB r0 c0.
rewrite /norm !norm_squaredP // !mat_sumP // !traceP; split.
- by apply: eq_bigr => i _; apply: eq_bigr => j _; rewrite h.
- by congr Num.sqrt; apply: eq_bigr => i _; apply: eq_bigr => j _; rewrite h.
- apply/eqP; rewrite eq_le; apply/andP; split.
    by case: i1 => i [j [hi hj ->]]; rewrite -h //; case/andP: (hB i j hi hj).
  by case: j1 => i [j [hi hj ->]]; rewrite h //; case/andP: (hA i j hi hj).
- apply/eqP; rewrite eq_le; apply/andP; split.
    by case: j2 => i [j [hi hj ->]]; rewrite h //; case/andP: (hA i j hi hj).
  by case: i2 => i [j [hi hj ->]]; rewrite -h //; case/andP: (hB i j hi hj).
- by move=> e; apply: eq_bigr => i _; rewrite h // -e.
Qed.
Print Assumptions C26_layout_independent.

Example C26_example : forall b, wf 2 3 (ex23 b) /\
  [/\ [seq get_row 2 (transpose 2 3 (ex23 b)) i | i <- [:: 0; 1; 2]%N] = [:: [:: 1; 4]; [:: 2; 5]; [:: 3; 6]],
      mat_sum 2 3 (ex23 b) = 21, trace 2 (ex23 b) = 6, mat_min 3 2 (ex32 b) = -1 & mat_max 3 2 (ex32 b) = 3].
Proof. by case. Qed.

(** * C27 Equality *)
Theorem C27_equality (T : eqType) (r c : nat) (A B : mat T) :
  (mat_eq r c A B <-> forall i j, (i < r)%N -> (j < c)%N -> get A i j = get B i j) /\
  mat_neq r c A B = ~~ mat_eq r c A B.
Proof. by split=> //; apply: mat_eqP. Qed.
Print Assumptions C27_equality.

Theorem C27_equivalence (T : eqType) (r c : nat) :
  [/\ forall A : mat T, mat_eq r c A A,
      forall A B : mat T, mat_eq r c A B = mat_eq r c B A &
      forall A B C : mat T, mat_eq r c A B -> mat_eq r c B C -> mat_eq r c A C].
Proof.
have e (A B : mat T) := proj1 (C27_equality r c A B); split.
- by move=> A; apply/e.
- move=> A B; apply/idP/idP => /e h; apply/e => i j hi hj; by rewrite h.
- by move=> A B C /e h1 /e h2; apply/e => i j hi hj; rewrite h1 ?h2.
Qed.
Print Assumptions C27_equivalence.

(* comparing matrices of opposite orders compares the transforms *)
Theorem C27_opposite_order (T : eqType) (rm : bool) (r c : nat) (A B : mat T) : wf c r B ->
  mat_eq_order r c A B = mat_eq r c A (convert_order rm r c B).
Proof.
move=> w; have [_ _ h] := C19_order rm w; apply/idP/idP.
  by move/mat_eqP => e; apply/mat_eqP => i j hi hj; rewrite h // e.
by move/mat_eqP => e; apply/(mat_eqP r c (get A) (fun i j => get B j i)) => i j hi hj; rewrite e // h.
Qed.
Print Assumptions C27_opposite_order.

Example C27_example : mat_eq 2 3 (ex23 true) (ex23 false) /\ mat_neq 2 2 (ex22 true) (ex23 true).
Proof. by []. Qed.

(** * C28 Determinant of 2x2, 3x3 and 4x4 matrices *)
Theorem C28_determinant (R : comRingType) (A : mat R) :
  [/\ wf 2 2 A -> det2 A = \det (mxof 2 2 A),
      wf 3 3 A -> det3 A = \det (mxof 3 3 A) &
      wf 4 4 A -> det4 A = \det (mxof 4 4 A)].
Proof.
split=> w; first exact: det2P.
  by rewrite (det_smx w); apply: det3S.
by rewrite (det_smx w); apply: det4S.
Qed.
Print Assumptions C28_determinant.

(* what users rely on, in terms of the API function Determinant *)
Lemma determinant_small (F : fieldType) (n : nat) (A : mat F) : (2 <= n <= 4)%N -> wf n n A ->
  determinant n A = \det (mxof n n A).
Proof.
have [h2 h3 h4] := C28_determinant A.
by case: n => [|[|[|[|[|n]]]]] // _ w; rewrite /determinant ?h2 ?h3 ?h4.
Qed.
Theorem C28_laws (F : fieldType) (rm : bool) (n : nat) (A B : mat F) :
  (2 <= n <= 4)%N -> wf n n A -> wf n n B ->
  [/\ determinant n (mat_mul n n n A B) = determinant n A * determinant n B,
      determinant n (transpose n n A) = determinant n A,
      determinant n (convert rm n n A) = determinant n A &
      (determinant n A = 0 <-> exists2 v : 'rV[F]_n, v != 0 & v *m mxof n n A = 0)].
Proof.
move=> hn wA wB; have n0 : (0 < n)%N by case/andP: hn => /ltnW.
have [wM eM] := C21_product wA wB n0; have [wT [hT _]] := C26_transpose n n A.
have [wC _ hC] := C19_layout rm wA.
rewrite !determinant_small // eM det_mulmx; split=> //.
- by rewrite -det_tr; congr (\det _); apply/matrixP => i j; rewrite !mxE hT.
- by congr (\det _); apply/matrixP => i j; rewrite !mxE hC.
- split; last by case=> v v0 e; apply/eqP/det0P; exists v.
  by move/eqP/det0P => [v v0 e]; exists v.
Qed.
Print Assumptions C28_laws.

Example C28_example :
  let M b := ctor_elems b 0 4 4 [:: 2; 0; 1; 3;  1; 1; 0; 2;  0; 5; 1; 1;  4; 0; 0; 1] in
  [/\ wf 4 4 (M true), det4 (M true) = -41 :> int, det4 (M false) = -41 & det2 (ex22 false) = 1].
Proof. by []. Qed.

(** * C30 Inverse of 2x2, 3x3 and 4x4 matrices *)
Theorem C30_inverse (F : fieldType) (A : mat F) (n : nat) (inv : mat F -> option (mat F)) :
  (n, inv) = (2%N, @inverse2 F) \/ (n, inv) = (3%N, @inverse3 F) \/ (n, inv) = (4%N, @inverse4 F) ->
  wf n n A ->
  (inv A = None <-> \det (mxof n n A) = 0) /\
  forall B, inv A = Some B ->
    [/\ wf n n B, rowmaj B = rowmaj A,
        mxof n n A *m mxof n n B = 1%:M & mxof n n B *m mxof n n A = 1%:M].
Proof.
have glue (m : nat) (i : option (mat F)) : (\det (mxof m m A) == 0) = ~~ isSome i ->
    (i = None <-> \det (mxof m m A) = 0).
  by move=> e; split=> [h|/eqP]; [apply/eqP; rewrite e h|rewrite e; case: i {e}].
case=> [[-> ->]|[[-> ->]|[-> ->]]] w.
- by have [/glue ? h] := inverse2P w; split=> // B /h [].
- by have [/glue ? h] := inverse3P w; split=> // B /h [].
- by have [/glue ? h] := inverse4P w; split=> // B /h [].
Qed.
Print Assumptions C30_inverse.

Example C30_example :
  let M := ctor_elems false 0 3 3 [:: 2%:Q; 0; 1; 1; 1; 0; 0; 3%:Q; 1] in
  wf 3 3 M /\ omap (fun B => [seq get_row 3 B i | i <- [:: 0; 1; 2]%N]) (inverse3 M) =
   Some [:: [:: 1 / 5%:Q; 3%:Q / 5%:Q; - (1 / 5%:Q)]; [:: - (1 / 5%:Q); 2%:Q / 5%:Q; 1 / 5%:Q];
            [:: 3%:Q / 5%:Q; - (6%:Q / 5%:Q); 2%:Q / 5%:Q]].
Proof. by split=> //; apply/eqP; vm_compute. Qed.
