(* Properties C52, C53, C58, C59: transforms that need no trigonometry *)
From mathcomp Require Import all_ssreflect all_algebra.
From mathcomp Require Import ring.
From Verif Require Import M_Vec M_Mat M_Quat M_Transform Spec P_Vec P_Mat P_Transform.
Set Implicit Arguments. Unset Strict Implicit. Unset Printing Implicit Defensive.
Import Order.Theory GRing.Theory Num.Theory.
Local Open Scope ring_scope.

(* The admissible targets for transforms of points of dimension d (shape in P_Transform.v): d x d, d+1 x d+1, and
   the affine d x (d+1) matrix in PRECEDE_VECTOR or (d+1) x d in FOLLOW_VECTOR order. *)
Example shape_precede : [/\ shape false 3 3 3, shape false 3 3 4, shape false 3 4 4 & ~~ shape false 3 4 3].
Proof. by []. Qed.
Example shape_follow : [/\ shape true 3 3 3, shape true 3 4 3, shape true 3 4 4 & ~~ shape true 3 3 4].
Proof. by []. Qed.

(** * C52 Identity, Scale, Translation *)
Theorem C52_identity (F : fieldType) (follow rm : bool) (jk : F) (d r c : nat) (p : seq F) :
  shape follow d r c -> (0 < d)%N -> size p = d ->
  transform follow d r c (identity rm jk r c) p = Some p.
Proof.
move=> hs d0 sp; rewrite (affine_transform (identity_affine rm jk hs)) //; congr Some.
rewrite -[RHS](mkseq_nth 0) sp; apply/eq_in_map => j; rewrite mem_iota add0n => /andP [_ hj].
by rewrite if_same addr0 sum_delta.
Qed.
Print Assumptions C52_identity.

Theorem C52_scale (F : fieldType) (follow rm : bool) (jk : F) (d r c : nat) (s p : seq F) :
  shape follow d r c -> (0 < d)%N -> size s = d -> size p = d ->
  transform follow d r c (scale rm jk r c s) p = Some (mkseq (fun i => nth 0 s i * nth 0 p i) d).
Proof.
move=> hs d0 ss sp; rewrite (affine_transform (scale_affine rm jk hs ss)) //; congr Some.
apply/eq_in_map => j; rewrite mem_iota add0n => /andP [_ hj].
rewrite if_same addr0 -(sum_delta (nth 0 p) hj) mulr_sumr; apply: eq_bigr => l _; by rewrite mulrCA.
Qed.
Print Assumptions C52_scale.

Theorem C52_translation (F : fieldType) (follow rm : bool) (jk : F) (d r c : nat) (t p : seq F) :
  shape follow d r c -> (if follow then r else c) = d.+1 -> (0 < d)%N -> size t = d -> size p = d ->
  transform follow d r c (translation follow rm jk r c t) p = Some (mkseq (fun i => nth 0 p i + nth 0 t i) d).
Proof.
move=> hs ea d0 st sp; rewrite (affine_transform (translation_affine rm jk hs ea st)) //; congr Some.
apply/eq_in_map => j; rewrite mem_iota add0n => /andP [_ hj].
by rewrite {1}/frows ea eqxx sum_delta.
Qed.
Print Assumptions C52_translation.

(* composition of the square matrices, in either order: the product is the matrix of the composed parameters *)
Theorem C52_compose (F : fieldType) (follow rm : bool) (jk : F) (d : nat) (a b : seq F) : size a = d -> size b = d ->
  [/\ mxof d.+1 d.+1 (mat_mul d.+1 d.+1 d.+1 (translation follow rm jk d.+1 d.+1 a) (translation follow rm jk d.+1 d.+1 b))
      = mxof d.+1 d.+1 (translation follow rm jk d.+1 d.+1 (mkseq (fun i => nth 0 a i + nth 0 b i) d)),
      mxof d.+1 d.+1 (mat_mul d.+1 d.+1 d.+1 (scale rm jk d.+1 d.+1 a) (scale rm jk d.+1 d.+1 b))
      = mxof d.+1 d.+1 (scale rm jk d.+1 d.+1 (mkseq (fun i => nth 0 a i * nth 0 b i) d)) &
      (0 < d)%N -> mxof d d (mat_mul d d d (scale rm jk d d a) (scale rm jk d d b))
      = mxof d d (scale rm jk d d (mkseq (fun i => nth 0 a i * nth 0 b i) d))].
Proof.
move=> sa sb; have hs : shape follow d d.+1 d.+1 by rewrite /shape /frows /fcols !if_same eqxx !orbT.
have ea : frows follow d.+1 d.+1 = d.+1 by rewrite /frows if_same.
have eb : fcols follow d.+1 d.+1 = d.+1 by rewrite /fcols if_same.
have scaleM n : (d <= n)%N -> (0 < n)%N -> mxof n n (mat_mul n n n (scale rm jk n n a) (scale rm jk n n b))
      = mxof n n (scale rm jk n n (mkseq (fun i => nth 0 a i * nth 0 b i) d)).
  move=> hn n0; have [|wa _ ha] := @scaleP _ rm jk n n a; first by rewrite minnn sa.
  have [|wb _ hb] := @scaleP _ rm jk n n b; first by rewrite minnn sb.
  have [|wc _ hc] := @scaleP _ rm jk n n (mkseq (fun i => nth 0 a i * nth 0 b i) d); first by rewrite minnn size_mkseq.
  rewrite mxof_mul //; apply/matrixP => i j; rewrite !mxE hc // size_mkseq.
  rewrite (bigD1 i) //= !mxE ha // hb // eqxx big1 ?addr0 => [|l ne].
    rewrite sa sb; case: eqP => [_|_]; last by rewrite mulr0.
    by case: ltnP => h; rewrite ?mulr1 // nth_mkseq.
  by rewrite !mxE ha // eq_sym val_eqE (negbTE ne) mul0r.
split=> [||d0]; last exact: scaleM; last exact: scaleM.
have [wa ha] := translation_affine rm jk hs ea sa; have [wb hb] := translation_affine rm jk hs ea sb.
have [wc hc] := @translation_affine _ follow d rm jk _ _ (mkseq (fun i => nth 0 a i + nth 0 b i) d) hs ea (size_mkseq _ _).
rewrite mxof_mul //.
have fmx (x y z : mat F) : (forall i j : 'I_d.+1, \sum_(l < d.+1) fget follow x i l * fget follow y l j = fget follow z i j) ->
    (if follow then mxof d.+1 d.+1 x *m mxof d.+1 d.+1 y else mxof d.+1 d.+1 y *m mxof d.+1 d.+1 x) = mxof d.+1 d.+1 z.
  rewrite /fget => h; case: (follow) h => h; apply/matrixP => i j; rewrite !mxE.
    by rewrite -h; apply: eq_bigr => l _; rewrite !mxE.
  by rewrite -(h j i); apply: eq_bigr => l _; rewrite !mxE mulrC.
have key (u v : seq F) : size u = d -> size v = d -> forall i j : 'I_d.+1, \sum_(l < d.+1)
    (if (l < d)%N then if (i < d)%N then (i == l)%:R else nth 0 u l else (i == l)%:R) *
    (if (j < d)%N then if (l < d)%N then (l == j)%:R else nth 0 v j else (l == j)%:R) =
    if (j < d)%N then if (i < d)%N then (i == j)%:R else nth 0 u j + nth 0 v j else (i == j)%:R :> F.
  move=> su sv i j; rewrite big_ord_recr /= ltnn.
  have -> : \sum_(l < d) (if (l < d)%N then if (i < d)%N then (i == widen_ord (leqnSn d) l)%:R else nth 0 u l else (i == widen_ord (leqnSn d) l)%:R) *
     (if (j < d)%N then if (l < d)%N then (widen_ord (leqnSn d) l == j)%:R else nth 0 v j else (widen_ord (leqnSn d) l == j)%:R) =
     \sum_(l < d) (if (i < d)%N then (i == l :> nat)%:R else nth 0 u l) * (l == j :> nat)%:R :> F.
    by apply: eq_bigr => l _; rewrite ltn_ord -!val_eqE /= if_same.
  rewrite -!val_eqE /=; case: (ltnP j d) => hj.
    rewrite (sum_delta (fun l => if (i < d)%N then (i == l :> nat)%:R else nth 0 u l) hj).
    case: (ltnP i d) => hi; first by rewrite (ltn_eqF hi) mul0r addr0.
    have -> : (i = d :> nat) by apply/eqP; rewrite eqn_leq hi andbT -ltnS.
    by rewrite eqxx mul1r.
  have -> : (j = d :> nat) by apply/eqP; rewrite eqn_leq hj andbT -ltnS.
  rewrite eqxx mulr1 big1 ?add0r // => l _; by rewrite (ltn_eqF (ltn_ord l)) mulr0.
have e (u v w : seq F) (x y z : mat F) : affine_mat follow d d.+1 d.+1 x (fun i j => (i == j)%:R) (fun j => nth 0 u j) ->
   affine_mat follow d d.+1 d.+1 y (fun i j => (i == j)%:R) (fun j => nth 0 v j) ->
   affine_mat follow d d.+1 d.+1 z (fun i j => (i == j)%:R) (fun j => nth 0 w j) ->
   size u = d -> size v = d -> (forall j, (j < d)%N -> nth 0 w j = nth 0 u j + nth 0 v j) ->
   (if follow then mxof d.+1 d.+1 x *m mxof d.+1 d.+1 y else mxof d.+1 d.+1 y *m mxof d.+1 d.+1 x) = mxof d.+1 d.+1 z.
  move=> [_ h1] [_ h2] [_ h3] su sv hw; apply: fmx; move=> i j; rewrite h3 ?ea ?eb //.
  have hw' : (if (j < d)%N then if (i < d)%N then (i == j)%:R else nth 0 w j else (i == j)%:R) =
     (if (j < d)%N then if (i < d)%N then (i == j)%:R else nth 0 u j + nth 0 v j else (i == j)%:R) :> F.
    by case: ifP => // /hw ->.
  by rewrite -!val_eqE /= in hw' *; rewrite hw' -[RHS](key u v su sv i j); apply: eq_bigr => l _; rewrite h1 ?h2 ?ea ?eb.
have cN (j : nat) : (j < d)%N -> nth 0 (mkseq (fun i => nth 0 a i + nth 0 b i) d) j = nth 0 b j + nth 0 a j.
  by move=> hj; rewrite nth_mkseq // addrC.
have cN' (j : nat) : (j < d)%N -> nth 0 (mkseq (fun i => nth 0 a i + nth 0 b i) d) j = nth 0 a j + nth 0 b j.
  by move=> hj; rewrite nth_mkseq.
move: (e a b _ _ _ _ (conj wa ha) (conj wb hb) (conj wc hc) sa sb cN') (e b a _ _ _ _ (conj wb hb) (conj wa ha) (conj wc hc) sb sa cN).
by clear; case: follow.
Qed.
Print Assumptions C52_compose.

Example C52_example :
  transform false 2 2 3 (translation false true 99%:Q 2 3 [:: 5%:Q; 7%:Q]) [:: 1; 2%:Q] = Some [:: 6%:Q; 9%:Q] /\
  transform true 2 3 3 (scale false 99%:Q 3 3 [:: 5%:Q; 7%:Q]) [:: 1; 2%:Q] = Some [:: 5%:Q; 14%:Q].
Proof. by split; apply/eqP; vm_compute. Qed.

(** * C53 Shear *)
Theorem C53_aligned (F : fieldType) (follow rm : bool) (jk slope : F) (d r c dir mod : nat) (p : seq F) :
  shape follow d r c -> (dir < d)%N -> (mod < d)%N -> dir != mod -> size p = d ->
  transform follow d r c (shear_aligned follow rm jk r c slope dir mod) p =
    Some (mkseq (fun i => nth 0 p i + (if i == dir then slope * nth 0 p mod else 0)) d).
Proof.
move=> hs hd hm ne sp; have d0 : (0 < d)%N by apply: leq_ltn_trans hd.
rewrite (affine_transform (shear_aligned_affine rm jk slope hs hd hm)) //; congr Some.
apply/eq_in_map => j; rewrite mem_iota add0n => /andP [_ hj].
rewrite if_same addr0 -(sum_delta (nth 0 p) hj); case: (j =P dir) => [->|nj]; last first.
  by rewrite addr0; apply: eq_bigr => l _; rewrite andbF.
rewrite (eq_bigr (fun l : 'I_d => nth 0 p l * (l == dir :> nat)%:R + slope * nth 0 p l * (l == mod :> nat)%:R)).
  by rewrite big_split /= (sum_delta (fun l => slope * nth 0 p l) hm).
move=> l _; rewrite andbT; case: (l =P mod :> nat) => [->|_]; rewrite ?mulr0 ?addr0 //.
by rewrite eq_sym (negbTE ne) mulr0 add0r mulr1 mulrC.
Qed.
Print Assumptions C53_aligned.

Theorem C53_general (F : fieldType) (follow rm : bool) (jk slope : F) (d r c : nat) (dir mod p : seq F) :
  shape follow d r c -> (0 < size dir <= d)%N -> size mod = size dir -> size p = d ->
  transform follow d r c (shear follow rm jk r c slope dir mod) p =
    Some (mkseq (fun i => nth 0 p i + slope * (\sum_(l < size mod) nth 0 p l * nth 0 mod l) * nth 0 dir i) d).
Proof.
move=> hs hd sm sp; have d0 : (0 < d)%N by case/andP: hd => h; apply: leq_trans h.
rewrite (affine_transform (shear_affine rm jk slope hs hd sm)) //; congr Some.
apply/eq_in_map => j; rewrite mem_iota add0n => /andP [_ hj].
rewrite if_same addr0 (eq_bigr (fun l : 'I_d => nth 0 p l * (l == j :> nat)%:R + slope * (nth 0 p l * nth 0 mod l) * nth 0 dir j)).
  rewrite big_split /= sum_delta //; congr (_ + _); rewrite -mulr_suml -mulr_sumr; congr (_ * _ * _).
  case/andP: hd => _ hd; rewrite sm -!(big_mkord xpredT (fun l => nth 0 p l * nth 0 mod l)) (big_cat_nat _ _ _ _ hd) //=.
  rewrite [X in _ + X]big_nat_cond [X in _ + X]big1 ?addr0 // => l /andP [/andP [hl _] _].
  by rewrite (@nth_default _ _ mod) ?sm // mulr0.
by move=> l _; rewrite mulrDr !mulrA [slope * _]mulrC.
Qed.
Print Assumptions C53_general.

(* volume and inverse, for the square matrices *)
Theorem C53_volume (F : fieldType) (follow rm : bool) (jk slope : F) (n dir mod : nat) (u v : seq F) :
  (dir < n)%N -> (mod < n)%N -> dir != mod ->
  (0 < size u <= n)%N -> size v = size u -> \sum_(l < size u) nth 0 u l * nth 0 v l = 0 ->
  \det (mxof n n (shear_aligned follow rm jk n n slope dir mod)) = 1 /\
  \det (mxof n n (shear follow rm jk n n slope u v)) = 1.
Proof.
move=> hd hm ne hu sv perp; rewrite shear_aligned_mx // shear_mx // !det_rank1.
by rewrite shear_perp // shear_aligned_perp // mxE addr0.
Qed.
Print Assumptions C53_volume.

Local Opaque shear shear_aligned.
Theorem C53_inverse (F : fieldType) (follow rm : bool) (jk slope : F) (n dir mod : nat) (u v : seq F) :
  (dir < n)%N -> (mod < n)%N -> dir != mod ->
  (0 < size u <= n)%N -> size v = size u -> \sum_(l < size u) nth 0 u l * nth 0 v l = 0 ->
  mxof n n (mat_mul n n n (shear_aligned follow rm jk n n slope dir mod) (shear_aligned follow rm jk n n (- slope) dir mod)) = 1%:M /\
  mxof n n (mat_mul n n n (shear follow rm jk n n slope u v) (shear follow rm jk n n (- slope) u v)) = 1%:M.
Proof.
move=> hd hm ne hu sv perp; have hs : shape follow n n n by rewrite /shape /frows /fcols !if_same eqxx.
have n0 : (0 < n)%N by apply: leq_ltn_trans hd.
have w s := proj1 (shear_aligned_affine rm jk s hs hd hm); have w' s := proj1 (shear_affine rm jk s hs hu sv).
rewrite mxof_mul // mxof_mul //.
have e (x : nat -> F) : \col_(i < n) (- slope * x i) = - \col_i (slope * x i) by apply/colP => i; rewrite !mxE mulNr.
split.
  etransitivity; first by apply: congr2; [apply: (shear_aligned_mx follow rm jk slope hd hm ne)|apply: (shear_aligned_mx follow rm jk (- slope) hd hm ne)].
  rewrite (e (fun i => (i == (if follow then mod else dir))%:R)) mulNmx rank1_inv //.
  exact: shear_aligned_perp.
etransitivity; first by apply: congr2; [apply: (shear_mx follow rm jk slope hu sv)|apply: (shear_mx follow rm jk (- slope) hu sv)].
rewrite (e (nth 0 (if follow then v else u))) mulNmx rank1_inv //.
exact: shear_perp.
Qed.
Print Assumptions C53_inverse.
Local Transparent shear shear_aligned.

Example C53_example :
  transform false 3 3 4 (shear false true 99%:Q 3 4 2%:Q [:: 1; 0; 0] [:: 0; 3%:Q / 5%:Q; 4%:Q / 5%:Q]) [:: 1; 5%:Q; 10%:Q]
    = Some [:: 23%:Q; 5%:Q; 10%:Q] /\
  transform true 2 3 3 (shear_aligned true true 99%:Q 3 3 2%:Q 0 1) [:: 1; 5%:Q] = Some [:: 11%:Q; 5%:Q].
Proof. by split; apply/eqP; vm_compute. Qed.
