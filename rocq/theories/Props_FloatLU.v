(* Properties C89-C91: backward stability of the triangular solvers, of the LU and LUP decompositions, and of solving and inverting
   with them, in floating point. *)
From Coq Require Import ZArith List Arith Bool Reals Lia Lra Psatz Permutation.
From Flocq Require Import Core IEEE754.BinarySingleNaN.
From Verif Require Import M_Float P_Float M_FloatN M_FloatLU P_FloatLU P_FloatTri P_FloatDec P_FloatSolve Props_Float.
Import ListNotations.
Local Open Scope R_scope.

(* f 0 + ... + f (n - 1) *)
Fixpoint sum (n : nat) (f : nat -> R) : R := match n with O => 0 | S m => sum m f + f m end.
Lemma sumE n f : sum n f = lsum f (seq 0 n).
Proof. induction n as [|n IH]; [reflexivity|]; rewrite seq_S, lsum_app, <- IH; simpl; ring. Qed.

Section C89.
Variables prec emax : Z.
Context (p0 : Prec_gt_0 prec) (pe : Prec_lt_emax prec emax).
Hypothesis prec1 : (1 < prec)%Z.
Notation float := (binary_float prec emax).
Notation val := (@B2R prec emax).
Notation fin := (@is_finite prec emax).
Notation fmat := (nat -> nat -> float).
(* the relative error of n operations; the error of underflow *)
Definition gamma (n : nat) : R := (1 + u prec) ^ n - 1.
Definition under (n : nat) : R := (1 + u prec) ^ n * (eta prec emax / 2).
Definition finite_matrix (n : nat) (A : fmat) : Prop := forall i j, (i < n)%nat -> (j < n)%nat -> fin (A i j) = true.
Definition lower (n : nat) (A : fmat) : Prop := forall i j, (i < j)%nat -> (j < n)%nat -> val (A i j) = 0.
Definition upper (n : nat) (A : fmat) : Prop := forall i j, (j < i)%nat -> (i < n)%nat -> val (A i j) = 0.
Variable fused : bool.
Notation fsolve_lower := (fsolve_lower prec emax p0 pe fused).
Notation fsolve_upper := (fsolve_upper prec emax p0 pe fused).
Notation fsolve_lower_follow := (fsolve_lower_follow prec emax p0 pe fused).
Notation fsolve_upper_follow := (fsolve_upper_follow prec emax p0 pe fused).
Notation decompose_lu := (fdecompose_lu prec emax p0 pe fused).
Notation decompose_lup := (fdecompose_lup prec emax p0 pe fused).

Lemma boundE n T e : bound prec emax n T e = gamma n * T + under n * (INR n + e).
Proof.
unfold bound, gamma, under; replace (bpow radix2 (SpecFloat.emin prec emax - 1)) with (eta prec emax / 2); [unfold u; field|].
unfold eta; replace (SpecFloat.emin prec emax - 1)%Z with (3 - emax - prec + -1)%Z by (unfold SpecFloat.emin; lia).
rewrite bpow_plus; change (bpow radix2 (-1)) with (/ 2); reflexivity.
Qed.
Lemma gamma0 n : 0 <= gamma n.
Proof. unfold gamma; generalize (pow_R1_Rle (1 + u prec) n); assert (0 < u prec) by apply bpow_gt_0; intro h; assert (h' := h ltac:(lra)); lra. Qed.
Lemma under0 n : 0 <= under n.
Proof.
unfold under; assert (0 < u prec) by apply bpow_gt_0; assert (0 < eta prec emax) by apply bpow_gt_0.
apply Rmult_le_pos; [apply pow_le; lra|lra].
Qed.

(** * C89: triangular systems *)
(* L x = b: if a column of x is finite, no diagonal element is zero and the residual is small *)
Theorem C89_lower (n : nat) (A b : fmat) (c : nat) : finite_matrix n A -> lower n A ->
  let x := fsolve_lower n A b in (forall i, (i < n)%nat -> fin (x i c) = true) -> forall i, (i < n)%nat ->
  val (A i i) <> 0 /\
  Rabs (val (b i c) - sum n (fun k => val (A i k) * val (x k c))) <=
  gamma n * sum n (fun k => Rabs (val (A i k) * val (x k c))) + under n * (INR n + Rabs (val (A i i))).
Proof.
intros fA t x f i hi; destruct (lower_residual prec emax _ _ fused n A b c fA t f i hi) as [h1 [_ h2]]; rewrite !sumE, <- boundE; auto.
Qed.
Theorem C89_upper (n : nat) (A b : fmat) (c : nat) : finite_matrix n A -> upper n A ->
  let x := fsolve_upper n A b in (forall i, (i < n)%nat -> fin (x i c) = true) -> forall i, (i < n)%nat ->
  val (A i i) <> 0 /\
  Rabs (val (b i c) - sum n (fun k => val (A i k) * val (x k c))) <=
  gamma n * sum n (fun k => Rabs (val (A i k) * val (x k c))) + under n * (INR n + Rabs (val (A i i))).
Proof.
intros fA t x f i hi; destruct (upper_residual prec emax _ _ fused n A b c fA t f i hi) as [h1 [_ h2]]; rewrite !sumE, <- boundE; auto.
Qed.
(* x L = b and x U = b, for row vectors *)
Theorem C89_lower_follow (n : nat) (A b : fmat) (r : nat) : finite_matrix n A -> lower n A ->
  let x := fsolve_lower_follow n A b in (forall j, (j < n)%nat -> fin (x r j) = true) -> forall j, (j < n)%nat ->
  val (A j j) <> 0 /\
  Rabs (val (b r j) - sum n (fun k => val (x r k) * val (A k j))) <=
  gamma n * sum n (fun k => Rabs (val (x r k) * val (A k j))) + under n * (INR n + Rabs (val (A j j))).
Proof.
intros fA t x f j hj.
assert (H := C89_upper n (ftranspose prec emax A) (ftranspose prec emax b) r (fun i j hi hj => fA j i hj hi) (fun i j h1 h2 => t j i h1 h2) f j hj).
destruct H as [h1 h2]; split; [exact h1|]; rewrite !sumE in *.
rewrite (lsum_ext (fun k => val (x r k) * val (A k j)) (fun k => val (A k j) * val (x r k))) by (intros; ring).
rewrite (lsum_ext (fun k => Rabs (val (x r k) * val (A k j))) (fun k => Rabs (val (A k j) * val (x r k)))) by (intros; rewrite Rmult_comm; reflexivity).
exact h2.
Qed.
Theorem C89_upper_follow (n : nat) (A b : fmat) (r : nat) : finite_matrix n A -> upper n A ->
  let x := fsolve_upper_follow n A b in (forall j, (j < n)%nat -> fin (x r j) = true) -> forall j, (j < n)%nat ->
  val (A j j) <> 0 /\
  Rabs (val (b r j) - sum n (fun k => val (x r k) * val (A k j))) <=
  gamma n * sum n (fun k => Rabs (val (x r k) * val (A k j))) + under n * (INR n + Rabs (val (A j j))).
Proof.
intros fA t x f j hj.
assert (H := C89_lower n (ftranspose prec emax A) (ftranspose prec emax b) r (fun i j hi hj => fA j i hj hi) (fun i j h1 h2 => t j i h1 h2) f j hj).
destruct H as [h1 h2]; split; [exact h1|]; rewrite !sumE in *.
rewrite (lsum_ext (fun k => val (x r k) * val (A k j)) (fun k => val (A k j) * val (x r k))) by (intros; ring).
rewrite (lsum_ext (fun k => Rabs (val (x r k) * val (A k j))) (fun k => Rabs (val (A k j) * val (x r k)))) by (intros; rewrite Rmult_comm; reflexivity).
exact h2.
Qed.
(* the result solves a system whose coefficients differ from the given ones by a small relative amount (exactly, but for underflow) *)
Lemma perturb n (a : nat -> nat -> R) (x : nat -> R) (b w : nat -> R) : (forall i, 0 <= w i) ->
  (forall i, (i < n)%nat -> Rabs (b i - sum n (fun k => a i k * x k)) <= gamma n * sum n (fun k => Rabs (a i k * x k)) + w i) ->
  exists D, (forall i k, Rabs (D i k) <= gamma n * Rabs (a i k)) /\
    forall i, (i < n)%nat -> Rabs (b i - sum n (fun k => (a i k + D i k) * x k)) <= w i.
Proof.
intros w0 h.
assert (G : forall m, (m <= n)%nat -> exists D, (forall i k, Rabs (D i k) <= gamma n * Rabs (a i k)) /\
  forall i, (i < m)%nat -> Rabs (b i - sum n (fun k => (a i k + D i k) * x k)) <= w i).
{ induction m as [|m IH]; intro hm.
  - exists (fun _ _ => 0); split; [intros; rewrite Rabs_R0; apply Rmult_le_pos; [apply gamma0|apply Rabs_pos]|intros; lia].
  - destruct (IH ltac:(lia)) as [D [d1 d2]]; assert (hm' := h m ltac:(lia)); rewrite !sumE in hm'.
    destruct (row_perturbation (seq 0 n) (a m) x (b m) (gamma n) (w m) (gamma0 n) (w0 m) hm') as [d [e1 e2]].
    exists (fun i k => if Nat.eqb i m then d k else D i k); split.
    + intros i k; destruct (Nat.eqb_spec i m) as [->|_]; auto.
    + intros i hi; destruct (Nat.eqb_spec i m) as [->|ne]; [rewrite sumE; exact e2|apply d2; lia]. }
exact (G n (le_n n)).
Qed.
Theorem C89_lower_backward (n : nat) (A b : fmat) (c : nat) : finite_matrix n A -> lower n A ->
  let x := fsolve_lower n A b in (forall i, (i < n)%nat -> fin (x i c) = true) ->
  exists D, (forall i k, Rabs (D i k) <= gamma n * Rabs (val (A i k))) /\
    forall i, (i < n)%nat -> Rabs (val (b i c) - sum n (fun k => (val (A i k) + D i k) * val (x k c))) <= under n * (INR n + Rabs (val (A i i))).
Proof.
intros fA t x f; apply (perturb n (fun i k => val (A i k)) (fun k => val (x k c)) (fun i => val (b i c)) (fun i => under n * (INR n + Rabs (val (A i i))))).
- intro i; apply Rmult_le_pos; [apply under0|]; generalize (pos_INR n) (Rabs_pos (val (A i i))); lra.
- intros i hi; apply (C89_lower n A b c fA t f i hi).
Qed.
Theorem C89_upper_backward (n : nat) (A b : fmat) (c : nat) : finite_matrix n A -> upper n A ->
  let x := fsolve_upper n A b in (forall i, (i < n)%nat -> fin (x i c) = true) ->
  exists D, (forall i k, Rabs (D i k) <= gamma n * Rabs (val (A i k))) /\
    forall i, (i < n)%nat -> Rabs (val (b i c) - sum n (fun k => (val (A i k) + D i k) * val (x k c))) <= under n * (INR n + Rabs (val (A i i))).
Proof.
intros fA t x f; apply (perturb n (fun i k => val (A i k)) (fun k => val (x k c)) (fun i => val (b i c)) (fun i => under n * (INR n + Rabs (val (A i i))))).
- intro i; apply Rmult_le_pos; [apply under0|]; generalize (pos_INR n) (Rabs_pos (val (A i i))); lra.
- intros i hi; apply (C89_upper n A b c fA t f i hi).
Qed.

(** * C90: the decompositions *)
Theorem C90_lu (n : nat) (A : fmat) : let L := fst (decompose_lu n A) in let U := snd (decompose_lu n A) in
  finite_matrix n L -> finite_matrix n U ->
  lower n L /\ (forall i, (i < n)%nat -> val (L i i) = 1) /\ upper n U /\
  forall i j, (i < n)%nat -> (j < n)%nat ->
  Rabs (val (A i j) - sum n (fun p => val (L i p) * val (U p j))) <=
  gamma n * sum n (fun p => Rabs (val (L i p) * val (U p j))) + under n * (INR n + Rabs (val (U j j))).
Proof.
intros L U fL fU; destruct (lu_inv prec emax p0 pe fused n A (n - 1) ltac:(lia)) as [g f].
assert (F := facts_end prec emax p0 pe n A L U (fun i => i) g (f (fun i j hi hj => conj (fL i j hi hj) (fU i j hi hj)))).
split; [|split; [|split]].
- intros i j h hj; apply (F i j ltac:(lia) hj); exact h.
- intros i hi; apply (F i i hi hi); reflexivity.
- intros i j h hi; apply (F i j hi ltac:(lia)); exact h.
- intros i j hi hj; rewrite !sumE, <- boundE; apply (F i j hi hj).
Qed.
(* LUP: the rows P(0), ..., P(n-1) of the matrix *)
Theorem C90_lup (n : nat) (A : fmat) : let L := fst (fst (decompose_lup n A)) in let U := snd (fst (decompose_lup n A)) in
  let P := snd (decompose_lup n A) in
  Permutation (map P (seq 0 n)) (seq 0 n) /\
  (finite_matrix n L -> finite_matrix n U ->
  lower n L /\ (forall i, (i < n)%nat -> val (L i i) = 1) /\ upper n U /\
  forall i j, (i < n)%nat -> (j < n)%nat ->
  Rabs (val (A (P i) j) - sum n (fun p => val (L i p) * val (U p j))) <=
  gamma n * sum n (fun p => Rabs (val (L i p) * val (U p j))) + under n * (INR n + Rabs (val (U j j)))).
Proof.
intros L U P; destruct (lup_inv prec emax p0 pe fused n A (n - 1) ltac:(lia)) as [g [pm f]]; split; [exact pm|]; intros fL fU.
assert (F := facts_end prec emax p0 pe n A L U P g (f (fun i j hi hj => conj (fL i j hi hj) (fU i j hi hj)))).
split; [|split; [|split]].
- intros i j h hj; apply (F i j ltac:(lia) hj); exact h.
- intros i hi; apply (F i i hi hi); reflexivity.
- intros i j h hi; apply (F i j hi ltac:(lia)); exact h.
- intros i j hi hj; rewrite !sumE, <- boundE; apply (F i j hi hj).
Qed.
(* the choice of the pivot bounds the factors and excludes overflow. m: the largest element of the matrix *)
Theorem C90_pivoting (n : nat) (A : fmat) (m : float) : 0 <= val m ->
  (forall i j, (i < n)%nat -> (j < n)%nat -> fin (A i j) = true /\ Rabs (val (A i j)) <= val m) ->
  2 ^ (n - 1) * val m < bpow radix2 emax ->
  let L := fst (fst (decompose_lup n A)) in let U := snd (fst (decompose_lup n A)) in
  finite_matrix n L /\ finite_matrix n U /\
  forall i j, (i < n)%nat -> (j < n)%nat -> Rabs (val (L i j)) <= 1 /\ Rabs (val (U i j)) <= 2 ^ i * val m.
Proof.
intros m0 hA ov L U; assert (G := lup_growth prec emax p0 pe prec1 fused n A (val m) (format_val prec emax m) m0 hA ov (n - 1) (le_n _)).
split; [|split].
- intros i j hi hj; apply (G i j hi hj).
- intros i j hi hj; apply (G i j hi hj).
- intros i j hi hj; destruct (G i j hi hj) as [_ [h1 [_ h2]]]; split; [exact h1|]; replace (Nat.min i (n - 1)) with i in h2 by lia; exact h2.
Qed.

(** * C91: solving and inverting *)
(* the error of underflow in the solution of row i with factors F, G, the diagonal of the first or the second factor being 1 *)
Definition mass (n : nat) (F G : nat -> nat -> R) (x : nat -> R) (i : nat) : R :=
  sum n (fun j => sum n (fun p => Rabs (F i p) * Rabs (G p j)) * Rabs (x j)).
Definition tiny (n : nat) (v : R) (z w : nat -> R) (F : nat -> R) (x : nat -> R) : R :=
  under n * (INR n + v + (1 + gamma n) * sum n (fun p => Rabs (F p) * (INR n + z p)) + sum n (fun j => (INR n + w j) * Rabs (x j))).
Lemma solve_core (n : nat) (C F G : nat -> nat -> R) (b y x v z : nat -> R) (w : nat -> nat -> R) (i : nat) : (i < n)%nat ->
  (forall j, (j < n)%nat -> Rabs (C i j - sum n (fun p => F i p * G p j)) <= gamma n * sum n (fun p => Rabs (F i p * G p j)) + under n * (INR n + w i j)) ->
  Rabs (b i - sum n (fun p => F i p * y p)) <= gamma n * sum n (fun p => Rabs (F i p * y p)) + under n * (INR n + v i) ->
  (forall p, (p < n)%nat -> Rabs (y p - sum n (fun j => G p j * x j)) <= gamma n * sum n (fun j => Rabs (G p j * x j)) + under n * (INR n + z p)) ->
  Rabs (b i - sum n (fun j => C i j * x j)) <= (3 * gamma n + gamma n * gamma n) * mass n F G x i + tiny n (v i) z (w i) (F i) x.
Proof.
intros hi h3 h1 h2.
assert (H := combine_residuals n C F G b y x (fun i => under n * (INR n + v i)) (fun p => under n * (INR n + z p)) (fun i j => under n * (INR n + w i j)) (gamma n) i (gamma0 n)).
cbv zeta in H; rewrite !sumE.
match type of H with _ -> _ -> _ -> ?t => assert (K : t) end.
{ apply H.
  - intros j hj; apply in_seq in hj; generalize (h3 j ltac:(lia)); rewrite !sumE; auto.
  - generalize h1; rewrite !sumE; auto.
  - intros p hp; apply in_seq in hp; generalize (h2 p ltac:(lia)); rewrite !sumE; auto. }
apply Rle_trans with (1 := K); apply Req_le; unfold mass, tiny; rewrite !sumE; f_equal.
- f_equal; apply lsum_ext; intros j _; rewrite sumE; reflexivity.
- rewrite (lsum_ext (fun p => Rabs (F i p) * (under n * (INR n + z p))) (fun p => under n * (Rabs (F i p) * (INR n + z p)))) by (intros; ring).
  rewrite (lsum_ext (fun j => under n * (INR n + w i j) * Rabs (x j)) (fun j => under n * ((INR n + w i j) * Rabs (x j)))) by (intros; ring).
  rewrite !lsum_scal; ring.
Qed.

Lemma lu_core (n : nat) (C L U b : fmat) (c : nat) : finite_matrix n L -> finite_matrix n U -> lower n L -> (forall i, (i < n)%nat -> val (L i i) = 1) -> upper n U ->
  (forall i j, (i < n)%nat -> (j < n)%nat -> Rabs (val (C i j) - sum n (fun p => val (L i p) * val (U p j))) <=
     gamma n * sum n (fun p => Rabs (val (L i p) * val (U p j))) + under n * (INR n + Rabs (val (U j j)))) ->
  let x := fsolve_upper n U (fsolve_lower n L b) in (forall i, (i < n)%nat -> fin (x i c) = true) -> forall i, (i < n)%nat ->
  Rabs (val (b i c) - sum n (fun j => val (C i j) * val (x j c))) <=
  (3 * gamma n + gamma n * gamma n) * mass n (fun i p => val (L i p)) (fun p j => val (U p j)) (fun j => val (x j c)) i +
  tiny n 1 (fun p => Rabs (val (U p p))) (fun j => Rabs (val (U j j))) (fun p => val (L i p)) (fun j => val (x j c)).
Proof.
intros fL fU lL l1 uU RR x f i hi; set (y := fsolve_lower n L b).
assert (fy : forall i, (i < n)%nat -> fin (y i c) = true) by (intros k hk; apply (upper_residual prec emax _ _ fused n U y c fU uU f k hk)).
apply (solve_core n (fun i j => val (C i j)) (fun i p => val (L i p)) (fun p j => val (U p j)) (fun i => val (b i c)) (fun p => val (y p c))
  (fun j => val (x j c)) (fun _ => 1) (fun p => Rabs (val (U p p))) (fun _ j => Rabs (val (U j j)))); [exact hi|intros j hj; apply RR; assumption| |].
- destruct (C89_lower n L b c fL lL fy i hi) as [_ h]; rewrite l1, Rabs_R1 in h by exact hi; exact h.
- intros p hp; apply (C89_upper n U y c fU uU f p hp).
Qed.
Lemma lu_core_follow (n : nat) (C L U b : fmat) (r : nat) : finite_matrix n L -> finite_matrix n U -> lower n L -> (forall i, (i < n)%nat -> val (L i i) = 1) -> upper n U ->
  (forall i j, (i < n)%nat -> (j < n)%nat -> Rabs (val (C i j) - sum n (fun p => val (L i p) * val (U p j))) <=
     gamma n * sum n (fun p => Rabs (val (L i p) * val (U p j))) + under n * (INR n + Rabs (val (U j j)))) ->
  let x := fsolve_lower_follow n L (fsolve_upper_follow n U b) in (forall i, (i < n)%nat -> fin (x r i) = true) -> forall j, (j < n)%nat ->
  Rabs (val (b r j) - sum n (fun i => val (C i j) * val (x r i))) <=
  (3 * gamma n + gamma n * gamma n) * mass n (fun j p => val (U p j)) (fun p i => val (L i p)) (fun i => val (x r i)) j +
  tiny n (Rabs (val (U j j))) (fun _ => 1) (fun _ => Rabs (val (U j j))) (fun p => val (U p j)) (fun i => val (x r i)).
Proof.
intros fL fU lL l1 uU RR x f j hj; set (y := fsolve_upper_follow n U b).
assert (fy : forall k, (k < n)%nat -> fin (y r k) = true).
{ intros k hk; apply (upper_residual prec emax _ _ fused n (ftranspose prec emax L) (ftranspose prec emax y) r
    (fun i j hi hj => fL j i hj hi) (fun i j h1 h2 => lL j i h1 h2) f k hk). }
assert (com : forall f g : nat -> R, sum n (fun p => f p * g p) = sum n (fun p => g p * f p)) by (intros; rewrite !sumE; apply lsum_ext; intros; ring).
assert (coma : forall f g : nat -> R, sum n (fun p => Rabs (f p * g p)) = sum n (fun p => Rabs (g p * f p))) by (intros; rewrite !sumE; apply lsum_ext; intros; rewrite Rmult_comm; reflexivity).
apply (solve_core n (fun j i => val (C i j)) (fun j p => val (U p j)) (fun p i => val (L i p)) (fun j => val (b r j)) (fun p => val (y r p))
  (fun i => val (x r i)) (fun j => Rabs (val (U j j))) (fun _ => 1) (fun j _ => Rabs (val (U j j)))); [exact hj| | |].
- intros i hi; rewrite com, coma; apply RR; assumption.
- rewrite com, coma; apply (C89_upper_follow n U b r fU uU fy j hj).
- intros p hp; rewrite com, coma; destruct (C89_lower_follow n L y r fL lL f p hp) as [_ h]; rewrite l1, Rabs_R1 in h by exact hp; exact h.
Qed.

(* A x = b by DecomposeLU(A).Solve(b) *)
Theorem C91_lu_solve (n : nat) (A b : fmat) (c : nat) : let d := decompose_lu n A in let L := fst d in let U := snd d in
  finite_matrix n L -> finite_matrix n U ->
  let x := flu_solve prec emax p0 pe fused n d b in (forall i, (i < n)%nat -> fin (x i c) = true) -> forall i, (i < n)%nat ->
  Rabs (val (b i c) - sum n (fun j => val (A i j) * val (x j c))) <=
  (3 * gamma n + gamma n * gamma n) * sum n (fun j => sum n (fun p => Rabs (val (L i p)) * Rabs (val (U p j))) * Rabs (val (x j c))) +
  tiny n 1 (fun p => Rabs (val (U p p))) (fun j => Rabs (val (U j j))) (fun p => val (L i p)) (fun j => val (x j c)).
Proof.
intros d L U fL fU x f i hi; destruct (C90_lu n A fL fU) as [lL [l1 [uU RR]]]; exact (lu_core n A L U b c fL fU lL l1 uU RR f i hi).
Qed.
(* x A = b *)
Theorem C91_lu_solve_follow (n : nat) (A b : fmat) (r : nat) : let d := decompose_lu n A in let L := fst d in let U := snd d in
  finite_matrix n L -> finite_matrix n U ->
  let x := flu_solve_follow prec emax p0 pe fused n d b in (forall i, (i < n)%nat -> fin (x r i) = true) -> forall j, (j < n)%nat ->
  Rabs (val (b r j) - sum n (fun i => val (A i j) * val (x r i))) <=
  (3 * gamma n + gamma n * gamma n) * sum n (fun i => sum n (fun p => Rabs (val (U p j)) * Rabs (val (L i p))) * Rabs (val (x r i))) +
  tiny n (Rabs (val (U j j))) (fun _ => 1) (fun _ => Rabs (val (U j j))) (fun p => val (U p j)) (fun i => val (x r i)).
Proof.
intros d L U fL fU x f j hj; destruct (C90_lu n A fL fU) as [lL [l1 [uU RR]]]; exact (lu_core_follow n A L U b r fL fU lL l1 uU RR f j hj).
Qed.
Lemma perm_lt n P i : Permutation (map P (seq 0 n)) (seq 0 n) -> (i < n)%nat -> (P i < n)%nat.
Proof.
intros pm h; assert (k : In (P i) (seq 0 n)) by (apply (Permutation_in _ pm), in_map, in_seq; lia); apply in_seq in k; lia.
Qed.
(* A x = b by DecomposeLUP(A).Solve(b): row P(i) of the system *)
Theorem C91_lup_solve (junk : fmat) (n : nat) (A b : fmat) (c : nat) : let d := decompose_lup n A in let L := fst (fst d) in let U := snd (fst d) in let P := snd d in
  finite_matrix n L -> finite_matrix n U ->
  let x := flup_solve prec emax p0 pe fused junk n d b in (forall i, (i < n)%nat -> fin (x i c) = true) -> forall i, (i < n)%nat ->
  Rabs (val (b (P i) c) - sum n (fun j => val (A (P i) j) * val (x j c))) <=
  (3 * gamma n + gamma n * gamma n) * sum n (fun j => sum n (fun p => Rabs (val (L i p)) * Rabs (val (U p j))) * Rabs (val (x j c))) +
  tiny n 1 (fun p => Rabs (val (U p p))) (fun j => Rabs (val (U j j))) (fun p => val (L i p)) (fun j => val (x j c)).
Proof.
intros d L U P fL fU x f i hi; destruct (C90_lup n A) as [pm H]; destruct (H fL fU) as [lL [l1 [uU RR]]].
assert (K := lu_core n (fun i j => A (P i) j) L U (fpermute prec emax junk n P b) c fL fU lL l1 uU RR f i hi); rewrite permuteE in K by exact hi; exact K.
Qed.
(* x A = b *)
Theorem C91_lup_solve_follow (junk : fmat) (n : nat) (A b : fmat) (r : nat) : let d := decompose_lup n A in let L := fst (fst d) in let U := snd (fst d) in let P := snd d in
  finite_matrix n L -> finite_matrix n U ->
  let x := flup_solve_follow prec emax p0 pe fused junk n d b in (forall i, (i < n)%nat -> fin (x r i) = true) -> forall j, (j < n)%nat ->
  Rabs (val (b r j) - sum n (fun i => val (x r i) * val (A i j))) <=
  (3 * gamma n + gamma n * gamma n) * sum n (fun i => sum n (fun p => Rabs (val (U p j)) * Rabs (val (L i p))) * Rabs (val (x r (P i)))) +
  tiny n (Rabs (val (U j j))) (fun _ => 1) (fun _ => Rabs (val (U j j))) (fun p => val (U p j)) (fun i => val (x r (P i))).
Proof.
intros d L U P fL fU x f j hj; destruct (C90_lup n A) as [pm H]; destruct (H fL fU) as [lL [l1 [uU RR]]].
set (z := fsolve_lower_follow n L (fsolve_upper_follow n U b)).
assert (xz : forall i, (i < n)%nat -> x r (P i) = z r i) by (intros i hi; apply (inverse_permuteE prec emax junk z n P i r pm hi)).
assert (fz : forall i, (i < n)%nat -> fin (z r i) = true) by (intros i hi; rewrite <- xz by exact hi; apply f, (perm_lt n P i pm hi)).
assert (K := lu_core_follow n (fun i j => A (P i) j) L U b r fL fU lL l1 uU RR fz j hj); fold z in K.
assert (E : forall g h : nat -> R, (forall i, (i < n)%nat -> g i = h i) -> sum n g = sum n h) by (intros g h e; rewrite !sumE; apply lsum_ext; intros k hk; apply in_seq in hk; apply e; lia).
unfold tiny, mass in K |- *.
rewrite (E (fun i => val (A (P i) j) * val (z r i)) (fun i => val (A (P i) j) * val (x r (P i)))) in K by (intros i hi; rewrite xz by exact hi; reflexivity).
rewrite (E (fun j0 => sum n (fun p => Rabs (val (U p j)) * Rabs (val (L j0 p))) * Rabs (val (z r j0))) (fun i => sum n (fun p => Rabs (val (U p j)) * Rabs (val (L i p))) * Rabs (val (x r (P i))))) in K by (intros i hi; rewrite xz by exact hi; reflexivity).
rewrite (E (fun j0 => (INR n + Rabs (val (U j j))) * Rabs (val (z r j0))) (fun i => (INR n + Rabs (val (U j j))) * Rabs (val (x r (P i))))) in K by (intros i hi; rewrite xz by exact hi; reflexivity).
replace (sum n (fun i => val (x r i) * val (A i j))) with (sum n (fun i => val (A (P i) j) * val (x r (P i)))); [exact K|].
rewrite !sumE; symmetry; rewrite <- (lsum_perm _ _ _ pm), lsum_map; apply lsum_ext; intros; unfold P, d; ring.
Qed.
(* Inverse(A): A X is close to the identity *)
Theorem C91_inverse (junk : fmat) (n : nat) (A : fmat) (c : nat) : let d := decompose_lup n A in let L := fst (fst d) in let U := snd (fst d) in let P := snd d in
  finite_matrix n L -> finite_matrix n U ->
  let X := finverse prec emax p0 pe fused junk n A in (forall i, (i < n)%nat -> fin (X i c) = true) -> forall i, (i < n)%nat ->
  Rabs ((if Nat.eqb (P i) c then 1 else 0) - sum n (fun j => val (A (P i) j) * val (X j c))) <=
  (3 * gamma n + gamma n * gamma n) * sum n (fun j => sum n (fun p => Rabs (val (L i p)) * Rabs (val (U p j))) * Rabs (val (X j c))) +
  tiny n 1 (fun p => Rabs (val (U p p))) (fun j => Rabs (val (U j j))) (fun p => val (L i p)) (fun j => val (X j c)).
Proof.
intros d L U P fL fU X f i hi; assert (K := C91_lup_solve junk n A (fidentity prec emax p0 pe) c fL fU f i hi).
rewrite id_val in K; exact K.
Qed.
(* for row vectors: X A is close to the identity *)
Theorem C91_inverse_follow (junk : fmat) (n : nat) (A : fmat) (r : nat) : let d := decompose_lup n A in let L := fst (fst d) in let U := snd (fst d) in let P := snd d in
  finite_matrix n L -> finite_matrix n U ->
  let X := finverse_follow prec emax p0 pe fused junk n A in (forall i, (i < n)%nat -> fin (X r i) = true) -> forall j, (j < n)%nat ->
  Rabs ((if Nat.eqb r j then 1 else 0) - sum n (fun i => val (X r i) * val (A i j))) <=
  (3 * gamma n + gamma n * gamma n) * sum n (fun i => sum n (fun p => Rabs (val (U p j)) * Rabs (val (L i p))) * Rabs (val (X r (P i)))) +
  tiny n (Rabs (val (U j j))) (fun _ => 1) (fun _ => Rabs (val (U j j))) (fun p => val (U p j)) (fun i => val (X r (P i))).
Proof.
intros d L U P fL fU X f j hj; assert (K := C91_lup_solve_follow junk n A (fidentity prec emax p0 pe) r fL fU f j hj).
rewrite id_val in K; exact K.
Qed.
(* without hypotheses about the factors: a matrix with elements up to m, not too close to overflow, with partial pivoting *)
Theorem C91_lup_norm (junk : fmat) (n : nat) (A b : fmat) (c : nat) (m : float) : 0 <= val m ->
  (forall i j, (i < n)%nat -> (j < n)%nat -> fin (A i j) = true /\ Rabs (val (A i j)) <= val m) ->
  2 ^ (n - 1) * val m < bpow radix2 emax ->
  let x := flup_solve prec emax p0 pe fused junk n (decompose_lup n A) b in (forall i, (i < n)%nat -> fin (x i c) = true) ->
  let M := 2 ^ (n - 1) * val m in let S := sum n (fun j => Rabs (val (x j c))) in
  forall i, (i < n)%nat -> Rabs (val (b i c) - sum n (fun j => val (A i j) * val (x j c))) <=
  (3 * gamma n + gamma n * gamma n) * (INR n * M * S) +
  under n * (INR n + 1 + (1 + gamma n) * (INR n * (INR n + M)) + (INR n + M) * S).
Proof.
intros m0 hA ov x f M S i hi; destruct (C90_pivoting n A m m0 hA ov) as [fL [fU G]]; destruct (C90_lup n A) as [pm _].
set (d := decompose_lup n A) in *; set (L := fst (fst d)) in *; set (U := snd (fst d)) in *; set (P := snd d) in *.
assert (ex : exists k, (k < n)%nat /\ P k = i).
{ assert (k : In i (map P (seq 0 n))) by (apply (Permutation_in _ (Permutation_sym pm)), in_seq; lia).
  apply in_map_iff in k; destruct k as [k [e hk]]; apply in_seq in hk; exists k; split; [lia|exact e]. }
destruct ex as [k [hk <-]]; apply Rle_trans with (1 := C91_lup_solve junk n A b c fL fU f k hk); fold d L U x.
assert (M0 : 0 <= M) by (apply Rmult_le_pos; [apply pow_le; lra|exact m0]).
assert (GU : forall p j, (p < n)%nat -> (j < n)%nat -> Rabs (val (U p j)) <= M).
{ intros p j hp hj; apply Rle_trans with (1 := proj2 (G p j hp hj)); apply Rmult_le_compat_r; [exact m0|apply Rle_pow; [lra|lia]]. }
assert (S0 : 0 <= S) by (unfold S; rewrite sumE; apply lsum_pos; intros; apply Rabs_pos).
assert (SL : forall f g : nat -> R, (forall j, (j < n)%nat -> f j <= g j) -> sum n f <= sum n g) by (intros f' g' h; rewrite !sumE; apply lsum_le; intros j hj; apply in_seq in hj; apply h; lia).
assert (SC : forall a, sum n (fun _ => a) = INR n * a).
{ intro a; clear; induction n as [|q IH]; [simpl; ring|]; rewrite S_INR; cbn [sum]; rewrite IH; ring. }
assert (SM : forall a, sum n (fun j => a * Rabs (val (x j c))) = a * S) by (intro a; unfold S; rewrite !sumE; apply lsum_scal).
assert (g0 := gamma0 n); assert (w0 := under0 n); assert (n0 := pos_INR n).
apply Rplus_le_compat.
- apply Rmult_le_compat_l; [nra|]; rewrite <- SM; apply SL; intros j hj; apply Rmult_le_compat_r; [apply Rabs_pos|]; rewrite <- SC; apply SL.
  intros p hp; rewrite <- (Rmult_1_l M); apply Rmult_le_compat; [apply Rabs_pos|apply Rabs_pos|apply G; assumption|apply GU; assumption].
- unfold tiny; apply Rmult_le_compat_l; [exact w0|]; apply Rplus_le_compat; [apply Rplus_le_compat_l, Rmult_le_compat_l; [lra|]|].
  + rewrite <- SC; apply SL; intros p hp; rewrite <- (Rmult_1_l (INR n + M)); apply Rmult_le_compat; [apply Rabs_pos| |apply G; assumption|].
    * generalize (Rabs_pos (val (U p p))); lra.
    * generalize (GU p p hp hp); lra.
  + rewrite <- SM; apply SL; intros j hj; apply Rmult_le_compat_r; [apply Rabs_pos|]; generalize (GU j j hj hj); lra.
Qed.
End C89.
Print Assumptions C89_lower.
Print Assumptions C89_upper.
Print Assumptions C89_lower_follow.
Print Assumptions C89_upper_follow.
Print Assumptions C89_lower_backward.
Print Assumptions C89_upper_backward.
Print Assumptions C90_lu.
Print Assumptions C90_lup.
Print Assumptions C90_pivoting.
Print Assumptions C91_lu_solve.
Print Assumptions C91_lu_solve_follow.
Print Assumptions C91_lup_solve.
Print Assumptions C91_lup_solve_follow.
Print Assumptions C91_inverse.
Print Assumptions C91_inverse_follow.
Print Assumptions C91_lup_norm.

(** * Concrete cases, double precision *)
Definition mat (rows : list (list Z)) : nat -> nat -> binary_float 53 1024 := fun i j => dbl (nth j (nth i rows []) 0%Z) 0.
Definition all_finite (n : nat) (A : nat -> nat -> binary_float 53 1024) : bool := forallb (fun i => forallb (fun j => is_finite (A i j)) (seq 0 n)) (seq 0 n).
Lemma all_finiteP n A : all_finite n A = true -> finite_matrix 53 1024 n A.
Proof.
intros h i j hi hj; unfold all_finite in h; rewrite forallb_forall in h.
assert (h1 := h i ltac:(apply in_seq; lia)); cbv beta in h1; rewrite forallb_forall in h1; apply h1, in_seq; lia.
Qed.
Definition A3 := mat [[2; 1; 1]; [4; -6; 0]; [-2; 7; 2]]%Z.
Definition b3 := mat [[5; 0; 0]; [-2; 0; 0]; [9; 0; 0]]%Z.
Definition L3 := mat [[3; 0; 0]; [1; 7; 0]; [-2; 7; 2]]%Z.
Definition lupd := fdecompose_lup 53 1024 eq_refl eq_refl.
Definition lud := fdecompose_lu 53 1024 eq_refl eq_refl.
Definition zero3 : nat -> nat -> binary_float 53 1024 := fun _ _ => fzero 53 1024.
(* a system with rounding errors (1/3, 1/7), contracted or not *)
Example C89_example fused : finite_matrix 53 1024 3 L3 /\ lower 53 1024 3 L3 /\
  (forall i, (i < 3)%nat -> is_finite (fsolve_lower 53 1024 eq_refl eq_refl fused 3 L3 b3 i 0%nat) = true) /\
  B2R (fsolve_lower 53 1024 eq_refl eq_refl fused 3 L3 b3 0%nat 0%nat) <> 5 / 3.
Proof.
split; [apply all_finiteP; vm_compute; reflexivity|split; [|split]].
- intros i j h hj; destruct j as [|[|[|]]]; [lia| | |lia]; destruct i as [|[|]]; try lia; dval; reflexivity.
- assert (h : forall f, forallb (fun i => is_finite (fsolve_lower 53 1024 eq_refl eq_refl f 3 L3 b3 i 0%nat)) (seq 0 3) = true) by (intros []; vm_compute; reflexivity).
  intros i hi; assert (h' := h fused); rewrite forallb_forall in h'; apply h', in_seq; lia.
- destruct fused; dval; lra.
Qed.
(* rows are exchanged and the factors and the solution (1, 1, 2) are finite *)
Example C90_example fused : let d := lupd fused 3 A3 in finite_matrix 53 1024 3 (fst (fst d)) /\ finite_matrix 53 1024 3 (snd (fst d)) /\
  map (snd d) (seq 0 3) = [1; 0; 2]%nat /\
  let x := flup_solve 53 1024 eq_refl eq_refl fused zero3 3 d b3 in B2R (x 0%nat 0%nat) = 1 /\ B2R (x 1%nat 0%nat) = 1 /\ B2R (x 2%nat 0%nat) = 2.
Proof.
destruct fused; (split; [apply all_finiteP; vm_compute; reflexivity|split; [apply all_finiteP; vm_compute; reflexivity|split; [vm_compute; reflexivity|]]]);
  (split; [|split]); dval; lra.
Qed.
Example C90_lu_example fused : let d := lud fused 3 A3 in finite_matrix 53 1024 3 (fst d) /\ finite_matrix 53 1024 3 (snd d) /\
  finite_matrix 53 1024 3 (finverse 53 1024 eq_refl eq_refl fused zero3 3 A3).
Proof. destruct fused; (split; [|split]); apply all_finiteP; vm_compute; reflexivity. Qed.
Example C90_pivoting_example : let m := dbl 7 0 in 0 <= B2R m /\
  (forall i j, (i < 3)%nat -> (j < 3)%nat -> is_finite (A3 i j) = true /\ Rabs (B2R (A3 i j)) <= B2R m) /\ 2 ^ (3 - 1) * B2R m < bpow radix2 1024.
Proof.
intro m; assert (e : B2R m = 7) by (unfold m; dval; lra); rewrite e; split; [lra|split].
- intros i j hi hj; destruct i as [|[|[|]]]; try lia; destruct j as [|[|[|]]]; try lia; (split; [vm_compute; reflexivity|]); dval; unfold Rabs; destruct Rcase_abs; lra.
- apply Rlt_le_trans with (bpow radix2 5); [simpl; lra|apply bpow_le; lia].
Qed.
(* without exchanging rows the solution can be worthless: 2^-60 x + y = 1, x + y = 2 gives x = 0, y = 1 *)
Theorem C91_pivoting_needed : exists A b : nat -> nat -> binary_float 53 1024, forall fused,
  let d := lud fused 2 A in let x := flu_solve 53 1024 eq_refl eq_refl fused 2 d b in
  finite_matrix 53 1024 2 (fst d) /\ finite_matrix 53 1024 2 (snd d) /\ (forall i, (i < 2)%nat -> is_finite (x i 0%nat) = true) /\
  ~ Rabs (B2R (b 1%nat 0%nat) - sum 2 (fun j => B2R (A 1%nat j) * B2R (x j 0%nat))) < sum 2 (fun j => Rabs (B2R (A 1%nat j) * B2R (x j 0%nat))) /\
  let p := lupd fused 2 A in let y := flup_solve 53 1024 eq_refl eq_refl fused zero3 2 p b in
  B2R (b 1%nat 0%nat) = sum 2 (fun j => B2R (A 1%nat j) * B2R (y j 0%nat)).
Proof.
exists (fun i j => match i, j with O, O => dbl 1 (-60) | _, _ => dbl 1 0 end), (fun i _ => match i with O => dbl 1 0 | _ => dbl 2 0 end).
intros fused d x; split; [destruct fused; apply all_finiteP; vm_compute; reflexivity|split; [destruct fused; apply all_finiteP; vm_compute; reflexivity|split]].
- intros i hi; unfold x, d; destruct i as [|[|]]; [| |lia]; destruct fused; vm_compute; reflexivity.
- assert (e0 : B2R (x 0%nat 0%nat) = 0) by (unfold x, d; destruct fused; dval; lra).
  assert (e1 : B2R (x 1%nat 0%nat) = 1) by (unfold x, d; destruct fused; dval; lra).
  assert (v1 : B2R (dbl 1 0) = 1) by (dval; lra); assert (v2 : B2R (dbl 2 0) = 2) by (dval; lra).
  split; [unfold sum; rewrite e0, e1, v1, v2, Rmult_0_r, !Rmult_1_l, Rabs_R0, Rabs_R1, !Rplus_0_l; unfold Rabs; destruct Rcase_abs; lra|].
  intros p y.
  assert (y0 : B2R (y 0%nat 0%nat) = 1) by (unfold y, p; destruct fused; dval; lra).
  assert (y1 : B2R (y 1%nat 0%nat) = 1) by (unfold y, p; destruct fused; dval; lra).
  unfold sum; rewrite y0, y1, v1, v2; lra.
Qed.
Print Assumptions C91_pivoting_needed.
