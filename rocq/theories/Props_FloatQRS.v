(* C95: Solve and Inverse of the QR and LQ decompositions in floating point. *)
From Coq Require Import ZArith List Arith Bool Reals Lia Lra Psatz.
From Flocq Require Import Core IEEE754.BinarySingleNaN.
From Verif Require Import M_Float P_Float P_FloatD M_FloatN P_FloatN M_FloatS M_FloatLU P_FloatLU P_FloatTri P_FloatDec M_FloatQR M_FloatQRS Props_Float Props_FloatN Props_FloatS Props_FloatLU P_Norm P_FloatQR P_FloatHH P_FloatQRL P_FloatQRF Props_FloatQR Props_FloatQRF P_FloatQRS.
Import ListNotations.
Local Open Scope R_scope.

Section FloatQRSProps.
Variables prec emax : Z.
Context (p0 : Prec_gt_0 prec) (pe : Prec_lt_emax prec emax).
Notation float := (binary_float prec emax).
Notation val := (@B2R prec emax).
Notation fin := (@is_finite prec emax).
Notation u := (u prec).
Notation eta := (eta prec emax).
Notation fmat := (fmat prec emax).
Notation bp := (bpow radix2).
Notation qr_len := (qr_len prec emax).
Notation qr_tail := (qr_tail prec emax).
Notation gamma := (gamma prec).
Notation under := (under prec emax).
Hypothesis prec1 : (1 < prec)%Z.
Hypothesis range : (3 * prec <= emax)%Z.
Hypothesis range2 : (prec + 7 <= emax)%Z.
Variable fmax : float -> float -> float.
Hypothesis fmaxP : forall x y : float, is_nan x = false -> is_nan y = false -> fmax x y = if flt prec emax x y then y else x.
Variable fused : bool.
Notation fqr := (fdecompose_qr prec emax p0 pe fmax fused).
(* the error of a product of a row and a column with k elements; d: the product of the absolute values *)
Definition dot_err (k : nat) (d : R) : R := gamma k * d + INR k * under k.
(* the error of the elements of Q R (C93): s: scaler, a: length of the column, t: absolute value of the element *)
Definition qr_err (m ps n : nat) (s a t : R) : R :=
  let h := (1 + u) * a / s + INR m * (/ 2 * eta) in let N := qr_len m ps n 1 in let H := qr_len m ps n h in
  s * ((N * H - h) + N * qr_tail m ps n h + u * (N * H)) + INR m * N * (/ 2 * eta) + u * t + s * (/ 2 * eta).

Lemma product_err rm1 rm2 pad k (X Y : fmat) i j r : (0 < k)%nat -> fproduct prec emax p0 pe rm1 rm2 fused pad k X Y i j r -> fin r = true ->
  Rabs (val r - lsum (fun l => val (X i l) * val (Y l j)) (seq 0 k)) <= dot_err k (lsum (fun l => Rabs (val (X i l) * val (Y l j))) (seq 0 k)).
Proof.
intros hk H f; destruct k as [|k]; [lia|].
assert (e : forall g, sum_f_R0 g k = lsum g (seq 0 (Datatypes.S k))) by (intro g; rewrite <- Rsum_lsum; symmetry; apply (sum_f g (Datatypes.S k))).
assert (T := C79_product prec emax p0 pe rm1 rm2 fused pad k X Y i j r H f); rewrite !e in T; apply Rle_trans with (1 := T).
unfold Props_FloatS.bound, dot_err, Props_FloatLU.gamma, Props_FloatLU.under; apply Req_le; unfold Rdiv; ring.
Qed.

Section Run.
Variables (rowmajor : bool) (pa pm ps m n : nat) (A : fmat) (scaler : float) (norms : list (float * float)) (QT R0 Q R : fmat).
Hypothesis nm : (0 < n <= m)%nat.
Hypothesis size : INR ((m + ps) / 2 + 8) * u <= / 8.
Hypothesis run : fqr rowmajor pa pm ps m n A scaler norms QT R0 Q R.
Hypothesis fA : forall i j, (i < m)%nat -> (j < n)%nat -> fin (A i j) = true.
Hypothesis room : INR m * (64 * qr_len m ps n (INR m)) <= bp (emax - 1).
Hypothesis nt : Forall (fun p => not_tiny prec emax (snd p)) norms.
Hypothesis hov : val scaler * qr_len m ps n (INR m) <= bp (emax - 1).
(* the error of Q R *)
Definition err (i j : nat) : Rdefinitions.R := qr_err m ps n (val scaler) (sqrt (sum_to m (fun l => val (A l j) ^ 2))) (Rabs (val (A i j))).

Lemma facts : finite_matrix prec emax n R /\ upper prec emax n R /\
  (forall i j, (i < m)%nat -> (j < n)%nat -> Rabs (lsum (fun l => val (Q i l) * val (R l j)) (seq 0 n) - val (A i j)) <= err i j) /\
  (forall i j, (i < n)%nat -> (j < n)%nat -> Rabs (lsum (fun l => val (Q l i) * val (Q l j)) (seq 0 m) - delta i j) <= INR m * (qr_len m ps n 1 ^ 2 - 1)).
Proof.
destruct (C94_finite prec emax p0 pe prec1 range range2 fmax fmaxP fused _ _ _ _ _ _ _ _ _ _ _ _ _ nm size run fA room nt) as [fs [g [_ fR]]].
split; [intros i j hi hj; exact (fR hov i j hi hj)|split; [|split]].
- intros i j ji ni; assert (f := fR hov i j ni ltac:(lia)); destruct run as [_ [_ [_ e]]]; rewrite e in *; cbv beta in *.
  replace (Nat.ltb j i) with true in * by (symmetry; apply Nat.ltb_lt; exact ji).
  rewrite (fmul_val _ _ _ _ _ _ f); simpl (val (fzero prec emax)); rewrite Rmult_0_r; apply round_0; auto with typeclass_instances.
- intros i j hi hj; destruct (C94_residual prec emax p0 pe prec1 range range2 fmax fmaxP fused _ _ _ _ _ _ _ _ _ _ _ _ _ nm size run fA room nt hov i j hi hj) as [_ h]; rewrite sum_lsum in h; exact h.
- intros i j hi hj; assert (h := C94_orthonormal prec emax p0 pe prec1 range range2 fmax fmaxP fused _ _ _ _ _ _ _ _ _ _ _ _ _ nm size run fA room nt i j hi hj); rewrite sum_lsum in h; exact h.
Qed.
Lemma rows : n = m -> forall i j, (i < m)%nat -> (j < m)%nat -> Rabs (lsum (fun l => val (Q i l) * val (Q j l)) (seq 0 n) - delta i j) <= qr_len m ps n 1 ^ 2 - 1.
Proof.
intros e i j hi hj.
destruct (C94_finite prec emax p0 pe prec1 range range2 fmax fmaxP fused _ _ _ _ _ _ _ _ _ _ _ _ _ nm size run fA room nt) as [_ [g _]].
destruct (finite_run prec emax p0 pe prec1 range range2 fmax fmaxP fused _ _ _ _ _ _ _ _ _ _ _ _ _ nm size run fA room nt) as [h1 _].
assert (h := C92_square prec emax p0 pe prec1 range range2 fmax fmaxP fused _ _ _ _ _ _ _ _ _ _ _ _ _ nm size run g (fun i j hi hj => h1 j hj i hi) e i j ltac:(lia) ltac:(lia)); rewrite sum_lsum in h; exact h.
Qed.

(** * C95: systems of equations *)
Section Solve.
Variables (rm1 rm2 : bool) (pad cs c : nat) (b y x : fmat).
Hypothesis solve : fqr_solve prec emax p0 pe fused rm1 rm2 pad m n cs Q R b y x.
Hypothesis hc : (c < cs)%nat.
Hypothesis fx : forall j, (j < n)%nat -> fin (x j c) = true.
(* the error of an element of ConjTranspose(Q) * b, and of a row of the triangular system *)
Definition rhs_err (l : nat) : Rdefinitions.R := dot_err m (sum_to m (fun k => Rabs (val (Q k l) * val (b k c)))).
Definition tri_err (l : nat) : Rdefinitions.R := gamma n * sum_to n (fun j => Rabs (val (R l j) * val (x j c))) + under n * (INR n + Rabs (val (R l l))).
Lemma system : (forall l, (l < n)%nat -> Rabs (val (y l c) - lsum (fun k => val (Q k l) * val (b k c)) (seq 0 m)) <= rhs_err l) /\
  (forall l, (l < n)%nat -> Rabs (val (y l c) - lsum (fun j => val (R l j) * val (x j c)) (seq 0 n)) <= tri_err l).
Proof.
destruct facts as [fR [uR _]]; destruct solve as [hp ex]; rewrite ex in fx |- *.
assert (U := upper_residual prec emax p0 pe fused n R y c fR uR fx).
split; intros l hl; destruct (U l hl) as [_ [fy hu]].
- unfold rhs_err; rewrite sum_lsum; exact (product_err rm1 rm2 pad m _ _ l c _ ltac:(lia) (hp l c hl hc) fy).
- unfold tri_err; rewrite sum_lsum, ex, <- boundE; exact hu.
Qed.
(* a square system: the residual is small *)
Theorem C95_solve : n = m -> forall i, (i < m)%nat ->
  Rabs (val (b i c) - sum_to n (fun j => val (A i j) * val (x j c))) <=
  (qr_len m ps n 1 ^ 2 - 1) * sum_to m (fun k => Rabs (val (b k c))) + sum_to n (fun l => Rabs (val (Q i l)) * (rhs_err l + tri_err l)) +
  sum_to n (fun j => err i j * Rabs (val (x j c))).
Proof.
intros e i hi; destruct facts as [_ [_ [hA _]]]; destruct system as [s1 s2]; rewrite !sum_lsum.
exact (solve_res m n _ _ _ err hA (fun k => val (b k c)) (fun l => val (y l c)) (fun j => val (x j c)) _ _ s1 s2 _ i hi (fun k hk => rows e i k hi hk)).
Qed.
(* any system: the residual is nearly orthogonal to the columns of Q and of A *)
Definition ortho_err (l : nat) : Rdefinitions.R :=
  rhs_err l + tri_err l + INR m * (qr_len m ps n 1 ^ 2 - 1) * sum_to n (fun p => Rabs (sum_to n (fun j => val (R p j) * val (x j c)))) +
  sum_to m (fun i => Rabs (val (Q i l)) * sum_to n (fun j => err i j * Rabs (val (x j c)))).
Definition residual (i : nat) : Rdefinitions.R := val (b i c) - sum_to n (fun j => val (A i j) * val (x j c)).
Theorem C95_orthogonal : forall l, (l < n)%nat -> Rabs (sum_to m (fun i => val (Q i l) * residual i)) <= ortho_err l.
Proof.
intros l hl; destruct facts as [_ [_ [hA hQ]]]; destruct system as [s1 s2]; unfold ortho_err, residual; rewrite !sum_lsum.
assert (T := least_squares m n _ _ _ err hA (fun k => val (b k c)) (fun l => val (y l c)) (fun j => val (x j c)) _ _ s1 s2 _ l hl (fun p hp => hQ l p hl hp)).
rewrite (lsum_ext (fun i => val (Q i l) * _) (fun i => val (Q i l) * (val (b i c) - lsum (fun j => val (A i j) * val (x j c)) (seq 0 n)))) by (intros; rewrite sum_lsum; reflexivity).
rewrite (lsum_ext (fun p => Rabs (sum_to n _)) (fun p => Rabs (lsum (fun j => val (R p j) * val (x j c)) (seq 0 n)))) by (intros; rewrite sum_lsum; reflexivity).
rewrite (lsum_ext (fun i => Rabs (val (Q i l)) * _) (fun i => Rabs (val (Q i l)) * lsum (fun j => err i j * Rabs (val (x j c))) (seq 0 n))) by (intros; rewrite sum_lsum; reflexivity).
exact T.
Qed.
Theorem C95_least_squares : forall j, (j < n)%nat ->
  Rabs (sum_to m (fun i => val (A i j) * residual i)) <= sum_to n (fun l => Rabs (val (R l j)) * ortho_err l) + sum_to m (fun i => err i j * Rabs (residual i)).
Proof.
intros j hj; destruct facts as [_ [_ [hA _]]]; rewrite !sum_lsum; apply (normal m n _ _ _ err hA residual ortho_err j hj).
intros l hl; rewrite <- sum_lsum; apply C95_orthogonal, hl.
Qed.
End Solve.

(** * The inverse *)
Section Inverse.
Variables (rm1 rm2 : bool) (pad : nat) (X : fmat).
Hypothesis inverse : fqr_inverse prec emax p0 pe fused rm1 rm2 pad m n Q R X.
Let Z := fsolve_upper prec emax p0 pe fused n R (fidentity prec emax p0 pe).
Hypothesis fZ : forall i j, (i < n)%nat -> (j < n)%nat -> fin (Z i j) = true.
Hypothesis fX : forall i j, (i < n)%nat -> (j < m)%nat -> fin (X i j) = true.
(* the error of an element of Rinv * ConjTranspose(Q), and of an element of R * Rinv *)
Definition prod_err (j k : nat) : Rdefinitions.R := dot_err n (sum_to n (fun p => Rabs (val (Z j p) * val (Q k p)))).
Definition inv_err (l p : nat) : Rdefinitions.R := gamma n * sum_to n (fun j => Rabs (val (R l j) * val (Z j p))) + under n * (INR n + Rabs (val (R l l))).
Definition inverse_err (i k : nat) : Rdefinitions.R :=
  sum_to n (fun j => err i j * Rabs (val (X j k))) +
  sum_to n (fun l => Rabs (val (Q i l)) * (sum_to n (fun j => Rabs (val (R l j)) * prod_err j k) + sum_to n (fun p => inv_err l p * Rabs (val (Q k p))))).
(* A X is the projection Q QT onto the range, up to rounding *)
Theorem C95_inverse : forall i k, (i < m)%nat -> (k < m)%nat ->
  Rabs (sum_to n (fun j => val (A i j) * val (X j k)) - sum_to n (fun l => val (Q i l) * val (Q k l))) <= inverse_err i k.
Proof.
intros i k hi hk; destruct facts as [fR [uR [hA _]]].
assert (h1 : forall j, (j < n)%nat -> Rabs (val (X j k) - lsum (fun p => val (Z j p) * val (Q k p)) (seq 0 n)) <= prod_err j k).
{ intros j hj; unfold prod_err; rewrite sum_lsum; exact (product_err rm1 rm2 pad n _ _ j k _ ltac:(lia) (inverse j k hj hk) (fX j k hj hk)). }
assert (h2 : forall l p, (l < n)%nat -> (p < n)%nat -> Rabs (delta l p - lsum (fun j => val (R l j) * val (Z j p)) (seq 0 n)) <= inv_err l p).
{ intros l p hl hp; unfold inv_err; rewrite sum_lsum, <- boundE.
  destruct (upper_residual prec emax p0 pe fused n R (fidentity prec emax p0 pe) p fR uR (fun j hj => fZ j p hj hp) l hl) as [_ [_ h]].
  rewrite id_val in h; exact h. }
assert (T := inverse_res m n _ _ _ err hA (fun j k => val (X j k)) (fun j p => val (Z j p)) prod_err inv_err i k hi h1 h2).
unfold inverse_err; rewrite !sum_lsum.
rewrite (lsum_ext (fun l => Rabs (val (Q i l)) * _) (fun l => Rabs (val (Q i l)) * (lsum (fun j => Rabs (val (R l j)) * prod_err j k) (seq 0 n) + lsum (fun p => inv_err l p * Rabs (val (Q k p))) (seq 0 n)))) by (intros; rewrite !sum_lsum; reflexivity).
exact T.
Qed.
Theorem C95_inverse_square : n = m -> forall i k, (i < m)%nat -> (k < m)%nat ->
  Rabs (sum_to n (fun j => val (A i j) * val (X j k)) - kron i k) <= qr_len m ps n 1 ^ 2 - 1 + inverse_err i k.
Proof.
intros e i k hi hk; assert (h1 := C95_inverse i k hi hk); assert (h2 := rows e i k hi hk); rewrite <- sum_lsum in h2.
replace (sum_to n (fun j => val (A i j) * val (X j k)) - kron i k) with
  ((sum_to n (fun l => val (Q i l) * val (Q k l)) - delta i k) + (sum_to n (fun j => val (A i j) * val (X j k)) - sum_to n (fun l => val (Q i l) * val (Q k l)))) by (change (kron i k) with (delta i k); ring).
apply Rle_trans with (1 := Rabs_triang _ _); lra.
Qed.
End Inverse.
End Run.

(** * The LQ decomposition and its Solve *)
Section LQ.
Variables (rowmajor : bool) (pa pm ps m n : nat) (A : fmat) (scaler : float) (norms : list (float * float)) (QT R0 L Q : fmat).
Hypothesis nm : (0 < m <= n)%nat.
Hypothesis size : INR ((n + ps) / 2 + 8) * u <= / 8.
Hypothesis run : fdecompose_lq prec emax p0 pe fused fmax rowmajor pa pm ps m n A scaler norms QT R0 L Q.
Hypothesis fA : forall i j, (i < m)%nat -> (j < n)%nat -> fin (A i j) = true.
Hypothesis room : INR n * (64 * qr_len n ps m (INR n)) <= bp (emax - 1).
Hypothesis nt : Forall (fun p => not_tiny prec emax (snd p)) norms.
Hypothesis hov : val scaler * qr_len n ps m (INR n) <= bp (emax - 1).
Notation tr := (ftranspose prec emax).
Lemma facts_lq : finite_matrix prec emax m (tr L) /\ upper prec emax m (tr L) /\
  (forall i j, (i < n)%nat -> (j < m)%nat -> Rabs (lsum (fun l => val (tr Q i l) * val (tr L l j)) (seq 0 m) - val (tr A i j)) <= err ps n m (tr A) scaler i j) /\
  (forall i j, (i < m)%nat -> (j < m)%nat -> Rabs (lsum (fun l => val (tr Q l i) * val (tr Q l j)) (seq 0 n) - delta i j) <= INR n * (qr_len n ps m 1 ^ 2 - 1)).
Proof. exact (facts _ _ _ _ _ _ _ _ _ _ _ _ _ nm size run (fun i j hi hj => fA j i hj hi) room nt hov). Qed.
Theorem C95_lq :
  (forall i j, (i < m)%nat -> (j < m)%nat -> fin (L i j) = true /\ ((i < j)%nat -> val (L i j) = 0)) /\
  (forall i j, (i < m)%nat -> (j < n)%nat ->
    Rabs (sum_to m (fun l => val (L i l) * val (Q l j)) - val (A i j)) <= qr_err n ps m (val scaler) (sqrt (sum_to n (fun l => val (A i l) ^ 2))) (Rabs (val (A i j)))) /\
  (forall i k, (i < m)%nat -> (k < m)%nat -> Rabs (sum_to n (fun j => val (Q i j) * val (Q k j)) - kron i k) <= INR n * (qr_len n ps m 1 ^ 2 - 1)).
Proof.
destruct facts_lq as [h1 [h2 [h3 h4]]]; split; [|split].
- intros i j hi hj; split; [exact (h1 j i hj hi)|intro ij; exact (h2 j i ij hj)].
- intros i j hi hj; rewrite sum_lsum, (lsum_ext _ (fun l => val (tr Q j l) * val (tr L l i))) by (intros; apply Rmult_comm); exact (h3 j i hj hi).
- intros i k hi hk; rewrite sum_lsum; exact (h4 i k hi hk).
Qed.
(* x A = b, for row c of b and x *)
Theorem C95_lq_solve (rm1 rm2 : bool) (pad cs c : nat) (b y x : fmat) : n = m ->
  flq_solve prec emax p0 pe fused rm1 rm2 pad m n cs L Q b y x -> (c < cs)%nat -> (forall j, (j < m)%nat -> fin (x c j) = true) -> forall j, (j < n)%nat ->
  Rabs (val (b c j) - sum_to m (fun i => val (x c i) * val (A i j))) <=
  (qr_len n ps m 1 ^ 2 - 1) * sum_to n (fun k => Rabs (val (b c k))) +
  sum_to m (fun l => Rabs (val (Q l j)) * (dot_err n (sum_to n (fun k => Rabs (val (Q l k) * val (b c k)))) +
    (gamma m * sum_to m (fun i => Rabs (val (L i l) * val (x c i))) + under m * (INR m + Rabs (val (L l l)))))) +
  sum_to m (fun i => qr_err n ps m (val scaler) (sqrt (sum_to n (fun l => val (A i l) ^ 2))) (Rabs (val (A i j))) * Rabs (val (x c i))).
Proof.
intros e hs hc fx j hj.
assert (T := C95_solve _ _ _ _ _ _ _ _ _ _ _ _ _ nm size run (fun i j hi hj => fA j i hj hi) room nt hov rm1 rm2 pad cs c (tr b) (tr y) (tr x) hs hc fx (eq_sym e) j hj).
rewrite !sum_lsum in *; rewrite (lsum_ext (fun i => val (x c i) * val (A i j)) (fun i => val (tr A j i) * val (tr x i c))) by (intros; apply Rmult_comm); exact T.
Qed.
End LQ.
End FloatQRSProps.
Print Assumptions C95_solve.
Print Assumptions C95_orthogonal.
Print Assumptions C95_least_squares.
Print Assumptions C95_inverse.
Print Assumptions C95_inverse_square.
Print Assumptions C95_lq.
Print Assumptions C95_lq_solve.

(* the system (3 1; 4 2) x = (1, 2) in double precision, solved with the run of C92_example *)
Definition e_Q : fmat 53 1024 := fun i j => fst (snd (dqr 2 2 m3142)) j i.
Definition e_R : fmat 53 1024 := fun i j => fmul 53 1024 eq_refl eq_refl (dscaler 2 2 m3142) (if Nat.ltb j i then fzero 53 1024 else snd (snd (dqr 2 2 m3142)) i j).
Definition e_b : fmat 53 1024 := fun i j => match i with 0%nat => dbl 1 0 | _ => dbl 2 0 end.
Definition e_y : fmat 53 1024 := fun i j => frun 53 1024 eq_refl eq_refl false (row_of 53 1024 2 (ftranspose 53 1024 e_Q) i) (column_of 53 1024 2 e_b j).
Definition e_X : fmat 53 1024 := fun i j => frun 53 1024 eq_refl eq_refl false (row_of 53 1024 2 (fsolve_upper 53 1024 eq_refl eq_refl false 2 e_R (fidentity 53 1024 eq_refl eq_refl)) i)
  (column_of 53 1024 2 (ftranspose 53 1024 e_Q) j).
Example C95_example : fqr_solve 53 1024 eq_refl eq_refl false true true 0 2 2 1 e_Q e_R e_b e_y (fsolve_upper 53 1024 eq_refl eq_refl false 2 e_R e_y) /\
  (forall j, (j < 2)%nat -> is_finite (fsolve_upper 53 1024 eq_refl eq_refl false 2 e_R e_y j 0%nat) = true) /\
  Rabs (B2R (fsolve_upper 53 1024 eq_refl eq_refl false 2 e_R e_y 1%nat 0%nat) - 1) <= 1 / 10 ^ 14 /\
  fqr_inverse 53 1024 eq_refl eq_refl false true true 0 2 2 e_Q e_R e_X /\
  forall i j, (i < 2)%nat -> (j < 2)%nat -> is_finite (fsolve_upper 53 1024 eq_refl eq_refl false 2 e_R (fidentity 53 1024 eq_refl eq_refl) i j) = true /\ is_finite (e_X i j) = true.
Proof.
split; [split; [intros i j _ _; reflexivity|reflexivity]|split; [|split; [|split]]].
- intros [|[|j]] hj; try lia; vm_compute; reflexivity.
- dval; apply Rabs_le; split; lra.
- intros i j _ _; reflexivity.
- intros [|[|i]] [|[|j]] hi hj; try lia; split; vm_compute; reflexivity.
Qed.
