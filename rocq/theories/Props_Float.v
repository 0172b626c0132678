(* C73, C74: compensated summation and Kahan's algorithm in floating point arithmetic *)
From Coq Require Import ZArith List Reals Lia Lra.
From Flocq Require Import Core Plus_error Mult_error Relative IEEE754.BinarySingleNaN.
From Verif Require Import M_Float P_Float P_FloatD.
Import ListNotations.
Local Open Scope R_scope.

(* sum of a list of real numbers *)
Definition Rsum (l : list R) : R := fold_right Rplus 0 l.
(* rounding to nearest even in the format, without bound on the exponent *)
Definition RN (prec emax : Z) (x : R) : R := round radix2 (FLT_exp (3 - emax - prec) prec) ZnearestE x.
(* unit roundoff 2^-prec; smallest positive number 2^(3-emax-prec) *)
Definition u (prec : Z) : R := bpow radix2 (- prec).
Definition eta (prec emax : Z) : R := bpow radix2 (3 - emax - prec).

Section C73.
Variables prec emax : Z.
Context (p0 : Prec_gt_0 prec) (pe : Prec_lt_emax prec emax).
Hypothesis prec1 : (1 < prec)%Z.
Notation float := (binary_float prec emax).
Notation val := (@B2R prec emax).
Notation fin := (@is_finite prec emax).

(* the rounded sum and its exact error *)
Theorem C73_fast2sum (a b : float) : let '(s, c) := fast2sum prec emax p0 pe a b in
  Rabs (val b) <= Rabs (val a) -> fin s = true ->
  fin c = true /\ val s = RN prec emax (val a + val b) /\ val s + val c = val a + val b.
Proof.
simpl; intros h hs; destruct (fast2sum_ok prec emax p0 pe prec1 a b h hs) as [h1 h2]; split; [exact h1|split; [exact (fadd_val _ _ _ _ _ _ hs)|]].
rewrite h2; ring.
Qed.

(* one step of the summation: the compensation receives the exact error of the addition, whatever the order of magnitudes *)
Theorem C73_step (sum compensation x : float) : let '(t, compensation') := sum_step prec emax p0 pe (sum, compensation) x in
  fin t = true ->
  val t = RN prec emax (val sum + val x) /\
  exists e, fin e = true /\ val t + val e = val sum + val x /\
    (fin compensation' = true -> val compensation' = RN prec emax (val compensation + val e)).
Proof.
destruct (sum_step prec emax p0 pe (sum, compensation) x) as [t c] eqn:E; intro ht.
assert (e1 : fst (sum_step prec emax p0 pe (sum, compensation) x) = t) by (rewrite E; reflexivity).
assert (e2 : snd (sum_step prec emax p0 pe (sum, compensation) x) = c) by (rewrite E; reflexivity).
destruct (stepP prec emax p0 pe prec1 sum compensation x ltac:(rewrite e1; exact ht)) as [_ [_ [e3 [e [he [ee e4]]]]]].
rewrite e1 in e3; rewrite e2 in e4; clear e1 e2 E; rewrite e3 in *; rewrite e4; split; [exact (fadd_val _ _ _ _ _ _ ht)|].
exists e; split; [exact he|split; [rewrite ee; ring|exact (fadd_val _ _ _ _ _ _)]].
Qed.

Lemma rsumE (v : list float) : rsum prec emax v = Rsum (map val v).
Proof. induction v as [|x v IH]; [reflexivity|]; simpl; rewrite <- IH; reflexivity. Qed.
Lemma rsum_absE (v : list float) : rsum_abs prec emax v = Rsum (map (fun x => Rabs (val x)) v).
Proof. induction v as [|x v IH]; [reflexivity|]; simpl; rewrite <- IH; reflexivity. Qed.

(* The sum has almost the accuracy of a sum computed with twice the precision and rounded once: the error relative to the
   exact sum is one rounding, and the part depending on the condition is of the second order. *)
Theorem C73_sum (v : list float) : let '(s, c) := sum_compensated prec emax p0 pe v in
  let S := Rsum (map val v) in
  let A := Rsum (map (fun x => Rabs (val x)) v) in
  let g := (1 + u prec) ^ (length v - 1) - 1 in
  fin s = true -> Forall (fun x => fin x = true) v /\ Rabs (val s - S) <= u prec * Rabs S + (1 + u prec) * g ^ 2 * A.
Proof.
unfold sum_compensated; destruct (fold_left _ v _) as [t c] eqn:e; simpl; intro hs.
destruct (fadd_inv _ _ _ _ _ _ hs) as [ht hc].
destruct (loopP prec emax p0 pe prec1 v t c e ht hc) as [E [B [h1 [h2 [h3 [h4 [h5 h6]]]]]]]; split; [exact h6|].
rewrite rsumE in h1; rewrite rsum_absE in *; replace (length v - 1)%nat with (Nat.pred (length v)) by lia.
unfold u in *; set (q := (1 + bpow radix2 (- prec)) ^ Nat.pred (length v)) in *.
assert (up := bpow_gt_0 radix2 (- prec)); assert (q1 : 1 <= q) by (apply pow_R1_Rle; lra).
assert (d : Rabs (val t + val c - Rsum (map val v)) <= (q - 1) ^ 2 * Rsum (map (fun x => Rabs (val x)) v)).
{ replace (val t + val c - Rsum (map val v)) with (val c - E) by (rewrite <- h1; ring); apply Rle_trans with (1 := h4); simpl; nra. }
assert (r := add_error prec emax p0 (val t) (val c) (format_val _ _ t) (format_val _ _ c)).
rewrite <- (fadd_val _ _ _ _ _ _ hs) in r.
set (S := Rsum (map val v)) in *; set (A := Rsum (map (fun x => Rabs (val x)) v)) in *.
replace (val (fadd prec emax p0 pe t c) - S) with ((val (fadd prec emax p0 pe t c) - (val t + val c)) + (val t + val c - S)) by ring.
apply Rle_trans with (1 := Rabs_triang _ _).
assert (l : Rabs (val t + val c) <= Rabs S + Rabs (val t + val c - S)).
{ replace (val t + val c) with (S + (val t + val c - S)) at 1 by ring; apply Rabs_triang. }
assert (bpow radix2 (- prec) * Rabs (val t + val c) <= bpow radix2 (- prec) * (Rabs S + (q - 1) ^ 2 * A)) by (apply Rmult_le_compat_l; lra).
lra.
Qed.

(* If the sum is not too badly conditioned, sum and compensation together have the accuracy of twice the precision. *)
Theorem C73_sum_pair (v : list float) : let '(s, c) := sum_compensated prec emax p0 pe v in
  let S := Rsum (map val v) in
  let A := Rsum (map (fun x => Rabs (val x)) v) in
  let q := (1 + u prec) ^ (length v - 1) in
  (q ^ 2 - 1) * A <= Rabs S ->
  fin s = true -> fin c = true /\ Rabs (val s + val c - S) <= (q - 1) ^ 2 * A.
Proof.
unfold sum_compensated; destruct (fold_left _ v _) as [t c] eqn:e; simpl; intros hq hs.
destruct (fadd_inv _ _ _ _ _ _ hs) as [ht hc].
destruct (loopP prec emax p0 pe prec1 v t c e ht hc) as [E [B [h1 [h2 [h3 [h4 [h5 h6]]]]]]].
rewrite rsumE in h1; rewrite rsum_absE in *; replace (length v - 1)%nat with (Nat.pred (length v)) in * by lia.
unfold u in *; set (q := (1 + bpow radix2 (- prec)) ^ Nat.pred (length v)) in *.
assert (up := bpow_gt_0 radix2 (- prec)); assert (q1 : 1 <= q) by (apply pow_R1_Rle; lra).
set (S := Rsum (map val v)) in *; set (A := Rsum (map (fun x => Rabs (val x)) v)) in *.
assert (d : Rabs (val c - E) <= (q - 1) * ((q - 1) * A)) by nra.
assert (lc : Rabs (val c) <= Rabs (val t)).
{ assert (a1 : Rabs (val c) <= Rabs (val c - E) + Rabs E).
  { replace (val c) with ((val c - E) + E) at 1 by ring; apply Rabs_triang. }
  assert (a2 : Rabs S <= Rabs (val t) + Rabs E) by (rewrite <- h1; apply Rabs_triang).
  lra. }
destruct (fast2sum_ok prec emax p0 pe prec1 t c lc hs) as [h7 h8]; split; [exact h7|]; rewrite h8.
match goal with |- Rabs ?x <= _ => replace x with (val c - E) by (rewrite <- h1; ring) end; lra.
Qed.

(* DotCompensated: only the additions are compensated, every product is rounded once *)
Lemma mul_error x y : Rabs (RN prec emax (x * y) - x * y) <= u prec * Rabs (x * y) + / 2 * eta prec emax.
Proof.
destruct (error_N_FLT radix2 (3 - emax - prec) prec p0 (fun t => negb (Z.even t)) (x * y)) as [d [h [h1 [h2 [_ h3]]]]].
unfold RN; rewrite h3; replace (x * y * (1 + d) + h - x * y) with (d * (x * y) + h) by ring.
apply Rle_trans with (1 := Rabs_triang _ _); rewrite Rabs_mult; apply Rplus_le_compat; [|exact h2].
apply Rmult_le_compat_r; [apply Rabs_pos|]; apply Rle_trans with (1 := h1); unfold u; rewrite bpow_plus; simpl (bpow radix2 1); lra.
Qed.
Theorem C73_dot (lhs rhs : list float) : length lhs = length rhs -> let '(s, c) := dot_compensated prec emax p0 pe lhs rhs in
  let S := Rsum (map (fun p => val (fst p) * val (snd p)) (combine lhs rhs)) in
  let A := Rsum (map (fun p => Rabs (val (fst p) * val (snd p))) (combine lhs rhs)) in
  let n := length lhs in
  let g := (1 + u prec) ^ (n - 1) - 1 in
  let h := INR n * (/ 2 * eta prec emax) in
  fin s = true -> Rabs (val s - S) <= u prec * Rabs S + (1 + u prec) * (u prec * A + h + g ^ 2 * ((1 + u prec) * A + h)).
Proof.
intro hl; unfold dot_compensated.
generalize (C73_sum (map (fun p => fmul prec emax p0 pe (fst p) (snd p)) (combine lhs rhs))).
destruct (sum_compensated _ _ _ _ _) as [s c]; cbv zeta; rewrite map_length, combine_length, <- hl, Nat.min_id; intros H hs.
destruct (H hs) as [hf hb]; clear H.
set (l := combine lhs rhs) in *; assert (en : length l = length lhs) by (unfold l; rewrite combine_length, <- hl, Nat.min_id; reflexivity).
rewrite <- en in *; clear en hl; clearbody l.
set (g := (1 + u prec) ^ (length l - 1) - 1) in *.
set (S := Rsum (map _ l)); set (A := Rsum (map (fun p => Rabs (val (fst p) * val (snd p))) l)).
set (h := INR (length l) * (/ 2 * eta prec emax)).
rewrite !map_map in hb; set (S' := Rsum (map _ l)) in hb; set (A' := Rsum (map _ l)) in hb.
assert (up : 0 < u prec) by apply bpow_gt_0.
assert (d : Rabs (S' - S) <= u prec * A + h /\ A' <= (1 + u prec) * A + h).
{ unfold S', S, A', A, h; clear hb S S' A A' h g; rewrite Forall_map in hf; induction hf as [|p l hp _ IH]; simpl Rsum; simpl length.
  - rewrite Rminus_0_r, Rabs_R0; simpl INR; lra.
  - rewrite S_INR; destruct IH as [h1 h2].
    assert (e := mul_error (val (fst p)) (val (snd p))); rewrite <- (fmul_val _ _ _ _ _ _ hp : val (fmul _ _ _ _ _ _) = RN prec emax _) in e.
    set (a := val (fmul prec emax p0 pe (fst p) (snd p))) in *; set (b := val (fst p) * val (snd p)) in *.
    unfold Rsum in *; set (X := fold_right Rplus 0 _) in *; split.
    + match goal with |- Rabs (?x + ?y - (?z + ?t)) <= _ => replace (x + y - (z + t)) with ((x - z) + (y - t)) by ring end.
      apply Rle_trans with (1 := Rabs_triang _ _); lra.
    + assert (Rabs a <= Rabs b + Rabs (a - b)) by (replace a with (b + (a - b)) at 1 by ring; apply Rabs_triang); lra. }
destruct d as [d1 d2].
replace (val s - S) with ((val s - S') + (S' - S)) by ring; apply Rle_trans with (1 := Rabs_triang _ _).
assert (l1 : Rabs S' <= Rabs S + Rabs (S' - S)) by (replace S' with (S + (S' - S)) at 1 by ring; apply Rabs_triang).
assert (l2 : u prec * Rabs S' <= u prec * (Rabs S + (u prec * A + h))) by (apply Rmult_le_compat_l; lra).
assert (g2 : 0 <= g ^ 2) by apply pow2_ge_0.
assert (l3 : g ^ 2 * A' <= g ^ 2 * ((1 + u prec) * A + h)) by (apply Rmult_le_compat_l; lra).
assert (l4 : (1 + u prec) * (g ^ 2 * A') <= (1 + u prec) * (g ^ 2 * ((1 + u prec) * A + h))) by (apply Rmult_le_compat_l; lra).
lra.
Qed.
End C73.
Print Assumptions C73_fast2sum.
Print Assumptions C73_step.
Print Assumptions C73_sum.
Print Assumptions C73_sum_pair.
Print Assumptions C73_dot.

Section C74.
Variables prec emax : Z.
Context (p0 : Prec_gt_0 prec) (pe : Prec_lt_emax prec emax).
Hypothesis prec1 : (1 < prec)%Z.
Notation float := (binary_float prec emax).
Notation val := (@B2R prec emax).
Notation fin := (@is_finite prec emax).

(* a product that is zero or at least 2^(2 prec - 1) times the smallest number: its rounding error is a floating point number *)
Definition no_underflow (x y : float) : Prop := val x * val y <> 0 -> bpow radix2 (3 - emax - prec + 2 * prec - 1) <= Rabs (val x * val y).

Lemma fneg_ok (x : float) : fin (fneg prec emax p0 pe x) = true -> val (fneg prec emax p0 pe x) = - val x.
Proof.
unfold fneg, fone; intro h; rewrite (fmul_val _ _ _ _ _ _ h), B2R_Bopp, Bone_correct.
replace (val x * - (1)) with (- val x) by ring; apply round_generic; auto with typeclass_instances; apply generic_format_opp; apply format_val.
Qed.
Lemma fneg_fin (x : float) : fin x = true -> fin (fneg prec emax p0 pe x) = true.
Proof.
intro h; unfold fneg, fone; apply fmul_fin; [exact h|rewrite is_finite_Bopp; apply is_finite_Bone|].
rewrite B2R_Bopp, Bone_correct; replace (val x * - (1)) with (- val x) by ring.
rewrite round_generic; auto with typeclass_instances; [rewrite Rabs_Ropp; apply val_lt|apply generic_format_opp; apply format_val].
Qed.

(* the error of the product is recovered exactly *)
Theorem C74_product (c d : float) : let w := fmul prec emax p0 pe d c in
  fin w = true -> no_underflow d c ->
  let e := ffma prec emax p0 pe d c (fneg prec emax p0 pe w) in
  fin e = true /\ val w = RN prec emax (val d * val c) /\ val w + val e = val d * val c.
Proof.
intros w hw nu e; assert (ew : val w = RN prec emax (val d * val c)) by exact (fmul_val _ _ _ _ _ _ hw).
destruct (fmul_inv _ _ _ _ _ _ hw) as [hd hc].
assert (hn := fneg_fin w hw); assert (en := fneg_ok w hn).
assert (ee : RN prec emax (val d * val c + val (fneg prec emax p0 pe w)) = val d * val c - val w).
{ rewrite en; apply round_generic; auto with typeclass_instances.
  replace (val d * val c - val w) with (- (val w - val d * val c)) by ring; apply generic_format_opp; rewrite ew.
  apply mult_error_FLT; first [apply format_val | exact nu | auto with typeclass_instances]. }
assert (he : fin e = true).
{ apply ffma_fin; [assumption..|].
  change (Rabs (RN prec emax (val d * val c + val (fneg prec emax p0 pe w))) < bpow radix2 emax); rewrite ee.
  (* the error is at most the rounded product *)
  apply Rle_lt_trans with (Rabs (val w)); [|apply val_lt].
  rewrite Rabs_minus_sym, ew.
  destruct (Req_dec (val d * val c) 0) as [z|nz].
  - rewrite z; unfold RN; rewrite round_0, Rminus_0_r, Rabs_R0; auto with typeclass_instances; apply Rle_refl.
  - assert (l : bpow radix2 (3 - emax - prec + prec - 1) <= Rabs (val d * val c)).
    { apply Rle_trans with (2 := nu nz); apply bpow_le; lia. }
    apply Rle_trans with (1 := relative_error_N_FLT_round radix2 (3 - emax - prec) prec p0 (fun t => negb (Z.even t)) (val d * val c) l).
    fold (RN prec emax (val d * val c)); assert (0 <= Rabs (RN prec emax (val d * val c))) by apply Rabs_pos.
    assert (bpow radix2 (- prec + 1) <= 1) by (apply (bpow_le radix2 _ 0); lia); assert (p := bpow_gt_0 radix2 (- prec + 1)).
    change (round radix2 (FLT_exp (3 - emax - prec) prec) (Znearest (fun t => negb (Z.even t))) (val d * val c)) with (RN prec emax (val d * val c)); nra. }
split; [exact he|split; [exact ew|]].
rewrite (ffma_val _ _ _ _ _ _ _ he : val e = RN prec emax (val d * val c + val (fneg prec emax p0 pe w))), ee; ring.
Qed.

(* Kahan's algorithm: relative error at most two roundings, for every cancellation *)
Theorem C74_fmta (a b c d : float) : let r := ffmta prec emax p0 pe a b c d in
  fin r = true -> no_underflow a b -> no_underflow d c ->
  Rabs (val r - (val a * val b + val c * val d)) <= 2 * u prec * Rabs (val a * val b + val c * val d).
Proof.
intros r hr nab ndc; unfold r, ffmta in *.
set (w := fmul prec emax p0 pe d c) in *.
destruct (fadd_inv _ _ _ _ _ _ hr) as [hf he]; destruct (ffma_inv _ _ _ _ _ _ _ hf) as [ha [hb hw]].
destruct (C74_product c d hw ndc) as [_ [ew ee]]; fold w in ew, ee.
destruct (kahan_error (3 - emax - prec) prec p0 prec1 (val a) (val b) (val c) (val d) (format_val _ _ a) (format_val _ _ b) (format_val _ _ c) (format_val _ _ d) nab ndc) as [_ k].
rewrite (fadd_val _ _ _ _ _ _ hr), (ffma_val _ _ _ _ _ _ _ hf).
replace (val (ffma prec emax p0 pe d c (fneg prec emax p0 pe w))) with (val d * val c - val w) by lra.
rewrite ew; rewrite (Rmult_comm (val c)); exact k.
Qed.
(* hence a vanishing expression is computed as zero, and the sign is always correct *)
Theorem C74_zero (a b c d : float) : let r := ffmta prec emax p0 pe a b c d in
  fin r = true -> no_underflow a b -> no_underflow d c ->
  (val r = 0 <-> val a * val b + val c * val d = 0) /\ (0 < val r <-> 0 < val a * val b + val c * val d).
Proof.
intros r hr nab ndc; assert (h := C74_fmta a b c d hr nab ndc); fold r in h.
assert (ul : u prec <= / 4) by (unfold u; replace (/ 4) with (bpow radix2 (-2)) by (simpl; lra); apply bpow_le; lia).
assert (up : 0 < u prec) by apply bpow_gt_0.
set (x := val a * val b + val c * val d) in *.
assert (h' : Rabs (val r - x) <= / 2 * Rabs x) by (assert (0 <= Rabs x) by apply Rabs_pos; nra).
clear -h'; revert h'; unfold Rabs; destruct (Rcase_abs (val r - x)), (Rcase_abs x); intros; repeat split; lra.
Qed.

(* cross product in three dimensions: every component has a relative error of at most two roundings *)
Theorem C74_cross (ax ay az bx by_ bz : float) :
  let '(rx, ry, rz) := fcross prec emax p0 pe (ax, ay, az) (bx, by_, bz) in
  (fin rx = true -> no_underflow ay bz -> no_underflow az by_ ->
    Rabs (val rx - (val ay * val bz - val az * val by_)) <= 2 * u prec * Rabs (val ay * val bz - val az * val by_)) /\
  (fin ry = true -> no_underflow az bx -> no_underflow ax bz ->
    Rabs (val ry - (val az * val bx - val ax * val bz)) <= 2 * u prec * Rabs (val az * val bx - val ax * val bz)) /\
  (fin rz = true -> no_underflow ax by_ -> no_underflow ay bx ->
    Rabs (val rz - (val ax * val by_ - val ay * val bx)) <= 2 * u prec * Rabs (val ax * val by_ - val ay * val bx)).
Proof.
assert (K : forall a b c d : float, fin (ffmta prec emax p0 pe a b (fneg prec emax p0 pe c) d) = true -> no_underflow a b -> no_underflow c d ->
  Rabs (val (ffmta prec emax p0 pe a b (fneg prec emax p0 pe c) d) - (val a * val b - val c * val d)) <= 2 * u prec * Rabs (val a * val b - val c * val d)).
{ intros a b c d hr nab ncd.
  assert (hc : fin (fneg prec emax p0 pe c) = true).
  { unfold ffmta in hr; destruct (fadd_inv _ _ _ _ _ _ hr) as [_ he]; apply (ffma_inv _ _ _ _ _ _ _ he). }
  assert (en := fneg_ok c hc).
  assert (ndc : no_underflow d (fneg prec emax p0 pe c)).
  { unfold no_underflow in *; rewrite en; replace (val d * - val c) with (- (val c * val d)) by ring; rewrite Rabs_Ropp; intro nz; apply ncd; lra. }
  assert (h := C74_fmta a b _ d hr nab ndc); rewrite en in h; replace (val a * val b - val c * val d) with (val a * val b + - val c * val d) by ring; exact h. }
simpl; repeat split; intros; apply K; assumption.
Qed.
(* the cross product of a vector with itself vanishes *)
Theorem C74_self (ax ay az : float) : let '(rx, ry, rz) := fcross prec emax p0 pe (ax, ay, az) (ax, ay, az) in
  fin rx = true -> fin ry = true -> fin rz = true -> no_underflow ay az -> no_underflow az ax -> no_underflow ax ay ->
  val rx = 0 /\ val ry = 0 /\ val rz = 0.
Proof.
assert (sy : forall a b, no_underflow a b -> no_underflow b a) by (intros a b; unfold no_underflow; rewrite Rmult_comm; tauto).
assert (Z : forall x a b : R, Rabs (x - (a * b - b * a)) <= 2 * u prec * Rabs (a * b - b * a) -> x = 0).
{ intros x a b; replace (a * b - b * a) with 0 by ring; rewrite Rminus_0_r, Rabs_R0, Rmult_0_r; intro h.
  assert (e : Rabs x = 0) by (apply Rle_antisym; [exact h|apply Rabs_pos]); destruct (Req_dec x 0) as [z|nz]; [exact z|]; destruct (Rabs_no_R0 x nz e). }
generalize (C74_cross ax ay az ax ay az); destruct (fcross _ _ _ _ _ _) as [[rx ry] rz]; intros [h1 [h2 h3]] fx fy fz n1 n2 n3.
repeat split; [exact (Z _ _ _ (h1 fx n1 (sy _ _ n1)))|exact (Z _ _ _ (h2 fy n2 (sy _ _ n2)))|exact (Z _ _ _ (h3 fz n3 (sy _ _ n3)))].
Qed.
End C74.
Print Assumptions C74_product.
Print Assumptions C74_fmta.
Print Assumptions C74_zero.
Print Assumptions C74_cross.
Print Assumptions C74_self.


(** * Concrete cases in double precision *)
Notation dadd := (fadd 53 1024 eq_refl eq_refl).
(* the double nearest to m 2^e *)
Definition dbl (m e : Z) : binary_float 53 1024 := binary_normalize 53 1024 eq_refl eq_refl mode_NE m e false.
Lemma val_dbl (x : binary_float 53 1024) (m e : Z) : B2SF x = B2SF (dbl m e) -> SF2R radix2 (B2SF (dbl m e)) = IZR m * bpow radix2 e -> B2R x = IZR m * bpow radix2 e.
Proof. intros h1 h2; rewrite <- (SF2R_B2SF 53 1024 x), h1; exact h2. Qed.
Ltac dval := rewrite <- SF2R_B2SF; match goal with |- context [B2SF ?x] => let y := eval vm_compute in (B2SF x) in change (B2SF x) with y end; simpl; unfold F2R; simpl.

(* Fast2Sum with the smaller number first loses the error: 2^-60 + 1 *)
Theorem C73_order_refuted : exists a b : binary_float 53 1024, let '(s, c) := fast2sum 53 1024 eq_refl eq_refl a b in
  is_finite s = true /\ is_finite c = true /\ B2R s + B2R c <> B2R a + B2R b.
Proof.
exists (dbl 1 (-60)), (dbl 1 0); unfold fast2sum; cbv beta iota zeta; split; [vm_compute; reflexivity|split; [vm_compute; reflexivity|]].
assert (e1 : B2R (dadd (dbl 1 (-60)) (dbl 1 0)) = 1) by (dval; lra).
assert (e2 : B2R (fsub 53 1024 eq_refl eq_refl (dbl 1 0) (fsub 53 1024 eq_refl eq_refl (dadd (dbl 1 (-60)) (dbl 1 0)) (dbl 1 (-60)))) = 0) by (dval; lra).
assert (e3 : 0 < B2R (dbl 1 (-60))) by (dval; lra).
assert (e4 : B2R (dbl 1 0) = 1) by (dval; lra).
rewrite e1, e2, e4; lra.
Qed.
Print Assumptions C73_order_refuted.
(* The precondition is not met by every call in SumCompensated: the sum may have become smaller than the compensation. Here
   the loop has computed the exact sum 1 + 2^-60 as sum 2^-60 and compensation 1, and the last Fast2Sum returns (1, 0). *)
Theorem C73_sum_refuted : exists v : list (binary_float 53 1024), let '(s, c) := sum_compensated 53 1024 eq_refl eq_refl v in
  let '(t, d) := fold_left (sum_step 53 1024 eq_refl eq_refl) v (fzero 53 1024, fzero 53 1024) in
  B2R t + B2R d = Rsum (map (@B2R 53 1024) v) /\ is_finite s = true /\ is_finite c = true /\ B2R s + B2R c < Rsum (map (@B2R 53 1024) v).
Proof.
exists [dbl 1 60; dbl 1 0; dbl (-1) 60; dbl 1 (-60)]; unfold sum_compensated.
destruct (fold_left _ _ _) as [t d] eqn:E; unfold fast2sum; cbv zeta.
assert (et : B2SF t = B2SF (dbl 1 (-60))) by (change t with (fst (t, d)); rewrite <- E; vm_compute; reflexivity).
assert (ed : B2SF d = B2SF (dbl 1 0)) by (change d with (snd (t, d)); rewrite <- E; vm_compute; reflexivity).
assert (inj : forall x y : binary_float 53 1024, B2SF x = B2SF y -> x = y).
{ intros x y h; apply B2SF_inj; exact h. }
apply inj in et; apply inj in ed; subst t d; clear E.
assert (v1 : B2R (dbl 1 60) = IZR (2 ^ 60)) by (dval; lra).
assert (v2 : B2R (dbl 1 0) = 1) by (dval; lra).
assert (v3 : B2R (dbl (-1) 60) = - IZR (2 ^ 60)) by (dval; lra).
assert (v4 : 0 < B2R (dbl 1 (-60))) by (dval; lra).
assert (e1 : B2R (dadd (dbl 1 (-60)) (dbl 1 0)) = 1) by (dval; lra).
assert (e2 : B2R (fsub 53 1024 eq_refl eq_refl (dbl 1 0) (fsub 53 1024 eq_refl eq_refl (dadd (dbl 1 (-60)) (dbl 1 0)) (dbl 1 (-60)))) = 0) by (dval; lra).
unfold Rsum; cbn [map fold_right]; rewrite v1, v2, v3, e1, e2.
split; [lra|split; [vm_compute; reflexivity|split; [vm_compute; reflexivity|lra]]].
Qed.
Print Assumptions C73_sum_refuted.
(* Complex elements: the branch is chosen by the moduli, so that the error of the smaller part is lost. The exact sum of
   1 + 2^70 i, 2^60, -2^60 is 1 + 2^70 i; the result is 2^70 i with compensation 0. Every correct comparison of the moduli is allowed. *)
Theorem C73_complex_refuted (abs_gt : binary_float 53 1024 * binary_float 53 1024 -> binary_float 53 1024 * binary_float 53 1024 -> bool) :
  (forall x y, B2R (fst y) ^ 2 + B2R (snd y) ^ 2 < (B2R (fst x) ^ 2 + B2R (snd x) ^ 2) / 2 -> abs_gt x y = true) ->
  exists v : list (binary_float 53 1024 * binary_float 53 1024),
  let '(s, c) := csum_compensated 53 1024 eq_refl eq_refl abs_gt v in
  Rsum (map (fun z => B2R (fst z)) v) = 1 /\ B2R (fst s) = 0 /\ B2R (fst c) = 0.
Proof.
intro h; set (z1 := (dbl 1 0, dbl 1 70)); set (z2 := (dbl 1 60, dbl 0 0)); set (z3 := (dbl (-1) 60, dbl 0 0)).
set (o := fzero 53 1024).
exists [z1; z2; z3].
assert (v0 : B2R (dbl 0 0) = 0) by (dval; lra).
assert (v1 : B2R (dbl 1 0) = 1) by (dval; lra).
assert (v2 : B2R (dbl 1 60) = IZR (2 ^ 60)) by (dval; lra).
assert (v3 : B2R (dbl (-1) 60) = - IZR (2 ^ 60)) by (dval; lra).
assert (v4 : B2R (dbl 1 70) = IZR (2 ^ 70)) by (dval; lra).
assert (eqp : forall x y : binary_float 53 1024 * binary_float 53 1024, B2SF (fst x) = B2SF (fst y) -> B2SF (snd x) = B2SF (snd y) -> x = y).
{ intros [x1 x2] [y1 y2] h1 h2; f_equal; apply B2SF_inj; assumption. }
assert (s1 : csum_step 53 1024 eq_refl eq_refl abs_gt ((o, o), (o, o)) z1 = (z1, (o, o))).
{ unfold csum_step; cbv zeta; apply (f_equal2 pair); [|destruct (abs_gt _ _)]; apply eqp; vm_compute; reflexivity. }
assert (s2 : csum_step 53 1024 eq_refl eq_refl abs_gt (z1, (o, o)) z2 = ((dbl 1 60, dbl 1 70), (o, o))).
{ unfold csum_step; cbv zeta; rewrite h; [apply (f_equal2 pair); apply eqp; vm_compute; reflexivity|].
  unfold z1, z2; cbn [fst snd]; rewrite v0, v1, v2, v4; simpl; lra. }
assert (s3 : csum_step 53 1024 eq_refl eq_refl abs_gt ((dbl 1 60, dbl 1 70), (o, o)) z3 = ((o, dbl 1 70), (o, o))).
{ unfold csum_step; cbv zeta; rewrite h; [apply (f_equal2 pair); apply eqp; vm_compute; reflexivity|].
  unfold z3; cbn [fst snd]; rewrite v0, v2, v3, v4; simpl; lra. }
unfold csum_compensated; cbn [fold_left]; fold o; rewrite s1, s2, s3.
unfold cfast2sum; cbv beta iota zeta; cbn [fst snd].
split; [|split].
- unfold Rsum, z1, z2, z3; cbn [map fold_right fst snd]; rewrite v1, v2, v3; lra.
- dval; reflexivity.
- unfold csub; cbn [fst snd]; dval; reflexivity.
Qed.
Print Assumptions C73_complex_refuted.

(* the hypotheses of C73 and C74 are met *)
Example C73_example : let '(s, c) := fast2sum 53 1024 eq_refl eq_refl (dbl 1 0) (dbl 1 (-60)) in
  is_finite s = true /\ B2R s = 1 /\ B2R c = / IZR (2 ^ 60).
Proof. unfold fast2sum; cbv beta iota zeta; split; [vm_compute; reflexivity|split; dval; lra]. Qed.
(* 2^60 + 1 - 2^60 = 1: recursive summation gives 0 *)
Example C73_sum_example : let v := [dbl 1 60; dbl 1 0; dbl (-1) 60] in
  B2R (fst (sum_compensated 53 1024 eq_refl eq_refl v)) = 1 /\ B2R (fold_left dadd v (fzero 53 1024)) = 0.
Proof. cbv zeta; split; dval; lra. Qed.
(* (2^27 + 1)(2^27 - 1) - 2^27 2^27 = -1: the products rounded separately give 0 *)
Example C74_example : B2R (ffmta 53 1024 eq_refl eq_refl (dbl 134217729 0) (dbl 134217727 0) (dbl (-134217728) 0) (dbl 134217728 0)) = -1 /\
  B2R (dadd (fmul 53 1024 eq_refl eq_refl (dbl 134217729 0) (dbl 134217727 0)) (fmul 53 1024 eq_refl eq_refl (dbl (-134217728) 0) (dbl 134217728 0))) = 0 /\
  no_underflow 53 1024 (dbl 134217729 0) (dbl 134217727 0).
Proof.
split; [dval; lra|split; [dval; lra|]]; intros _.
assert (v1 : B2R (dbl 134217729 0) = 134217729) by (dval; lra); assert (v2 : B2R (dbl 134217727 0) = 134217727) by (dval; lra).
rewrite v1, v2, Rabs_pos_eq by lra; apply Rle_trans with (bpow radix2 0); [apply bpow_le; lia|simpl; lra].
Qed.
(* without the condition on underflow the error is unbounded: 2^-600 2^-600 *)
Theorem C74_underflow_refuted : exists a b c d : binary_float 53 1024, let r := ffmta 53 1024 eq_refl eq_refl a b c d in
  is_finite r = true /\ B2R r = 0 /\ B2R a * B2R b + B2R c * B2R d <> 0.
Proof.
exists (dbl 1 (-600)), (dbl 1 (-600)), (dbl 0 0), (dbl 0 0); cbv zeta; split; [vm_compute; reflexivity|split; [dval; reflexivity|]].
assert (v0 : B2R (dbl 0 0) = 0) by (dval; reflexivity).
assert (v1 : 0 < B2R (dbl 1 (-600))) by (dval; apply Rmult_lt_0_compat; [lra|apply Rinv_0_lt_compat, IZR_lt; lia]).
rewrite v0; nra.
Qed.
Print Assumptions C74_underflow_refuted.
