(* Interval arithmetic with integers, sound in every real closed field: used to follow a run of the one-sided Jacobi
   iteration whose rotations are irrational. Nothing here models the library. *)
From Coq Require Import ZArith Lia.
From mathcomp Require Import all_ssreflect all_algebra.
From mathcomp Require Import ring.
Set Implicit Arguments. Unset Strict Implicit. Unset Printing Implicit Defensive.
Import Order.Theory GRing.Theory Num.Theory.
Local Open Scope ring_scope.
Delimit Scope Z_scope with BZ.

Section ZR.
Variable R : rcfType.

Definition zi (z : Z) : int :=
  match z with Z0 => 0 | Zpos p => Posz (Pos.to_nat p) | Zneg p => - Posz (Pos.to_nat p) end.
Definition zr (z : Z) : R := (zi z)%:~R.

Lemma zi_of_nat n : zi (Z.of_nat n) = Posz n.
Proof. by case: n => [|n] //=; rewrite SuccNat2Pos.id_succ. Qed.
Lemma zi_opp (z : Z) : zi (- z)%BZ = - zi z.
Proof. by case: z => [|p|p] //=; rewrite ?oppr0 ?opprK. Qed.
Lemma zi_nat (z : Z) : exists n, (z = Z.of_nat n \/ z = - Z.of_nat n)%BZ.
Proof. by exists (Z.to_nat (Z.abs z)); lia. Qed.
Lemma zi_sub n m : zi (Z.of_nat n - Z.of_nat m)%BZ = Posz n - Posz m.
Proof.
case: (leqP m n) => h.
  have -> : (Z.of_nat n - Z.of_nat m)%BZ = Z.of_nat (n - m) by rewrite Nat2Z.inj_sub //; apply/ssrnat.leP.
  by rewrite zi_of_nat subzn.
have -> : (Z.of_nat n - Z.of_nat m)%BZ = (- Z.of_nat (m - n))%BZ by rewrite Nat2Z.inj_sub; [lia|apply/ssrnat.leP; exact: ltnW].
by rewrite zi_opp zi_of_nat -subzn ?opprB // ltnW.
Qed.
Lemma zi_add (x y : Z) : zi (x + y)%BZ = zi x + zi y.
Proof.
have [n hx] := zi_nat x; have [m hy] := zi_nat y; case: hx => ->; case: hy => ->.
- by rewrite -Nat2Z.inj_add !zi_of_nat.
- by rewrite Z.add_opp_r zi_sub zi_opp !zi_of_nat.
- by rewrite Z.add_comm Z.add_opp_r zi_sub zi_opp !zi_of_nat addrC.
- by rewrite -Z.opp_add_distr -Nat2Z.inj_add !zi_opp !zi_of_nat PoszD opprD.
Qed.
Lemma zi_mul (x y : Z) : zi (x * y)%BZ = zi x * zi y.
Proof.
have [n hx] := zi_nat x; have [m hy] := zi_nat y; case: hx => ->; case: hy => ->;
by rewrite ?Z.mul_opp_r ?Z.mul_opp_l ?Z.opp_involutive -?Nat2Z.inj_mul ?zi_opp !zi_of_nat PoszM ?mulrN ?mulNr ?opprK.
Qed.
Lemma zi_ge0 (x : Z) : (0 <= x)%BZ -> 0 <= zi x.
Proof. by case: x => [|p|p] // h; lia. Qed.

Lemma zrD (x y : Z) : zr (x + y)%BZ = zr x + zr y. Proof. by rewrite /zr zi_add intrD. Qed.
Lemma zrM (x y : Z) : zr (x * y)%BZ = zr x * zr y. Proof. by rewrite /zr zi_mul intrM. Qed.
Lemma zrN (x : Z) : zr (- x)%BZ = - zr x. Proof. by rewrite /zr zi_opp mulrNz. Qed.
Lemma zrB (x y : Z) : zr (x - y)%BZ = zr x - zr y. Proof. by rewrite /Z.sub zrD zrN. Qed.
Lemma zr0 : zr 0 = 0. Proof. by []. Qed.
Lemma zr1 : zr 1 = 1. Proof. by []. Qed.
Lemma zr_le (x y : Z) : (x <= y)%BZ -> zr x <= zr y.
Proof. by move=> h; rewrite -subr_ge0 -zrB /zr ler0z; apply: zi_ge0; lia. Qed.
Lemma zr_lt (x y : Z) : (x < y)%BZ -> zr x < zr y.
Proof.
move=> h; apply: (@lt_le_trans _ _ (zr (x + 1)%BZ)); last by apply: zr_le; lia.
by rewrite zrD zr1 ltr_addl ltr01.
Qed.

(* the unit *)
Variable S : Z.
Hypothesis S_pos : (0 < S)%BZ.
Lemma S0 : 0 < zr S. Proof. by rewrite -zr0; apply: zr_lt. Qed.

Definition iv := (Z * Z)%type.
Definition inI (x : R) (i : iv) : Prop := zr i.1 <= x * zr S /\ x * zr S <= zr i.2.

Definition iadd (a b : iv) : iv := (a.1 + b.1, a.2 + b.2)%BZ.
Definition iopp (a : iv) : iv := (- a.2, - a.1)%BZ.
Definition imul (a b : iv) : iv :=
  let p := (a.1 * b.1)%BZ in let q := (a.1 * b.2)%BZ in let r := (a.2 * b.1)%BZ in let s := (a.2 * b.2)%BZ in
  (Z.min (Z.min p q) (Z.min r s) / S, Z.max (Z.max p q) (Z.max r s) / S + 1)%BZ.
(* of positive numbers *)
Definition idiv (a b : iv) : iv :=
  (Z.min (a.1 * S / b.1) (a.1 * S / b.2), Z.max (a.2 * S / b.1) (a.2 * S / b.2) + 1)%BZ.
Definition isqrt (a : iv) : iv := (Z.sqrt (a.1 * S), Z.sqrt (a.2 * S) + 1)%BZ.
Definition iabs (a : iv) : iv := if (0 <=? a.1)%BZ then a else if (a.2 <=? 0)%BZ then iopp a else (0%BZ, Z.max (- a.1) a.2).
Definition imax (a b : iv) : iv := (Z.max a.1 b.1, Z.max a.2 b.2).

Lemma iaddP x y a b : inI x a -> inI y b -> inI (x + y) (iadd a b).
Proof. by move=> [h1 h2] [h3 h4]; split; rewrite /= zrD mulrDl ler_add. Qed.
Lemma ioppP x a : inI x a -> inI (- x) (iopp a).
Proof. by move=> [h1 h2]; split; rewrite /= zrN mulNr ler_opp2. Qed.

Lemma zr_floor (m d : Z) : (0 < d)%BZ -> zr (m / d)%BZ * zr d <= zr m.
Proof. by move=> h; rewrite -zrM; apply: zr_le; have := Z.mul_div_le m d h; lia. Qed.
Lemma zr_ceil (m d : Z) : (0 < d)%BZ -> zr m <= zr (m / d + 1)%BZ * zr d.
Proof. by move=> h; rewrite -zrM; apply: zr_le; have := Z.mul_succ_div_gt m d h; lia. Qed.

(* a product lies between the smallest and the largest product of end points *)
Lemma mul_lo (x y a b c d m : R) : a <= x -> x <= b -> c <= y -> y <= d ->
  m <= a * c -> m <= a * d -> m <= b * c -> m <= b * d -> m <= x * y.
Proof.
move=> h1 h2 h3 h4 m1 m2 m3 m4.
have : m <= a * y \/ m <= b * y.
  by left; case: (ler0P a) => ha; [apply: le_trans m2 _; rewrite ler_wnmul2l|apply: le_trans m1 _; rewrite ler_wpmul2l // ltW].
have ha : m <= a * y by case: (ler0P a) => ha; [apply: le_trans m2 _; rewrite ler_wnmul2l|apply: le_trans m1 _; rewrite ler_wpmul2l // ltW].
have hb : m <= b * y by case: (ler0P b) => hb; [apply: le_trans m4 _; rewrite ler_wnmul2l|apply: le_trans m3 _; rewrite ler_wpmul2l // ltW].
by move=> _; case: (ler0P y) => hy; [apply: le_trans hb _; rewrite ler_wnmul2r|apply: le_trans ha _; rewrite ler_wpmul2r // ltW].
Qed.
Lemma mul_hi (x y a b c d m : R) : a <= x -> x <= b -> c <= y -> y <= d ->
  a * c <= m -> a * d <= m -> b * c <= m -> b * d <= m -> x * y <= m.
Proof.
move=> h1 h2 h3 h4 m1 m2 m3 m4; rewrite -ler_opp2 -mulNr.
by apply: (@mul_lo _ _ (- b) (- a) c d); rewrite ?ler_opp2 // mulNr ler_opp2.
Qed.

Lemma imulP x y a b : inI x a -> inI y b -> inI (x * y) (imul a b).
Proof.
case: a => a b'; case: b => c d [/= h1 h2] [/= h3 h4]; split; rewrite /imul /=.
- set m := Z.min _ _; rewrite -(ler_pmul2r S0); apply: le_trans (zr_floor m S_pos) _.
  have -> : x * y * zr S * zr S = (x * zr S) * (y * zr S) by ring.
  apply: (mul_lo h1 h2 h3 h4); rewrite -zrM; apply: zr_le; rewrite /m; lia.
- set m := Z.max _ _; rewrite -(ler_pmul2r S0); apply: le_trans (zr_ceil m S_pos).
  have -> : x * y * zr S * zr S = (x * zr S) * (y * zr S) by ring.
  apply: (mul_hi h1 h2 h3 h4); rewrite -zrM; apply: zr_le; rewrite /m; lia.
Qed.

Lemma idivP x y a b : (0 < b.1)%BZ -> inI (x * y) a -> inI y b -> inI x (idiv a b).
Proof.
case: a => a b'; case: b => c d /= c0 [/= h1 h2] [/= h3 h4].
have cd : (c <= d)%BZ.
  case: (Z.le_gt_cases c d) => // /zr_lt; by rewrite ltNge (le_trans h3 h4).
have d0 : (0 < d)%BZ by lia.
have zc : 0 < zr c by rewrite -zr0; apply: zr_lt.
have yS : 0 < y * zr S := lt_le_trans zc h3.
have k1 : zr (a * S)%BZ <= (x * zr S) * (y * zr S) by rewrite zrM mulrACA mulrA ler_pmul2r ?S0.
have k2 : (x * zr S) * (y * zr S) <= zr (b' * S)%BZ by rewrite zrM mulrACA mulrA ler_pmul2r ?S0.
split; rewrite /idiv /=.
- rewrite -(ler_pmul2r yS); apply: le_trans k1; set m := Z.min _ _.
  case: (Z.le_gt_cases 0 a) => ha.
    have m0 : (0 <= m)%BZ by rewrite /m; apply: Z.min_glb; apply: Z.div_pos; nia.
    apply: (@le_trans _ _ (zr m * zr d)); first by apply: ler_wpmul2l => //; rewrite -zr0; apply: zr_le.
    apply: le_trans (zr_floor _ d0); apply: ler_wpmul2r; first by rewrite -zr0; apply: zr_le; lia.
    by apply: zr_le; rewrite /m; lia.
  have m0 : (m <= 0)%BZ by rewrite /m; have := Z.div_le_upper_bound (a * S) c 0 c0; nia.
  apply: (@le_trans _ _ (zr m * zr c)); first by apply: ler_wnmul2l => //; rewrite -zr0; apply: zr_le.
  apply: le_trans (zr_floor _ c0); apply: ler_wpmul2r; first exact: ltW.
  by apply: zr_le; rewrite /m; lia.
- rewrite -(ler_pmul2r yS); apply: (le_trans k2); set m := Z.max _ _.
  case: (Z.le_gt_cases 0 b') => hb.
    have m0 : (0 <= m + 1)%BZ by rewrite /m; have := Z.div_pos (b' * S) c; nia.
    apply: (@le_trans _ _ (zr (m + 1)%BZ * zr c)); last by apply: ler_wpmul2l => //; rewrite -zr0; apply: zr_le.
    apply: (le_trans (zr_ceil _ c0)); apply: ler_wpmul2r; first exact: ltW.
    by apply: zr_le; rewrite /m; lia.
  have m0 : (m + 1 <= 0)%BZ.
    have h := Z.div_lt_upper_bound (b' * S) c 0 c0; have h' := Z.div_lt_upper_bound (b' * S) d 0 d0.
    by rewrite /m; move: h h'; nia.
  apply: (@le_trans _ _ (zr (m + 1)%BZ * zr d)); last by apply: ler_wnmul2l => //; rewrite -zr0; apply: zr_le.
  apply: (le_trans (zr_ceil _ d0)); apply: ler_wpmul2r; first by rewrite -zr0; apply: zr_le; lia.
  by apply: zr_le; rewrite /m; lia.
Qed.

Lemma isqrtP x a : (0 <= a.1)%BZ -> 0 <= x -> inI (x * x) a -> inI x (isqrt a).
Proof.
case: a => a b /= a0 x0 [/= h1 h2].
have xS : 0 <= x * zr S by rewrite mulr_ge0 // ltW // S0.
have b0 : (0 <= b)%BZ by case: (Z.le_gt_cases 0 b) => // /zr_lt; rewrite zr0 ltNge (le_trans _ h2) // (le_trans _ h1) // -zr0; apply: zr_le.
have e : (x * zr S) ^+ 2 = x * x * zr S * zr S by ring.
split; rewrite /isqrt /=.
- rewrite -(@ler_pexpn2r _ 2) ?nnegrE // ?e; last by rewrite -zr0; apply: zr_le; apply: Z.sqrt_nonneg.
  rewrite expr2 -zrM; apply: (@le_trans _ _ (zr (a * S)%BZ)); last by rewrite zrM ler_pmul2r ?S0.
  apply: zr_le; have := Z.sqrt_spec (a * S); nia.
- rewrite -(@ler_pexpn2r _ 2) ?nnegrE // ?e; last by rewrite -zr0; apply: zr_le; have := Z.sqrt_nonneg (b * S); lia.
  rewrite expr2 -zrM; apply: (@le_trans _ _ (zr (b * S)%BZ)); first by rewrite zrM ler_pmul2r ?S0.
  apply: zr_le; have := Z.sqrt_spec (b * S); nia.
Qed.

Lemma iabsP x a : inI x a -> inI `|x| (iabs a).
Proof.
case: a => a b [/= h1 h2]; rewrite /iabs /=; have nS : `|x| * zr S = `|x * zr S| by rewrite normrM (gtr0_norm S0).
case: Z.leb_spec => ha.
  by split; rewrite nS ger0_norm //= (le_trans _ h1) // -zr0; apply: zr_le.
case: Z.leb_spec => hb.
  have x0 : x * zr S <= 0 by rewrite (le_trans h2) // -zr0; apply: zr_le.
  by split; rewrite nS ler0_norm //= zrN ler_opp2.
split; rewrite nS /=; first by rewrite zr0 normr_ge0.
rewrite ler_norml; apply/andP; split; last by apply: (le_trans h2); apply: zr_le; lia.
by rewrite ler_oppl (le_trans _ (zr_le (Z.le_max_l _ _))) // zrN ler_opp2.
Qed.
Lemma imaxP x y a b : inI x a -> inI y b -> inI (if x < y then y else x) (imax a b).
Proof.
move=> [h1 h2] [h3 h4]; case: ltP => h; split; rewrite /imax /=.
- case: (Z.max_spec a.1 b.1) => -[_ ->] //; apply: (le_trans h1); rewrite ler_pmul2r ?S0 // ltW //.
- by apply: (le_trans h4); apply: zr_le; lia.
- by case: (Z.max_spec a.1 b.1) => -[_ ->] //; apply: (le_trans h3); rewrite ler_pmul2r ?S0.
- by apply: (le_trans h2); apply: zr_le; lia.
Qed.
Lemma iconst (n d : Z) : (0 < d)%BZ -> inI (zr n / zr d) (n * S / d, n * S / d + 1)%BZ.
Proof.
move=> d0; have zd : 0 < zr d by rewrite -zr0; apply: zr_lt.
have e : zr n / zr d * zr S * zr d = zr (n * S)%BZ by rewrite mulrAC divfK ?gt_eqF // zrM.
by split; rewrite /= -(ler_pmul2r zd) e; [exact: zr_floor|exact: zr_ceil].
Qed.
End ZR.
