(* C106: the depth of perspective projections in floating point. *)
From Coq Require Import ZArith List Arith Bool Reals Lia Lra Psatz.
From Flocq Require Import Core IEEE754.BinarySingleNaN.
From Interval Require Import Tactic.
From Verif Require Import M_Float P_Float P_FloatD M_FloatN P_FloatN M_FloatLU P_FloatLU P_FloatTri M_FloatTriangle M_FloatQ M_FloatQM M_FloatOrtho Props_Float Props_FloatS Props_FloatDet Props_FloatGeo Props_FloatTriangle Props_FloatQ Props_FloatQM Props_FloatOrtho.
Local Open Scope R_scope.

Section FloatPersp.
Variables prec emax : Z.
Context (p0 : Prec_gt_0 prec) (pe : Prec_lt_emax prec emax).
Hypothesis prec5 : (5 <= prec)%Z.
Notation float := (binary_float prec emax).
Notation val := (@B2R prec emax).
Notation fin := (@is_finite prec emax).
Notation u := (u prec).
Notation eta := (eta prec emax).
Notation fsub := (fsub prec emax p0 pe).
Notation fmul := (fmul prec emax p0 pe).
Notation fdiv := (fdiv prec emax p0 pe).
Notation gam := (gam prec).
Notation RN := (round radix2 (FLT_exp (SpecFloat.emin prec emax) prec) ZnearestE).
Notation qu := (qu prec prec5).
Notation qe := (qe prec emax pe prec5).
(* division by a difference *)
Lemma quotient k E A X (d x y : float) : 0 <= A -> Rabs X <= A -> 0 <= E -> Rabs (val d - X) <= gam k * A + E -> fin (fsub x y) = true -> fin (fdiv d (fsub x y)) = true ->
  val x - val y <> 0 /\ fin d = true /\ Rabs (val (fdiv d (fsub x y)) - X / (val x - val y)) <= (gam (k + 2) * A + (1 + u) ^ 2 * E) / Rabs (val x - val y) + / 2 * eta.
Proof.
intros A0 XA E0 hd fv f; destruct (fdiv_inv prec emax p0 pe _ _ f fv) as [fd [nz e]]; rewrite e; rewrite (fsub_val _ _ _ _ _ _ fv) in *.
assert (h := add_err (SpecFloat.emin prec emax) prec p0 _ _ (format_val prec emax x) (generic_format_opp _ _ _ (format_val prec emax y))); change (bpow radix2 (- prec)) with u in h.
change (val x + - val y) with (val x - val y) in h; change (SpecFloat.fexp prec emax) with (FLT_exp (SpecFloat.emin prec emax) prec) in *.
set (W := val x - val y) in *; set (w := RN W) in *; destruct qu as [u0 u1], qe as [h0 h1]; assert (g := gam0 prec p0 k).
assert (W0 : W <> 0) by (intro z; apply nz; unfold w; rewrite z; apply round_0; auto with typeclass_instances).
split; [exact W0|split; [exact fd|]].
assert (aW : 0 < Rabs W) by (apply Rabs_pos_lt, W0); assert (aw : 0 < Rabs w) by (apply Rabs_pos_lt, nz).
assert (q : Rabs (w - W) <= u * Rabs w).
{ assert (t : Rabs W - Rabs w <= Rabs (w - W)) by (rewrite Rabs_minus_sym; apply Rabs_triang_inv).
  apply Rmult_le_compat_l with (r := 1 + u) in h; [|lra]; replace ((1 + u) * (u / (1 + u) * Rabs W)) with (u * Rabs W) in h by (field; lra); nra. }
set (v := val d) in *; assert (V : Rabs v <= (1 + gam k) * A + E) by (replace v with ((v - X) + X) by ring; apply Rle_trans with (1 := Rabs_triang _ _); lra).
set (B := (1 + gam k) * A + E) in *; assert (iW : 0 < / Rabs W) by (apply Rinv_0_lt_compat, aW).
assert (D : Rabs (v / w - v / W) <= u * (Rabs v / Rabs W)).
{ replace (v / w - v / W) with (- ((w - W) * / w * (v * / W))) by (field; split; assumption); rewrite Rabs_Ropp, !Rabs_mult, !Rabs_inv; apply Rmult_le_compat_r; [apply Rmult_le_pos; [apply Rabs_pos|lra]|].
  apply Rmult_le_reg_r with (Rabs w); [exact aw|]; rewrite Rmult_assoc, Rinv_l by lra; lra. }
assert (VW : Rabs v / Rabs W <= B / Rabs W) by (apply Rmult_le_compat_r; lra).
assert (D2 : Rabs (v / W - X / W) <= (gam k * A + E) / Rabs W).
{ replace (v / W - X / W) with ((v - X) * / W) by (field; exact W0); rewrite Rabs_mult, Rabs_inv; apply Rmult_le_compat_r; lra. }
assert (eW : Rabs (v / W) = Rabs v / Rabs W) by (unfold Rdiv; rewrite Rabs_mult, Rabs_inv; reflexivity).
assert (m : Rabs (v / w) <= (1 + u) * (B / Rabs W)).
{ replace (v / w) with ((v / w - v / W) + v / W) by ring; apply Rle_trans with (1 := Rabs_triang _ _); rewrite eW; assert (u * (Rabs v / Rabs W) <= u * (B / Rabs W)) by (apply Rmult_le_compat_l; lra); lra. }
assert (r := RN_error prec emax p0 (v / w)).
replace (RN (v / w) - X / W) with ((RN (v / w) - v / w) + ((v / w - v / W) + (v / W - X / W))) by ring.
assert (t1 := Rabs_triang (RN (v / w) - v / w) ((v / w - v / W) + (v / W - X / W))); assert (t2 := Rabs_triang (v / w - v / W) (v / W - X / W)).
assert (j1 : u * Rabs (v / w) <= u * ((1 + u) * (B / Rabs W))) by (apply Rmult_le_compat_l; lra).
assert (j2 : u * (Rabs v / Rabs W) <= u * (B / Rabs W)) by (apply Rmult_le_compat_l; lra).
replace (k + 2)%nat with (S (S k)) by lia; rewrite !gamS; unfold B, Rdiv in *; lra.
Qed.
Lemma sign_C (N : float) : fin N = true -> exists z, sgn prec emax p0 pe (fpersp_C prec emax p0 pe N) z /\ z = if Rlt_dec (val N) 0 then -1 else 1.
Proof.
intro f; unfold fpersp_C; assert (h := flt_val prec emax N (fzero prec emax) f eq_refl); change (val (fzero prec emax)) with 0 in h.
destruct (flt prec emax N (fzero prec emax)) eqn:E; destruct (Rlt_dec (val N) 0) as [l|l]; eexists; (split; [|reflexivity]).
- right; split; reflexivity.
- exfalso; apply l, h; reflexivity.
- exfalso; assert (k := proj2 h l); discriminate.
- left; split; reflexivity.
Qed.
Variables (N F n f : float).
Notation A := (fpersp_A prec emax p0 pe N F n f).
Notation B := (fpersp_B prec emax p0 pe N F n f).
Notation C := (fpersp_C prec emax p0 pe N).
Notation vN := (val N).
Notation vF := (val F).
Notation vn := (val n).
Notation vf := (val f).
(* the side of the view *)
Definition side (N : R) : R := if Rlt_dec N 0 then -1 else 1.
Lemma side_abs x : Rabs (side x) = 1.
Proof. unfold side; destruct (Rlt_dec x 0); [rewrite Rabs_left|rewrite Rabs_right]; lra. Qed.
Definition a_err : R := (gam 4 * (Rabs (vf * vF) + Rabs (vn * vN)) + (1 + u) ^ 3 * eta) / Rabs (vF - vN) + / 2 * eta.
Definition b_err : R := (gam 5 * Rabs (vF * vN * (vn - vf)) + (1 + u) ^ 2 * (((1 + u) ^ 2 * Rabs (vn - vf) + 1) * (/ 2 * eta))) / Rabs (vF - vN) + / 2 * eta.
Theorem C106_A : fin (fsub F N) = true -> fin A = true -> vF - vN <> 0 /\ Rabs (val A - side vN * ((vf * vF - vn * vN) / (vF - vN))) <= a_err.
Proof.
intros fv fA; destruct qu as [u0 u1], qe as [h0 h1]; destruct (fdiv_inv prec emax p0 pe _ _ fA fv) as [fd _].
destruct (fsub_inv _ _ _ _ _ _ fv) as [_ fN]; destruct (sign_C N fN) as [z [hz ez]]; fold (side vN) in ez; subst z.
destruct (sgn_val prec emax p0 pe _ _ _ hz fd) as [fs es]; destruct (fsub_inv _ _ _ _ _ _ fs) as [f1 f2].
assert (r1 := prod_round prec emax p0 pe _ _ f1); assert (r2 := prod_round prec emax p0 pe _ _ f2); assert (r3 := diff_round prec emax p0 pe _ _ fs).
set (P := vf * vF) in *; set (Q := vn * vN) in *; set (p := val (fmul f F)) in *; set (q := val (fmul n N)) in *; set (d := val (fsub _ _)) in *.
assert (zp := Rabs_pos P); assert (zq := Rabs_pos Q).
assert (mp : Rabs p <= (1 + u) * Rabs P + / 2 * eta) by (replace p with ((p - P) + P) by ring; apply Rle_trans with (1 := Rabs_triang _ _); lra).
assert (mq : Rabs q <= (1 + u) * Rabs Q + / 2 * eta) by (replace q with ((q - Q) + Q) by ring; apply Rle_trans with (1 := Rabs_triang _ _); lra).
assert (D : Rabs (d - (P - Q)) <= gam 2 * (Rabs P + Rabs Q) + (1 + u) * eta).
{ replace (d - (P - Q)) with ((d - (p - q)) + ((p - P) + - (q - Q))) by ring.
  assert (t1 := Rabs_triang (d - (p - q)) ((p - P) + - (q - Q))); assert (t2 := Rabs_triang (p - P) (- (q - Q))); rewrite Rabs_Ropp in t2.
  assert (t3 := Rabs_triang p (- q)); rewrite Rabs_Ropp in t3; change (p + - q) with (p - q) in t3.
  assert (u * Rabs (p - q) <= u * (((1 + u) * Rabs P + / 2 * eta) + ((1 + u) * Rabs Q + / 2 * eta))) by (apply Rmult_le_compat_l; lra).
  replace (gam 2) with (2 * u + u * u) by (unfold Props_FloatGeo.gam; ring); lra. }
destruct (quotient 2 ((1 + u) * eta) (Rabs P + Rabs Q) (side vN * (P - Q)) (fmul C (fsub (fmul f F) (fmul n N))) F N) as [nz [_ e]]; try assumption; [lra| |apply Rmult_le_pos; lra| |].
- rewrite Rabs_mult, side_abs, Rmult_1_l; assert (t := Rabs_triang P (- Q)); rewrite Rabs_Ropp in t; exact t.
- rewrite es; fold d; replace (side vN * d - side vN * (P - Q)) with (side vN * (d - (P - Q))) by ring; rewrite Rabs_mult, side_abs, Rmult_1_l; exact D.
- split; [exact nz|]; unfold fpersp_A, a_err; fold P Q; replace (side vN * ((P - Q) / (vF - vN))) with (side vN * (P - Q) / (vF - vN)) by (field; exact nz).
  replace ((1 + u) ^ 3 * eta) with ((1 + u) ^ 2 * ((1 + u) * eta)) by ring; exact e.
Qed.
Theorem C106_B : fin (fsub F N) = true -> fin B = true -> vF - vN <> 0 /\ Rabs (val B - side vN * (vF * vN * (vn - vf) / (vF - vN))) <= b_err.
Proof.
intros fv fB; destruct qu as [u0 u1], qe as [h0 h1]; destruct (fdiv_inv prec emax p0 pe _ _ fB fv) as [fd _].
destruct (fsub_inv _ _ _ _ _ _ fv) as [_ fN]; destruct (sign_C N fN) as [z [hz ez]]; fold (side vN) in ez; subst z.
destruct (fmul_inv _ _ _ _ _ _ fd) as [f1 f2]; destruct (fmul_inv _ _ _ _ _ _ f1) as [f3 _]; destruct (sgn_val prec emax p0 pe _ _ _ hz f3) as [_ es].
assert (n1 : near prec 1 (/ 2 * eta) (val (fmul (fmul C F) N)) (side vN * vF * vN)).
{ split; [lra|]; assert (r := prod_round prec emax p0 pe _ _ f1); rewrite es in r; rewrite gam_1; exact r. }
assert (n2 := near_diff prec emax p0 pe _ _ f2); destruct (near_mul prec emax p0 pe prec5 _ _ _ _ _ _ _ _ n1 n2 fd) as [E0 D]; change (S (1 + 1)) with 3%nat in D.
assert (eX : Rabs (side vN * vF * vN * (vn - vf)) = Rabs (vF * vN * (vn - vf))) by (rewrite !Rabs_mult, side_abs; ring).
rewrite eX in D; destruct (quotient 3 _ (Rabs (vF * vN * (vn - vf))) (side vN * vF * vN * (vn - vf)) (fmul (fmul (fmul C F) N) (fsub n f)) F N (Rabs_pos _) ltac:(rewrite eX; lra) E0 D fv fB) as [nz [_ e]].
split; [exact nz|]; unfold fpersp_B, b_err; replace (side vN * (vF * vN * (vn - vf) / (vF - vN))) with (side vN * vF * vN * (vn - vf) / (vF - vN)) by (field; exact nz).
change (3 + 2)%nat with 5%nat in e; replace (((1 + u) ^ 2 * Rabs (vn - vf) + 1) * (/ 2 * eta)) with (mul_under prec emax 1 (/ 2 * eta) (side vN * vF * vN) 1 0 (vn - vf)); [exact e|].
unfold mul_under; rewrite gam_1; ring.
Qed.
(* the depth of a point at z, after the division by the last coordinate, and of the points of the two planes *)
Theorem C106_depth z : fin (fsub F N) = true -> fin A = true -> fin B = true -> z <> 0 -> vF - vN <> 0 /\
  Rabs ((val A * z + val B) / (val C * z) - ((vf * vF - vn * vN) / (vF - vN) + vF * vN * (vn - vf) / (vF - vN) / z)) <= a_err + b_err / Rabs z.
Proof.
intros fv fA fB z0; destruct (C106_A fv fA) as [nz ea]; destruct (C106_B fv fB) as [_ eb]; split; [exact nz|].
destruct (fsub_inv _ _ _ _ _ _ fv) as [_ fN]; destruct (sign_C N fN) as [s [hs e]]; fold (side vN) in e; subst s.
assert (eC : val C = side vN) by (destruct hs as [[-> ->]|[-> ->]]; [apply Bone_correct|unfold fmone, fone; rewrite B2R_Bopp, Bone_correct; lra]).
assert (ss : side vN * side vN = 1) by (unfold side; destruct (Rlt_dec vN 0); lra); assert (s0 : side vN <> 0) by nra; rewrite eC.
set (a := (vf * vF - vn * vN) / (vF - vN)) in *; set (b := vF * vN * (vn - vf) / (vF - vN)) in *.
assert (inv : / side vN = side vN) by (apply Rmult_eq_reg_l with (side vN); [rewrite Rinv_r, ss by exact s0; reflexivity|exact s0]).
replace ((val A * z + val B) / (side vN * z) - (a + b / z)) with (/ side vN * (val A - side vN * a) + / side vN * (val B - side vN * b) * / z) by (field; split; assumption).
apply Rle_trans with (1 := Rabs_triang _ _); rewrite inv, !Rabs_mult, Rabs_inv, side_abs, !Rmult_1_l; unfold Rdiv.
apply Rplus_le_compat; [exact ea|]; apply Rmult_le_compat_r; [apply Rlt_le, Rinv_0_lt_compat, Rabs_pos_lt, z0|exact eb].
Qed.
Theorem C106_planes : fin (fsub F N) = true -> fin A = true -> fin B = true -> vN <> 0 -> vF <> 0 ->
  Rabs ((val A * vN + val B) / (val C * vN) - vn) <= a_err + b_err / Rabs vN /\ Rabs ((val A * vF + val B) / (val C * vF) - vf) <= a_err + b_err / Rabs vF.
Proof.
intros fv fA fB N0 F0; destruct (C106_depth vN fv fA fB N0) as [nz e1]; destruct (C106_depth vF fv fA fB F0) as [_ e2].
replace ((vf * vF - vn * vN) / (vF - vN) + vF * vN * (vn - vf) / (vF - vN) / vN) with vn in e1 by (field; split; assumption).
replace ((vf * vF - vn * vN) / (vF - vN) + vF * vN * (vn - vf) / (vF - vN) / vF) with vf in e2 by (field; split; assumption).
split; assumption.
Qed.
End FloatPersp.
Print Assumptions C106_A.
Print Assumptions C106_B.
Print Assumptions C106_depth.
Print Assumptions C106_planes.

(** * Double precision *)
Notation fl := (binary_float 53 1024).
Notation pA := (fpersp_A 53 1024 eq_refl eq_refl).
Notation pB := (fpersp_B 53 1024 eq_refl eq_refl).
Notation pC := (fpersp_C 53 1024 eq_refl eq_refl).
Notation psub := (M_Float.fsub 53 1024 eq_refl eq_refl).
(* near 1/10 (rounded), far 10, depths 0 and 1 *)
Example C106_example : let N := dbl 3602879701896397 (-55) in let F := dbl 10 0 in let n := dbl 0 0 in let f := dbl 1 0 in
  is_finite (psub F N) = true /\ is_finite (pA N F n f) = true /\ is_finite (pB N F n f) = true /\ B2R N <> 0 /\ B2R F <> 0 /\
  a_err 53 1024 N F n f + b_err 53 1024 N F n f / Rabs (B2R N) <= / 2 ^ 49.
Proof.
intros N F n f; assert (vN : B2R N = 3602879701896397 / 2 ^ 55) by (unfold N; dval; lra); assert (vF : B2R F = 10) by (unfold F; dval; lra).
assert (vn : B2R n = 0) by (unfold n; dval; lra); assert (vf : B2R f = 1) by (unfold f; dval; lra).
assert (eu : Props_Float.u 53 = / 2 ^ 53) by (unfold Props_Float.u; simpl; lra).
assert (h0 : 0 <= Props_Float.eta 53 1024) by apply bpow_ge_0; assert (h1 : Props_Float.eta 53 1024 <= / 2 ^ 100).
{ apply Rle_trans with (bpow radix2 (-100)); [apply bpow_le; lia|simpl; lra]. }
split; [vm_compute; reflexivity|split; [vm_compute; reflexivity|split; [vm_compute; reflexivity|]]].
unfold a_err, b_err, Props_FloatGeo.gam; rewrite eu, vN, vF, vn, vf; set (h := Props_Float.eta 53 1024) in *; split; [lra|split; [lra|]]; interval with (i_prec 150).
Qed.
(* planes close together: near 1 and far 1 + 2^-52 are mapped to -2 and 0 instead of -1 and 1 *)
Theorem C106_close_refuted : exists N F n f : fl, 0 < B2R N < B2R F /\ is_finite (psub F N) = true /\ is_finite (pA N F n f) = true /\ is_finite (pB N F n f) = true /\ B2R n = -1 /\ B2R f = 1 /\
  (B2R (pA N F n f) * B2R N + B2R (pB N F n f)) / (B2R (pC N) * B2R N) = -2 /\ (B2R (pA N F n f) * B2R F + B2R (pB N F n f)) / (B2R (pC N) * B2R F) = 0.
Proof.
set (N := dbl 1 0); set (F := dbl 4503599627370497 (-52)); set (n := dbl (-1) 0); set (f := dbl 1 0); exists N, F, n, f.
assert (vN : B2R N = 1) by (unfold N; dval; lra); assert (vF : B2R F = 1 + / 2 ^ 52) by (unfold F; dval; lra).
assert (vA : B2R (pA N F n f) = 2 ^ 53) by (unfold N, F, n, f; dval; lra); assert (vB : B2R (pB N F n f) = - 2 ^ 53 - 2) by (unfold N, F, n, f; dval; lra).
assert (vC : B2R (pC N) = 1) by (unfold N; dval; lra).
split; [rewrite vN, vF; lra|split; [vm_compute; reflexivity|split; [vm_compute; reflexivity|split; [vm_compute; reflexivity|]]]].
split; [unfold n; dval; lra|split; [unfold f; dval; lra|]]; rewrite vA, vB, vC, vN, vF; split; lra.
Qed.
(* distant planes: B overflows although its value is 2^601 *)
Theorem C106_overflow_refuted : exists N F n f : fl, is_finite N = true /\ is_finite F = true /\ 0 < B2R N < B2R F /\ B2R n = 0 /\ B2R f = 1 /\ is_finite (pA N F n f) = true /\
  is_finite (pB N F n f) = false /\ B2R F * B2R N * (B2R n - B2R f) / (B2R F - B2R N) = - bpow radix2 601.
Proof.
set (N := dbl 1 600); set (F := dbl 1 601); set (n := dbl 0 0); set (f := dbl 1 0); exists N, F, n, f.
assert (K : forall k, (k = 600 \/ k = 601)%Z -> B2R (dbl 1 k) = bpow radix2 k).
{ intros k hk; unfold dbl; rewrite (proj1 (const_val 53 1024 eq_refl eq_refl 1 k ltac:(unfold SpecFloat.emin; lia) ltac:(lia) ltac:(rewrite F2R_bpow, Rabs_right by (apply Rle_ge, bpow_ge_0); apply bpow_lt; lia))); apply F2R_bpow. }
assert (vN : B2R N = bpow radix2 600) by (apply K; lia); assert (vF : B2R F = bpow radix2 601) by (apply K; lia).
assert (vn : B2R n = 0) by (unfold n; dval; lra); assert (vf : B2R f = 1) by (unfold f; dval; lra).
split; [vm_compute; reflexivity|split; [vm_compute; reflexivity|]]; assert (b := bpow_gt_0 radix2 600).
assert (e : bpow radix2 601 = 2 * bpow radix2 600) by (change 601%Z with (1 + 600)%Z; rewrite bpow_plus; reflexivity).
rewrite vN, vF, vn, vf, e; split; [lra|split; [reflexivity|split; [reflexivity|split; [vm_compute; reflexivity|split; [vm_compute; reflexivity|field; lra]]]]].
Qed.
Print Assumptions C106_close_refuted.
Print Assumptions C106_overflow_refuted.
