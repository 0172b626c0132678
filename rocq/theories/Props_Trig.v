(* Properties C67, C68, C75: exponential, logarithm, power, axis and angle of quaternions, over Coq's real numbers *)
From Coq Require Import Reals Lra.
From mathcomp Require Import all_ssreflect all_algebra.
From mathcomp Require Import ring.
From Verif Require Import M_Vec M_Mat M_Quat M_Transform M_Trig Spec SpecQuat RealStruct P_Vec P_Mat P_Transform P_Quat P_Rot P_Rot2 Props_Quat Props_Rotation P_Trig P_TrigD.
Set Implicit Arguments. Unset Strict Implicit. Unset Printing Implicit Defensive.
Import Order.Theory GRing.Theory Num.Theory.
Local Open Scope ring_scope.

Lemma dext f (t l l' : R) : derivable_pt_lim f t l -> l = l' -> derivable_pt_lim f t l'.
Proof. by move=> h <-. Qed.

Section C67.
(* the numeric limits of the element type *)
Variables (tmin tmax : R).
Hypotheses (h0 : (0 : R) < tmin) (h1 : tmin <= tmax).
Variable jk : R.
Local Notation Exp := (qexp exp cos sin tmin tmax jk).
Local Notation Log := (qlog ln acos tmin tmax jk).
Local Notation Pow := (qpow exp ln cos sin acos tmin tmax jk).

(** * C67 *)
(* Euler's formula: exp (s + t n) = e^s (cos t + n sin t) for every unit vector n *)
Theorem C67_euler (q : quat R_ringType) (s t x y z : R) : wfq q ->
  x * x + y * y + z * z = 1 -> absq q = (s, t * x, t * y, t * z) ->
  exists2 e, Exp q = Some e & [/\ wfq e, sfirst e = sfirst q &
    absq e = (exp s * cos t, exp s * (sin t * x), exp s * (sin t * y), exp s * (sin t * z))].
Proof.
move=> wq n1; open_quat q wq sf w => e; subst w.
have hn : unit3 [:: x; y; z] by split=> //; rewrite /dot3 !big_ord_recl big_ord0 /= addr0 addrA.
exists (mkq sf (hpolar s t [:: x; y; z])); first exact: (qexpP h0 h1 jk sf s t hn).
by rewrite wfq_mkq sfirst_mkq absq_mkq.
Qed.
Print Assumptions C67_euler.

Theorem C67_length (q : quat R_ringType) : wfq q ->
  exists2 e, Exp q = Some e & qlength e = exp (qs q).
Proof.
move=> wq; open_quat q wq sf x; have [s [v [sv ->]]] := hsvE x.
have [hn ev] := polar sv; rewrite {1}ev qexpP //; eexists; first by [].
rewrite qlength_mkq hnorm_polar // sqrtr_sqr qs_mkq ger0_norm //.
exact/ltW/exp_gt0.
Qed.
Print Assumptions C67_length.

Theorem C67_exp_log (q : quat R_ringType) : wfq q -> absq q <> hzero R_ringType ->
  exists2 l, Log q = Some l & wfq l /\ Exp l = Some q.
Proof.
move=> wq; open_quat q wq sf x => /eqP x0.
have [l [t [n [hn _ _ -> ->]]]] := qlogP h0 h1 jk sf x0.
by eexists; [by []|split; [exact: wfq_mkq|exact: qexpP]].
Qed.
Print Assumptions C67_exp_log.

Theorem C67_log_exp (q : quat R_ringType) : wfq q -> vlength (qvector q) < (PI : R) ->
  exists2 e, Exp q = Some e & wfq e /\ Log e = Some q.
Proof.
move=> wq; open_quat q wq sf x; have [s [v [sv ->]]] := hsvE x.
have [hn ev] := polar sv; rewrite qvector_hsv // => hl; rewrite ev qexpP //; eexists; first by [].
split; first exact: wfq_mkq.
by apply: qlog_polar => //; rewrite /vlength sqrtr_ge0.
Qed.
Print Assumptions C67_log_exp.

(* the logarithm is the principal one *)
Theorem C67_principal (q l : quat R_ringType) : wfq q -> Log q = Some l -> vlength (qvector l) <= (PI : R).
Proof.
move=> wq; open_quat q wq sf x; case: (x =P hzero R_ringType) => [->|/eqP x0].
  by rewrite /qlog qs_mkq /hzero qvector_mkq length_preciseE // sfirst_mkq /=
     (_ : vlength _ = 0) ?expr0n ?addr0 ?sqrtr0 /sdiv ?eqxx //; apply/eqP; rewrite length_eq0 /= !eqxx.
have [m [t [n [hn t0 t1 _ ->]]]] := qlogP h0 h1 jk sf x0; case=> <-.
by rewrite qvector_hsv ?size_map ?scale_unit3 ?ger0_norm //; case: hn.
Qed.
Print Assumptions C67_principal.

Theorem C67_zero (q : quat R_ringType) (a : R) : wfq q -> absq q = hzero R_ringType -> Log q = None /\ Pow q a = None.
Proof.
move=> wq; open_quat q wq sf x => ->.
have e : Log (mkq sf (hzero R_ringType)) = None.
  by rewrite /qlog qs_mkq /hzero qvector_mkq length_preciseE // sfirst_mkq /=
     (_ : vlength _ = 0) ?expr0n ?addr0 ?sqrtr0 /sdiv ?eqxx //; apply/eqP; rewrite length_eq0 /= !eqxx.
by rewrite /qpow e.
Qed.
Print Assumptions C67_zero.

Lemma powP (q : quat R_ringType) : wfq q -> absq q <> hzero R_ringType -> exists l t n, [/\ unit3 n, q = mkq (sfirst q) (hpolar l t n) &
  forall a : R, Pow q a = Some (mkq (sfirst q) (hpolar (a * l) (a * t) n))].
Proof.
move=> wq; open_quat q wq sf x => /eqP x0.
have [l [t [n [hn _ _ ex el]]]] := qlogP h0 h1 jk sf x0; exists l, t, n; split=> [//||a]; first by rewrite -ex.
rewrite /qpow el sqmul_mkq; have -> : hscale a (hsv l (vscalel t n)) = hsv (a * l) (vscalel (a * t) n).
  by rewrite /hsv /= !nth_vscalel !mulrA.
exact: qexpP.
Qed.

Theorem C67_pow (q : quat R_ringType) : wfq q -> absq q <> hzero R_ringType ->
  [/\ Pow q 1 = Some q, exists2 o, Pow q 0 = Some o & absq o = hone R_ringType,
      forall a b : R, exists pa pb pab, [/\ Pow q a = Some pa, Pow q b = Some pb, Pow q (a + b) = Some pab & absq pab = hmul (absq pa) (absq pb)],
      forall a : R, exists p p', [/\ Pow q a = Some p, Pow q (- a) = Some p' & absq (qmul jk p p') = hone R_ringType] &
      forall a : R, exists2 p, Pow q a = Some p & qlength p = exp (a * ln (qlength q))].
Proof.
move=> wq q0; have [l [t [n [hn eq hp]]]] := powP wq q0.
have p0 : hpolar 0 0 n = hone R_ringType.
  by rewrite /hpolar exp0 cos_0' sin_0' /= !mul0r !mulr0 mulr1.
split.
- by rewrite hp !mul1r -eq.
- by eexists; [exact: hp|rewrite absq_mkq !mul0r].
- move=> a b; do 3! eexists; split; [exact: hp|exact: hp|exact: hp|].
  by rewrite !absq_mkq hpolarM // -!mulrDl.
- move=> a; do 2! eexists; split; [exact: hp|exact: hp|].
  by rewrite qmul_mkq absq_mkq hpolarM // -!mulrDl subrr !mul0r.
move=> a; eexists; first exact: hp.
rewrite qlength_mkq hnorm_polar // sqrtr_sqr ger0_norm; last exact/ltW/exp_gt0.
by rewrite eq qlength_mkq hnorm_polar // sqrtr_sqr ger0_norm ?expK //; exact/ltW/exp_gt0.
Qed.
Print Assumptions C67_pow.

(* natural exponents: the repeated product *)
Theorem C67_pow_nat (q : quat R_ringType) (n : nat) : wfq q -> absq q <> hzero R_ringType ->
  exists2 p, Pow q n%:R = Some p & absq p = iter n (hmul (absq q)) (hone R_ringType).
Proof.
move=> wq q0; have [l [t [u [hn eq hp]]]] := powP wq q0.
eexists; first exact: hp.
rewrite absq_mkq; elim: n => [|n IH].
  by rewrite !mul0r /hpolar exp0 cos_0' sin_0' /= !mul0r !mulr0 mulr1.
by rewrite /= -IH [in RHS]eq absq_mkq hpolarM // -addn1 addnC natrD !mulrDl !mul1r.
Qed.
Print Assumptions C67_pow_nat.

(* t -> exp (t q) solves the differential equation that defines the exponential: e' = q e, e (0) = 1 *)
Definition hderiv (e : R -> hq R_ringType) (t : R) (d : hq R_ringType) : Prop :=
  [/\ derivable_pt_lim (fun t => (e t).1.1.1) t d.1.1.1, derivable_pt_lim (fun t => (e t).1.1.2) t d.1.1.2,
      derivable_pt_lim (fun t => (e t).1.2) t d.1.2 & derivable_pt_lim (fun t => (e t).2) t d.2].
Theorem C67_derivative (q : quat R_ringType) : wfq q -> exists e : R -> hq R_ringType,
  [/\ forall t : R, exists2 r, Exp (sqmul t q) = Some r & absq r = e t, e 0 = hone R_ringType &
      forall t : R, hderiv e t (hmul (absq q) (e t))].
Proof.
move=> wq; open_quat q wq sf x; have [s [v [sv ->]]] := hsvE x.
have [hn ev] := polar sv; move: (normalize_precise v) (vlength v) hn ev => n L hn ev.
exists (fun t => hpolar (t * s) (t * L) n); split=> [t||t].
- exists (mkq sf (hpolar (t * s) (t * L) n)); last by rewrite absq_mkq.
  rewrite sqmul_mkq; have -> : hscale t (hsv s v) = hsv (t * s) (vscalel (t * L) n).
    by rewrite ev /hsv /= !nth_vscalel !mulrA.
  exact: qexpP.
- by rewrite /hpolar !mul0r exp0 cos_0' sin_0' /= !mul0r !mulr0 mulr1.
rewrite ev /hpolar /hsv !nth_vscalel; have h := unit3_sum hn.
move: (nth 0 n 0) (nth 0 n 1) (nth 0 n 2) h => x0 x1 x2 h; split=> /=.
- apply: (dext (d_ec s L t)); rewrite /Rminus ?(RmultE, RplusE, RoppE); move: (exp _) (cos _) (sin _) => E C S.
  have -> : s * (E * C) - L * x0 * (E * (S * x0)) - L * x1 * (E * (S * x1)) - L * x2 * (E * (S * x2)) =
     E * (s * C - L * S * (x0 * x0 + x1 * x1 + x2 * x2)) by ring.
  by rewrite h mulr1.
all: apply: (dext (d_es s L _ t)); rewrite /Rminus ?(RmultE, RplusE, RoppE); move: (exp _) (cos _) (sin _) => E C S.
all: by ring.
Qed.
Print Assumptions C67_derivative.
End C67.

(** * C68 *)
(* std::atan2(y, x): the angle of the point (x, y), in ]-pi, pi] *)
Definition is_atan2 (f : R -> R -> R) : Prop := forall x y : R, (x != 0) || (y != 0) ->
  let r := Num.sqrt (x * x + y * y) in
  [/\ (- PI : R) < f y x, f y x <= (PI : R), r * cos (f y x) = x & r * sin (f y x) = y].
(* such a function exists *)
Definition atan2 (y x : R) : R :=
  let t := acos (x / Num.sqrt (x * x + y * y)) in if y < 0 then - t else t.
Lemma atan2P : is_atan2 atan2.
Proof.
move=> x y h r; have r2 : x * x + y * y = r ^+ 2 by rewrite sqr_sqrtr // addr_ge0 ?sqr_ge0.
have rp : 0 < r.
  rewrite lt_neqAle sqrtr_ge0 andbT eq_sym sqrtr_eq0 -ltNge lt_neqAle addr_ge0 ?sqr_ge0 // andbT eq_sym.
  by rewrite paddr_eq0 ?sqr_ge0 // !mulf_eq0 !orbb negb_and.
have rn : r != 0 by rewrite gt_eqF.
have hx : `|x| <= r by rewrite -sqrtr_sqr; apply: ler_wsqrtr; rewrite expr2 ler_addl sqr_ge0.
have [x1 x2] : (-1 : R) <= x / r /\ x / r <= (1 : R).
  by rewrite ler_pdivl_mulr // mulN1r ler_pdivr_mulr // mul1r; move: hx; rewrite ler_norml => /andP [].
have [a1 a2 a3 a4] := acosP x1 x2; rewrite /atan2 -/r; move: (acos _) a1 a2 a3 a4 => t a1 a2 a3 a4.
have ex : r * cos t = x by rewrite a3 mulrC mulfVK.
have ey : r * sin t = `|y|.
  apply/eqP; rewrite -(@eqr_expn2 _ 2) ?mulr_ge0 ?(ltW rp) // real_normK ?num_real // exprMn; apply/eqP.
  have := cs1 t; move: r2; rewrite -ex; move: (r) (cos t) (sin t) => r' c s.
  move=> e1 e2; apply/eqP; rewrite -subr_eq0; apply/eqP.
  transitivity (r' ^+ 2 * (c * c + s * s) - (r' * c * (r' * c) + y * y)); first by ring.
  by rewrite e1 e2 mulr1 subrr.
have pp : (0 : R) < PI by apply/RltE; exact: PI_RGT_0.
case: ifP => hy.
  have tn : t < (PI : R).
    rewrite lt_neqAle a2 andbT; apply/eqP => e; move: ey; rewrite e (sin_PI : sin PI = 0 :> R) mulr0 => /eqP.
    by rewrite eq_sym normr_eq0 lt_eqF.
  split; rewrite ?cosN ?sinN ?mulrN ?ey ?ltr0_norm ?opprK ?ltr_opp2 //.
  by apply: le_trans (ltW pp); rewrite oppr_le0.
split=> //; first by apply: lt_le_trans a1; rewrite oppr_lt0.
by rewrite ey ger0_norm // leNgt hy.
Qed.

Section C68.
Variable at2 : R -> R -> R.
Hypothesis at2P : is_atan2 at2.
Local Notation Angle := (qangle at2).

Lemma at2_polar (t : R) : (0 : R) <= t -> t <= (PI : R) -> at2 (sin t) (cos t) = t.
Proof.
move=> t0 t1; have cs := cs1 t.
have h : (cos t != 0) || (sin t != 0).
  by rewrite -negb_and; apply/negP => /andP [/eqP e1 /eqP e2]; move/eqP: cs; rewrite e1 e2 !mulr0 addr0 eq_sym oner_eq0.
have := at2P h; rewrite /= cs sqrtr1 !mul1r; move: (at2 _ _) => a [a1 a2 a3 a4].
have st : 0 <= sin t by apply/RleE; apply: sin_ge_0; apply/RleE.
case: (lerP 0 a) => ha; first by rewrite -(acosK ha a2) a3 acosK.
have sa : sin (- a) > 0 by apply: sin_pos; rewrite ?oppr_gt0 // ltr_oppl.
by move: sa; rewrite sinN a4 oppr_gt0 ltNge st.
Qed.

Lemma angle_polar sf (t : R) n : unit3 n -> (0 : R) <= t -> t <= (PI : R) ->
  Angle (mkq sf (hsv (cos t) (vscalel (sin t) n))) = 2%:R * t.
Proof.
move=> hn t0 t1; have [sn _] := hn; rewrite /qangle qs_mkq qvector_hsv ?size_map // scale_unit3 // ger0_norm ?at2_polar //.
by apply/RleE; apply: sin_ge_0; apply/RleE.
Qed.
Lemma hrot_hsv u a : hrot u a = hsv (cos (a / 2%:R)) (vscalel (sin (a / 2%:R)) u).
Proof. by rewrite /hrot /hsv !nth_vscalel. Qed.
Lemma unit3N n : unit3 n -> unit3 [seq - x | x <- n].
Proof.
move=> [sn n1]; split; rewrite ?size_map // -n1 /dot3; apply: eq_bigr => i _.
by rewrite !(nth_map 0) ?sn // mulrNN.
Qed.

Variable jk : R.
Local Notation rotation := (rotation_quat cos sin jk).

Theorem C68_axis_angle sf (u : seq R) (a : R) : size u = 3%N -> dot3 u u = 1 -> (0 : R) < a -> a < (2%:R * PI : R) ->
  qaxis (rotation sf u a) = u /\ Angle (rotation sf u a) = a.
Proof.
move=> su n1 a0 a1; have hn : unit3 u by []; rewrite rotation_quatE // hrot_hsv.
have t0 : 0 < a / 2%:R by rewrite divr_gt0 // ltr0n.
have t1 : a / 2%:R < (PI : R) by rewrite ltr_pdivr_mulr ?ltr0n // mulrC.
rewrite angle_polar ?(ltW t0) ?(ltW t1) //; split; last by rewrite mulrC mulfVK ?pnatr_eq0.
have s0 := sin_pos t0 t1; rewrite /qaxis qvector_hsv ?size_map // normalize_scale // gt_eqF //.
by rewrite gtr0_norm // divff ?gt_eqF // -[RHS]map_id; apply: eq_map => x; rewrite mul1r.
Qed.
Print Assumptions C68_axis_angle.

(* negative angles: the same rotation is reported about the opposite axis *)
Theorem C68_negative sf (u : seq R) (a : R) : size u = 3%N -> dot3 u u = 1 -> (- (2%:R * PI) : R) < a -> a < (0 : R) ->
  qaxis (rotation sf u a) = [seq - x | x <- u] /\ Angle (rotation sf u a) = - a.
Proof.
move=> su n1 a0 a1; have [su' n1'] : unit3 [seq - x | x <- u] by apply: unit3N.
have -> : rotation sf u a = rotation sf [seq - x | x <- u] (- a).
  rewrite !rotation_quatE // /hrot !(nth_map 0) ?su // mulNr cosN sinN !mulrNN //.
by apply: C68_axis_angle; rewrite ?oppr_gt0 // ltr_oppl.
Qed.
Print Assumptions C68_negative.

(* every unit quaternion is rebuilt from its axis and angle; the axis is a unit vector, the angle is in [0, 2 pi] *)
Theorem C68_rebuild (q : quat R_ringType) : wfq q -> hnorm (absq q) = 1 ->
  [/\ size (qaxis q) = 3%N, dot3 (qaxis q) (qaxis q) = 1, (0 : R) <= Angle q, Angle q <= (2%:R * PI : R) &
      rotation (sfirst q) (qaxis q) (Angle q) = q].
Proof.
move=> wq; open_quat q wq sf x; have [s [v [sv ->]]] := hsvE x; rewrite hnorm_hsv // /qaxis qvector_hsv //.
have [[sn n1] ev] := polar sv; move: (normalize_precise v) sn n1 ev => n sn n1 ev nq.
have l0 : 0 <= vlength v by rewrite sqrtr_ge0.
have [s1 s2] : (-1 : R) <= s /\ s <= (1 : R).
  have : `|s| <= 1 by rewrite -(@ler_pexpn2r _ 2) ?nnegrE // real_normK ?num_real // expr1n -nq ler_addl sqr_ge0.
  by rewrite ler_norml => /andP [].
have [t0 t1 t2 t3] := acosP s1 s2.
have el : vlength v = sin (acos s).
  apply/eqP; rewrite -(@eqr_expn2 _ 2) //; apply/eqP; apply: (addrI (s ^+ 2)); rewrite nq.
  by have := cs1 (acos s); rewrite t2 -!expr2 => ->.
have e : hsv s v = hsv (cos (acos s)) (vscalel (sin (acos s)) n) by rewrite t2 -el -ev.
rewrite e angle_polar //; split=> //.
- by rewrite mulr_ge0 // ler0n.
- by rewrite ler_pmul2l // ltr0n.
have -> : 2%:R * acos s = acos s * 2%:R by rewrite mulrC.
by rewrite rotation_quatE // hrot_hsv mulfK // pnatr_eq0.
Qed.
Print Assumptions C68_rebuild.

(* The comment says that Axis gives (1, 0, 0) for rotations near 180 degrees. A half turn gives its axis; the
   conventional axis is given for the real quaternions 1 and -1, that is for rotations by 0 and 360 degrees. *)
Theorem C68_degenerate sf (u : seq R) : size u = 3%N -> dot3 u u = 1 ->
  [/\ qaxis (rotation sf u PI) = u, Angle (rotation sf u PI) = PI,
      qaxis (rotation sf u 0) = [:: 1; 0; 0] /\ Angle (rotation sf u 0) = 0 &
      qaxis (rotation sf u (2%:R * PI)) = [:: 1; 0; 0] /\ Angle (rotation sf u (2%:R * PI)) = 2%:R * PI :> R].
Proof.
move=> su n1; have hn : unit3 u by [].
have pp : (0 : R) < PI by apply/RltE; exact: PI_RGT_0.
have [||-> ->] // := @C68_axis_angle sf u PI su n1; first by rewrite ltr_pmull // ltr1n.
split=> //; rewrite rotation_quatE // hrot_hsv ?mul0r ?[2%:R * _]mulrC ?mulfK ?pnatr_eq0 //;
  rewrite angle_polar ?mulr0 ?lexx ?(ltW pp) //; split; rewrite /qaxis ?qvector_hsv ?size_map ?normalize_scale //.
- by rewrite sin_0' eqxx.
- by rewrite (sin_PI : sin PI = 0 :> R) eqxx.
- by rewrite mulrC.
Qed.
Print Assumptions C68_degenerate.
End C68.

(* a case meeting the hypotheses: q = 1 + 2 i + 2 j + k, stored vector first *)
Lemma three : (3%:R : R) = IZR 3. Proof. change (Rplus (IZR 1) (Rplus (IZR 1) (IZR 1)) = IZR 3); lra. Qed.
Lemma two : (2%:R : R) = IZR 2. Proof. change (Rplus (IZR 1) (IZR 1) = IZR 2); lra. Qed.
Definition q_ex : quat R_ringType := mkq false (1, 2%:R, 2%:R, 1 : R).
Example C67_example : [/\ wfq q_ex, absq q_ex <> hzero R_ringType, vlength (qvector q_ex) = 3%:R, vlength (qvector q_ex) < (PI : R) &
  exists2 e, qexp exp cos sin (1 / 2%:R) 4%:R 7%:R q_ex = Some e & qs e = exp 1 * cos 3%:R /\ qs e <> qs q_ex].
Proof.
have l3 : vlength (qvector q_ex) = 3%:R :> R.
  rewrite qvector_mkq length_dot3 // (_ : dot3 _ _ = 3%:R ^+ 2) ?sqrtr_sqr ?ger0_norm ?ler0n //.
  by rewrite /dot3 !big_ord_recl big_ord0 /=; ring.
have pi3 : 3%:R < (PI : R).
  apply/RltE; have [h _] := PI_2_3_7_ineq 1; move: h; rewrite /sum_f_R0 /tg_alt /PI_2_3_7_tg /Ratan_seq /=.
  by rewrite three => h; lra.
have h0 : (0 : R) < 1 / 2%:R by rewrite divr_gt0 ?ltr01 ?ltr0n.
have h1 : (1 : R) / 2%:R <= 4%:R by rewrite ler_pdivr_mulr ?ltr0n // -natrM ler1n.
split; rewrite ?l3 //.
  by rewrite absq_mkq => -[/eqP]; rewrite oner_eq0.
have [hn ev] := @polar [:: 2%:R; 2%:R; 1] erefl.
have l3' : vlength [:: 2%:R; 2%:R; 1] = 3%:R :> R by rewrite -l3 qvector_mkq.
have -> : q_ex = mkq false (hsv 1 (vscalel 3%:R (normalize_precise [:: 2%:R; 2%:R; 1]))) by rewrite -l3' -ev.
eexists; first exact: (qexpP h0 h1).
rewrite !qs_mkq /=; split=> //; move=> e.
have c0 : cos 3%:R < 0.
  apply/RltE; apply: cos_lt_0; first by have := PI2_3_2; have := PI_4; rewrite three; lra.
  by move/RltE: pi3; have := PI_RGT_0; rewrite three => ? ?; lra.
have : exp 1 * cos 3%:R < 0 by rewrite pmulr_rlt0 ?exp_gt0.
by rewrite e ltr10.
Qed.
Example C68_example : dot3 [:: 3%:R / 5%:R; 0; 4%:R / 5%:R] [:: 3%:R / 5%:R; 0; 4%:R / 5%:R] = 1 :> R /\
  (0 : R) < PI / 2%:R /\ PI / 2%:R < (2%:R * PI : R).
Proof.
have pp : (0 : R) < PI by apply/RltE; exact: PI_RGT_0.
split; last split.
- by rewrite /dot3 !big_ord_recl big_ord0 /=; field.
- by rewrite divr_gt0 ?ltr0n.
- by rewrite ltr_pdivr_mulr ?ltr0n // mulrAC -natrM ltr_pmull // ltr1n.
Qed.

(** * C75 *)
Theorem C75_inverse (F : realFieldType) (pi : F) : pi != 0 ->
  (forall a, rad2deg pi (deg2rad pi a) = a) /\ (forall a, deg2rad pi (rad2deg pi a) = a).
Proof. by move=> h; split=> a; rewrite /rad2deg /deg2rad; field; rewrite ?h ?pnatr_eq0. Qed.
Print Assumptions C75_inverse.
Theorem C75_linear (F : realFieldType) (pi : F) : pi != 0 ->
  [/\ forall a b k, rad2deg pi (k * a + b) = k * rad2deg pi a + rad2deg pi b,
      forall a b k, deg2rad pi (k * a + b) = k * deg2rad pi a + deg2rad pi b,
      deg2rad pi 180%:R = pi & rad2deg pi pi = 180%:R].
Proof.
by move=> h; split; [move=> a b k|move=> a b k| |]; rewrite /rad2deg /deg2rad; field; rewrite ?h ?pnatr_eq0.
Qed.
Print Assumptions C75_linear.
(* the right angle has cosine 0 and sine 1 *)
Theorem C75_right_angle : cos (deg2rad PI 90%:R) = 0 /\ sin (deg2rad PI 90%:R) = 1.
Proof.
have -> : deg2rad PI 90%:R = Rdiv PI (IZR 2).
  rewrite -two /Rdiv RmultE -RinvE; last by move/eqP; rewrite pnatr_eq0.
  rewrite /deg2rad.
  by move: (PI : R) => p; field; rewrite ?pnatr_eq0.
by rewrite cos_PI2 sin_PI2.
Qed.
Print Assumptions C75_right_angle.
(* clamping: the nearest point of the interval *)
Theorem C75_clamp (F : realFieldType) (x lo hi : F) : lo <= hi ->
  [/\ lo <= clamp x lo hi <= hi, (lo <= x <= hi -> clamp x lo hi = x) &
      forall y, lo <= y <= hi -> `|x - clamp x lo hi| <= `|x - y|].
Proof.
move=> lh; rewrite /clamp; case: (ltrP x lo) => [h|h]; last case: (ltrP hi x) => [h'|h'].
- split=> [|/andP [] //|y /andP [h1 h2]]; first by rewrite lexx.
  by rewrite !ltr0_norm ?subr_lt0 ?(lt_le_trans h) // ler_opp2 ler_add2l ler_opp2.
- split=> [|/andP [_] //|y /andP [h1 h2]]; first by rewrite lh lexx.
  by rewrite !gtr0_norm ?subr_gt0 ?(le_lt_trans h2) // ler_add2l ler_opp2.
- by split=> [|//|y _]; rewrite ?h // subrr normr0 normr_ge0.
Qed.
Print Assumptions C75_clamp.
Theorem C75_saturate (F : realFieldType) (x : F) :
  [/\ 0 <= saturate x <= 1, (0 <= x <= 1 -> saturate x = x), (x <= 0 -> saturate x = 0) & (1 <= x -> saturate x = 1)].
Proof.
have [h1 h2 _] := C75_clamp x (@ler01 F); split=> //; rewrite /saturate /clamp.
- by rewrite le_eqVlt => /predU1P [->|->] //; rewrite ltxx ltNge ler01.
- by rewrite le_eqVlt => /predU1P [<-|h]; [rewrite ltxx ltNge ler01|rewrite h ltNge (le_trans ler01 (ltW h))].
Qed.
Print Assumptions C75_saturate.
Example C75_example : deg2rad (22%:R / 7%:R : rat) 90%:R = 11%:R / 7%:R /\ clamp (5%:R : rat) 0 3%:R = 3%:R.
Proof. by split. Qed.
