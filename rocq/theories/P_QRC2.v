(* The first diagonal element of R of the QR decomposition of a complex matrix. *)
From mathcomp Require Import all_ssreflect all_algebra.
From mathcomp Require Import ring complex.
From Verif Require Import Spec M_Vec P_Vec M_Mat P_Mat P_Mat2 M_LU P_Tri P_LU P_LU2 M_Complex P_Complex M_QRC P_QRC.
Set Implicit Arguments. Unset Strict Implicit. Unset Printing Implicit Defensive.
Import Order.Theory GRing.Theory Num.Theory.
Local Open Scope complex_scope.
Local Open Scope ring_scope.

Section First.
Variable R : rcfType.
Local Notation C := R[i].
Implicit Types (A : mat C).
Variables tmin tmax : R.
Hypotheses (tmin0 : 0 < tmin) (tmm : tmin <= tmax).

(* minus the phase; 1 for zero *)
Definition anti (z : C) : C := if cabs z != 0 then - (z / (cabs z)%:C) else 1.

Lemma anti_divr (s : R) (z : C) : 0 < s -> anti (z / s%:C) = anti z.
Proof.
move=> s_gt0; have s0 : s%:C != 0 :> C by rewrite rc_eq0 gt_eqF.
rewrite /anti cabsM -(rcV s) cabs_rc ger0_norm ?invr_ge0 ?(ltW s_gt0) //.
rewrite mulf_eq0 invr_eq0 (gt_eqF s_gt0) orbF; case: ifP => // hp.
have hc : (cabs z)%:C != 0 :> C by rewrite rc_eq0.
rewrite rcM !rcV; move: s0 hc; move: (s%:C) ((cabs _)%:C) => a b a0 b0; field; by rewrite a0 b0.
Qed.

Lemma householder_first rows cols A : wf rows cols A -> (0 < cols)%N -> (0 < rows)%N ->
  exists2 v, householder_c tmin tmax rows A 0 = Some v & size v = rows /\
    get A 0 0 - 2%:R * nth 0 v 0 * (\sum_(l < rows) conjc (nth 0 v l) * get A l 0) =
    anti (get A 0 0) * (clength (get_col rows A 0))%:C.
Proof.
move=> w c0 r0; rewrite /householder_c; set x := for_loop _ _ _ _.
have ex : x = get_col rows A 0 by [].
have sx : size x = rows by rewrite ex (size_get_col w).
have hx i : (i < rows)%N -> nth 0 x i = get A i 0 by move=> hi; rewrite ex (nth_get_col _ w).
rewrite -ex clength_preciseE //; set pivot := nth 0 x 0.
have ep : pivot = get A 0 0 by rewrite /pivot hx.
have cz : cabs pivot != 0 -> (cabs pivot)%:C != 0 by rewrite rc_eq0.
rewrite -ep; set N := clength x.
have -> : (if cabs pivot != 0 then - (pivot / (cabs pivot)%:C) else 1) = anti pivot by [].
set sgn := anti pivot; set alpha := sgn * N%:C.
have s2 : sgn * conjc sgn = 1.
  rewrite /sgn /anti; case: ifP => [hp|_]; last by rewrite conjc1 mulr1.
  rewrite conjN mulrNN conjM conjc_inv conj_rc.
  have -> : pivot / (cabs pivot)%:C * (conjc pivot / (cabs pivot)%:C) = pivot * conjc pivot / (cabs pivot ^+ 2)%:C.
    by rewrite [in RHS]rcX; move: (cz hp); move: (conjc pivot) (_%:C) => q c hc; field.
  by rewrite -cabs2 divff // rc_eq0 expf_eq0.
have pa : pivot * conjc alpha = - (cabs pivot * N)%:C.
  rewrite /alpha conjM conj_rc [in RHS]rcM /sgn /anti; case: ifP => [hp|/negbFE]; last first.
    by rewrite cabs_eq0 => /eqP ->; rewrite mul0r (_ : (cabs 0)%:C = 0 :> C) ?mul0r ?oppr0 //; apply/eqP; rewrite rc_eq0 cabs_eq0.
  rewrite conjN conjM conjc_inv conj_rc; have := cabs2 pivot; rewrite rcX.
  move: (conjc pivot) (cz hp) (N%:C); move: ((cabs pivot)%:C) => c q hc n e.
  by transitivity (- (pivot * q / c * n)); [field|rewrite -e expr2 mulfK].
have a2 : alpha * conjc alpha = (N ^+ 2)%:C.
  by rewrite /alpha conjM conj_rc [in RHS]rcX mulrACA s2 mul1r expr2.
have a2s : alpha * conjc alpha = \sum_(i < rows) nth 0 x i * conjc (nth 0 x i) by rewrite a2 (clength_sum sx).
set u := set_nth 0 x 0 _.
have su : size u = rows by rewrite size_set_nth sx; apply/maxn_idPr.
have hu i : nth 0 u i = nth 0 x i - alpha *+ (i == 0%N).
  by rewrite nth_set_nth /=; case: eqP => [->|_]; rewrite ?mulr1n // subr0.
rewrite clength_preciseE //; set nu := clength u.
have sumk (f : nat -> C) a : \sum_(i < rows) f i * (a *+ (i == 0%N :> nat)) = f 0%N * a.
  rewrite (bigD1 (Ordinal r0)) //= mulr1n big1 ?addr0 // => i.
  by rewrite -val_eqE /= => /negPf ->; rewrite mulr0n mulr0.
have pa' : alpha * conjc pivot = - (cabs pivot * N)%:C.
  by rewrite mulrC -[conjc pivot * alpha]conjcK conjM conjcK pa conjN conj_rc.
have nu2 : (nu ^+ 2)%:C = 2%:R * (alpha * conjc alpha - pivot * conjc alpha).
  rewrite (clength_sum su); transitivity (\sum_(i < rows) (nth 0 x i * conjc (nth 0 x i)
     - nth 0 x i * (conjc alpha *+ (i == 0%N :> nat)) - conjc (nth 0 x i) * (alpha *+ (i == 0%N :> nat))
     + alpha * (conjc alpha *+ (i == 0%N :> nat)))).
    apply: eq_bigr => i _; rewrite hu conjB; case: (_ == _); rewrite ?mulr1n ?mulr0n ?conjc0; last by rewrite !mulr0 !subr0 addr0.
    by move: (nth 0 x i) (conjc (nth 0 x i)) (conjc alpha) => y z a; ring.
  rewrite big_split /= !sumrB (sumk (nth 0 x)) (sumk (fun i => conjc (nth 0 x i))) (sumk (fun=> alpha)) -a2s -/pivot.
  by rewrite [conjc pivot * _]mulrC pa' pa; move: (conjc alpha) => *; ring.
case: eqP => [z|/eqP nz] /=.
  have N0 : N = 0.
    move: nu2; rewrite z expr0n a2 pa opprK -rcD => h.
    have : (N ^+ 2 + cabs pivot * N)%:C == 0 :> C.
      by move/esym/eqP: h; rewrite mulf_eq0 pnatr_eq0.
    rewrite rc_eq0 paddr_eq0 ?sqr_ge0 ?mulr_ge0 ?cabs_ge0 ?clength_ge0 // => /andP [h' _]; apply/eqP; by rewrite -sqrf_eq0.
  have p0 : pivot = 0.
    have : all (fun y : C => y == 0) x by rewrite -clength_eq0 -/N N0.
    by move/allP => h; apply/eqP/h; rewrite /pivot mem_nth ?sx.
  exists (set_nth 0 u 0 1) => //; split; first by rewrite size_set_nth su; apply/maxn_idPr.
  rewrite p0 /alpha N0 (_ : (0 : R)%:C = 0) // mulr0 big1 ?mulr0 ?subr0 // => l _; rewrite -hx //.
  have : all (fun y : C => y == 0) x by rewrite -clength_eq0 -/N N0.
  by move/allP => h; have -> : nth 0 x l = 0 by [apply/eqP/h; rewrite mem_nth ?sx]; rewrite mulr0.
exists [seq y / nu%:C | y <- u] => //; split; first by rewrite size_map.
have nc : nu%:C != 0 by rewrite rc_eq0.
have hv i : (i < rows)%N -> nth 0 [seq y / nu%:C | y <- u] i = nth 0 u i / nu%:C.
  by move=> hi; rewrite (nth_map 0) ?su.
have -> : \sum_(l < rows) conjc (nth 0 [seq y / nu%:C | y <- u] l) * get A l 0 = nu%:C / 2%:R.
  transitivity (\sum_(l < rows) (nth 0 x l * conjc (nth 0 x l) - nth 0 x l * (conjc alpha *+ (l == 0%N :> nat))) / nu%:C).
    apply: eq_bigr => l _; rewrite hv // conjM conjc_inv conj_rc hu -hx //.
    rewrite conjB; case: (_ == _); rewrite ?mulr1n ?mulr0n ?conjc0;
      move: (nth 0 x l) (conjc (nth 0 x l)) (conjc alpha) => y z a; move: (_^-1) => c; ring.
  rewrite -mulr_suml sumrB (sumk (nth 0 x)) -a2s -/pivot.
  have -> : alpha * conjc alpha - pivot * conjc alpha = nu%:C ^+ 2 / 2%:R.
    by rewrite -[nu%:C ^+ 2]rcX nu2 [RHS]mulrC mulKf // pnatr_eq0.
  by move: nc; move: (nu%:C) => c hc; field; rewrite hc ?pnatr_eq0.
rewrite hv // hu -/pivot eqxx mulr1n.
by move: nc; move: (nu%:C) => c hc; field; rewrite hc ?pnatr_eq0.
Qed.

Lemma qr_first rows cols A Q Rm : wf rows cols A -> (0 < cols <= rows)%N ->
  decompose_qr_c tmin tmax rows cols A = Some (Q, Rm) ->
  get Rm 0 0 = anti (get A 0 0) * (clength (get_col rows A 0))%:C.
Proof.
move=> w /andP [c0 cr]; have r0 := leq_trans c0 cr; rewrite /decompose_qr_c.
set s := std_max _ _.
have s_gt0 : 0 < s by rewrite /s /std_max; case: ifP => // h; apply: lt_trans h.
have s0 : s%:C != 0 :> C by rewrite rc_eq0 gt_eqF.
rewrite /mat_div (negbTE s0).
have [wR eR gR] := @scalar_opP _ (fun v => [seq x / s%:C | x <- v]) (fun x => x / s%:C) _ _ _ w (fun _ => erefl).
set R0 := scalar_op _ _ _ _ in wR eR gR *.
have [wI eI _ gI] := identityP (rowmaj A) (junk A) rows rows.
set I0 := identity _ _ _ _ in wI eI gI *.
pose al := anti (get R0 0 0) * (clength (get_col rows R0 0))%:C.
pose P k (st : mat C * mat C) := [/\ wf rows cols st.1, wf rows rows st.2 & if k == 0%N then st.1 = R0 else get st.1 0 0 = al].
have [] := @for_opt_ind0 _ P False cols (qr_step_c tmin tmax rows cols) (R0, I0).
- by split.
- move=> k [Rk QT] kc [/= w1 w2 hk].
  have [v ev [sv v1 v0 vk]] := @householder_cP _ tmin tmax tmin0 tmm _ _ _ _ w1 kc (leq_trans kc cr); rewrite ev.
  have [w1' e1' g1 m1] := reflect_cP (rowmaj Rk) (junk Rk) w1 sv r0.
  have [w2' e2' _ m2] := reflect_cP (rowmaj Rk) (junk Rk) w2 sv r0.
  split=> //=; rewrite g1 //; case: k hk kc ev v0 {vk} => [|k] /= hk kc ev v0.
    have [v' ev' [_ h]] := householder_first w1 c0 r0; move: ev'; rewrite ev => -[evv]; rewrite -evv in h.
    by rewrite h /al hk.
  by rewrite v0 // mulr0 mul0r subr0.
case: for_opt => [[R1 QT]|] H1 H2; last by case: H2.
have {H1 H2} [/= w1 w2 hal] := H1 _ erefl; rewrite (gtn_eqF c0) in hal.
move=> [_ <-].
have [w3 [e3 g3]] := zero_lower_cP w1 cr.
have [w4 e4 g4] := extractP cols cols 0 0 (zero_lower_c cols R1).
have [w7 e7 g7] := @scalar_opP _ (fun v => vscalel s%:C v) (fun x => s%:C * x) _ _ _ w4 (fun _ => erefl).
rewrite g7 // g4 // !addn0 g3 // hal /al.
have -> : anti (get R0 0 0) = anti (get A 0 0).
  by rewrite gR // anti_divr.
have -> : clength (get_col rows R0 0) = clength (get_col rows A 0) / s.
  apply/eqP; rewrite -(@eqr_expn2 _ 2) ?clength_ge0 ?divr_ge0 ?clength_ge0 ?(ltW s_gt0) //; apply/eqP; apply: complexI.
  rewrite (@clength_sum _ rows) ?(size_get_col wR) // exprMn [in RHS]rcM (@clength_sum _ rows) ?(size_get_col w) // mulr_suml.
  apply: eq_bigr => i _; rewrite (nth_get_col _ wR) // (nth_get_col _ w) // gR // conjM conjc_inv conj_rc [in RHS]rcX rcV.
  by rewrite mulrACA expr2.
by rewrite rcM rcV mulrCA [s%:C * _]mulrCA mulfV ?mulr1.
Qed.
End First.
