(* Canonical mathcomp structures on Coq's real numbers, up to rcfType.
   No model of the library here: this file only lets the exact-arithmetic model, which is
   generic in the scalar type, be instantiated at the reals (needed for trigonometry).
   Uses only axioms of Coq.Reals and Coq.Logic (decidable order of R and epsilon). *)
From Coq Require Import Reals Lra ClassicalEpsilon FunctionalExtensionality ProofIrrelevance.
From mathcomp Require Import all_ssreflect all_algebra.
Set Implicit Arguments. Unset Strict Implicit. Unset Printing Implicit Defensive.
Import GRing.Theory Num.Theory.
Local Open Scope R_scope.

Definition eqr (r1 r2 : R) : bool := if Req_EM_T r1 r2 is left _ then true else false.

Lemma eqrP : Equality.axiom eqr.
Proof. by move=> r1 r2; rewrite /eqr; case: Req_EM_T => H; constructor. Qed.

Canonical R_eqMixin := EqMixin eqrP.
Canonical R_eqType := Eval hnf in EqType R R_eqMixin.

Definition pickR (P : pred R) (n : nat) :=
  let x := epsilon (inhabits R0) P in if P x then Some x else None.

Fact pickR_some P n x : pickR P n = Some x -> P x.
Proof. by rewrite /pickR; case: (boolP (P _)) => // Px [<-]. Qed.

Fact pickR_ex (P : pred R) : (exists x : R, P x) -> exists n, pickR P n.
Proof. by rewrite /pickR; move=> /(epsilon_spec (inhabits R0)) ->; exists 0%N. Qed.

Fact pickR_ext (P Q : pred R) : P =1 Q -> pickR P =1 pickR Q.
Proof.
move=> PEQ n; rewrite /pickR; set u := epsilon _ _; set v := epsilon _ _.
suff->: u = v by rewrite PEQ.
by congr epsilon; apply: functional_extensionality=> x; rewrite PEQ.
Qed.

Definition R_choiceMixin : choiceMixin R := Choice.Mixin pickR_some pickR_ex pickR_ext.
Canonical R_choiceType := Eval hnf in ChoiceType R R_choiceMixin.

Fact RplusA : associative Rplus. Proof. by move=> *; rewrite Rplus_assoc. Qed.
Definition R_zmodMixin := ZmodMixin RplusA Rplus_comm Rplus_0_l Rplus_opp_l.
Canonical R_zmodType := Eval hnf in ZmodType R R_zmodMixin.

Fact RmultA : associative Rmult. Proof. by move=> *; rewrite Rmult_assoc. Qed.
Fact R1_neq_0 : R1 != R0. Proof. by apply/eqP/R1_neq_R0. Qed.
Definition R_ringMixin :=
  RingMixin RmultA Rmult_1_l Rmult_1_r Rmult_plus_distr_r Rmult_plus_distr_l R1_neq_0.
Canonical R_ringType := Eval hnf in RingType R R_ringMixin.
Canonical R_comRingType := Eval hnf in ComRingType R Rmult_comm.

Definition Rinvx r := if r != 0 then / r else r.
Definition unit_R r := r != 0.

Lemma RmultRinvx : {in unit_R, left_inverse R1 Rinvx Rmult}.
Proof.
move=> r; rewrite -topredE /unit_R /Rinvx => /= rNZ.
by rewrite rNZ Rinv_l //; apply/eqP.
Qed.
Lemma RinvxRmult : {in unit_R, right_inverse R1 Rinvx Rmult}.
Proof.
move=> r; rewrite -topredE /unit_R /Rinvx => /= rNZ.
by rewrite rNZ Rinv_r //; apply/eqP.
Qed.
Lemma intro_unit_R x y : y * x = R1 /\ x * y = R1 -> unit_R x.
Proof.
move=> [yxE1 xyE1]; apply/eqP=> xZ.
by case/eqP: R1_neq_0; rewrite -yxE1 xZ Rmult_0_r.
Qed.
Lemma Rinvx_out : {in predC unit_R, Rinvx =1 id}.
Proof. by move=> x; rewrite inE /= /Rinvx -if_neg => ->. Qed.

Definition R_unitRingMixin := UnitRingMixin RmultRinvx RinvxRmult intro_unit_R Rinvx_out.
Canonical R_unitRing := Eval hnf in UnitRingType R R_unitRingMixin.
Canonical R_comUnitRingType := Eval hnf in [comUnitRingType of R].

Lemma R_idomainMixin x y : x * y = R0 -> (x == R0) || (y == R0).
Proof.
(do 2 case: (boolP (_ == _))=> // /eqP)=> yNZ xNZ xyZ.
by case: (Rmult_integral_contrapositive_currified _ _ xNZ yNZ).
Qed.
Canonical R_idomainType := Eval hnf in IdomainType R R_idomainMixin.
Lemma R_fieldMixin : GRing.Field.mixin_of [unitRingType of R].
Proof. done. Qed.
Definition R_fieldIdomainMixin := FieldIdomainMixin R_fieldMixin.
Canonical R_fieldType := FieldType R R_fieldMixin.

Definition Rleb r1 r2 := if Rle_dec r1 r2 is left _ then true else false.
Definition Rltb r1 r2 := Rleb r1 r2 && (r1 != r2).
Lemma RlebP r1 r2 : reflect (r1 <= r2) (Rleb r1 r2).
Proof. by rewrite /Rleb; apply: (iffP idP); case: Rle_dec. Qed.
Lemma RltbP r1 r2 : reflect (r1 < r2) (Rltb r1 r2).
Proof.
rewrite /Rltb; apply: (iffP andP) => [[/RlebP H /eqP H'] | H]; first lra.
by split; [apply/RlebP; lra | apply/eqP; lra].
Qed.

Lemma Rleb_add x y : Rleb 0 x -> Rleb 0 y -> Rleb 0 (x + y).
Proof. by move=> /RlebP ? /RlebP ?; apply/RlebP; lra. Qed.
Lemma Rleb_mul x y : Rleb 0 x -> Rleb 0 y -> Rleb 0 (x * y).
Proof. by move=> /RlebP ? /RlebP ?; apply/RlebP; apply: Rmult_le_pos. Qed.
Lemma Rleb_anti x : Rleb 0 x -> Rleb x 0 -> x = 0.
Proof. by move=> /RlebP ? /RlebP ?; lra. Qed.
Lemma Rleb_sub x y : Rleb 0 (y - x)%R = Rleb x y.
Proof.
change (y - x)%R with (Rplus y (Ropp x)).
by apply/RlebP/RlebP => ?; lra.
Qed.
Lemma Rleb_total x : Rleb 0 x || Rleb x 0.
Proof. by apply/orP; case: (Rle_dec 0 x) => H; [left|right]; apply/RlebP; lra. Qed.
Lemma Rleb_norm x : Rleb 0 x -> Rabs x = x.
Proof. by move=> /RlebP H; apply: Rabs_pos_eq. Qed.
Lemma Rltb_def x y : Rltb x y = (y != x) && Rleb x y.
Proof. by rewrite /Rltb andbC eq_sym. Qed.

Definition R_realMixin : realLeMixin R_idomainType :=
  @RealLeMixin R_idomainType Rleb Rltb Rabs Rleb_add Rleb_mul Rleb_anti Rleb_sub
     Rleb_total Rabs_Ropp Rleb_norm Rltb_def.

Canonical R_porderType := POrderType ring_display R R_realMixin.
Canonical R_latticeType := LatticeType R R_realMixin.
Canonical R_distrLatticeType := DistrLatticeType R R_realMixin.
Canonical R_orderType := OrderType R R_realMixin.
Canonical R_numDomainType := NumDomainType R R_realMixin.
Canonical R_normedZmodType := NormedZmodType R R R_realMixin.
Canonical R_numFieldType := [numFieldType of R].
Canonical R_realDomainType := [realDomainType of R].
Canonical R_realFieldType := [realFieldType of R].

(* Equations between the generic operations and those of Coq.Reals. *)
Lemma RplusE (x y : R) : Rplus x y = (x + y)%R. Proof. by []. Qed.
Lemma RmultE (x y : R) : Rmult x y = GRing.mul x y. Proof. by []. Qed.
Lemma RoppE (x : R) : Ropp x = GRing.opp x. Proof. by []. Qed.
Lemma RinvE (x : R) : x <> 0 -> GRing.inv x = Rinv x.
Proof. by move=> /eqP H; rewrite /GRing.inv /= /Rinvx H. Qed.
Lemma RleE (x y : R) : reflect (Rle x y) (Order.le x y). Proof. exact: RlebP. Qed.
Lemma RltE (x y : R) : reflect (Rlt x y) (Order.lt x y). Proof. exact: RltbP. Qed.
Lemma RnormE (x : R) : Rabs x = Num.norm x. Proof. by []. Qed.

Lemma continuity_horner (p : {poly R}) : continuity (fun x => horner p x).
Proof.
elim/poly_ind: p => [|p c IH].
  have -> : (fun x => horner 0%R x) = (fun _ => 0).
    by apply: functional_extensionality => x; rewrite horner0.
  by apply: continuity_const.
have -> : (fun x => horner (p * 'X + c%:P)%R x) = (fun x => horner p x * x + c).
  by apply: functional_extensionality => x; rewrite hornerD hornerM hornerX hornerC.
apply: continuity_plus; last by apply: continuity_const.
by apply: continuity_mult => //; apply: derivable_continuous; apply: derivable_id.
Qed.

Lemma R_rcfMixin : Num.real_closed_axiom R_numDomainType.
Proof.
move=> p a b /RleE ab /andP[/RleE pa /RleE pb].
have H : (fun x => horner p x) a * (fun x => horner p x) b <= 0.
  rewrite /=; move: pa pb; set u := horner p a; set v := horner p b.
  change (GRing.zero _) with R0; nra.
have [z [[az zb] pz]] := IVT_cor (fun x => horner p x) a b (continuity_horner p) ab H.
exists z; first by apply/andP; split; apply/RleE.
by apply/rootP.
Qed.
Canonical R_rcfType := RcfType R R_rcfMixin.
