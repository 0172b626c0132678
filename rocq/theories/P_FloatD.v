(* Error bounds: compensated summation and Kahan's algorithm for ab + cd *)
From Coq Require Import ZArith List Reals Lia Lra.
From Flocq Require Import Core Plus_error Mult_error Relative IEEE754.BinarySingleNaN.
From Verif Require Import M_Float P_Float.
Import ListNotations.
Local Open Scope R_scope.

Section Kahan.
Variables emin prec : Z.
Context (prec_gt_0_ : Prec_gt_0 prec).
Hypothesis prec1 : (1 < prec)%Z.
Notation fexp := (FLT_exp emin prec).
Notation RN := (round radix2 fexp ZnearestE).
Notation format := (generic_format radix2 fexp).
Notation bp := (bpow radix2).
Notation u := (bpow radix2 (- prec)).
Instance fexp_valid' : Valid_exp fexp.
Proof. apply FLT_exp_valid; exact prec_gt_0_. Qed.

(* multiples of a power of two that are small enough are representable *)
Lemma format_multiple (n k : Z) : (emin <= k)%Z -> Rabs (IZR n * bp k) <= bp (prec + k) -> format (IZR n * bp k).
Proof.
intros hk h; destruct (Z.eq_dec (Z.abs n) (2 ^ prec)) as [e|ne].
- assert (e' : IZR n * bp k = bp (prec + k) \/ IZR n * bp k = - bp (prec + k)).
  { assert (p2 : IZR (2 ^ prec) = bp prec) by (rewrite <- (IZR_Zpower radix2) by lia; reflexivity).
    rewrite bpow_plus, <- p2, <- e; destruct (Z.abs_spec n) as [[_ ->]|[_ ->]]; [left; ring|right; rewrite opp_IZR; ring]. }
  assert (f : format (bp (prec + k))).
  { apply generic_format_bpow; unfold FLT_exp; lia. }
  destruct e' as [-> | ->]; [exact f|apply generic_format_opp; exact f].
- apply generic_format_FLT; exists (Float radix2 n k); [reflexivity| |exact hk]; simpl.
  assert (l : (Z.abs n <= 2 ^ prec)%Z).
  { apply le_IZR; rewrite abs_IZR; apply (Rmult_le_reg_r (bp k)); [apply bpow_gt_0|].
    rewrite <- (Rabs_pos_eq (bp k)) at 1 by apply bpow_ge_0; rewrite <- Rabs_mult; apply Rle_trans with (1 := h); right.
    rewrite bpow_plus; f_equal; rewrite <- (IZR_Zpower radix2) by lia; reflexivity. }
  change (Z.abs n < 2 ^ prec)%Z; lia.
Qed.
Lemma format_mant (x : R) : format x -> exists n, x = IZR n * bp (cexp radix2 fexp x) /\ (Z.abs n <= 2 ^ prec - 1)%Z.
Proof.
intro f; exists (Ztrunc (scaled_mantissa radix2 fexp x)); split; [exact f|].
destruct (Req_dec x 0) as [->|x0].
{ rewrite scaled_mantissa_0, Ztrunc_IZR; simpl; assert (0 < 2 ^ prec)%Z by (apply Z.pow_pos_nonneg; lia); lia. }
cut (Z.abs (Ztrunc (scaled_mantissa radix2 fexp x)) < 2 ^ prec)%Z; [lia|].
apply lt_IZR; rewrite abs_IZR, <- scaled_mantissa_generic by exact f.
apply Rlt_le_trans with (1 := scaled_mantissa_lt_bpow radix2 fexp x).
assert (e : IZR (2 ^ prec) = bp prec) by (rewrite <- (IZR_Zpower radix2) by lia; reflexivity); rewrite e; apply bpow_le.
unfold cexp, FLT_exp; lia.
Qed.
Lemma add_err x y : format x -> format y -> Rabs (RN (x + y) - (x + y)) <= u / (1 + u) * Rabs (x + y).
Proof.
intros fx fy; destruct (FLT_plus_error_N_ex radix2 emin prec (fun t => negb (Z.even t)) x y fx fy) as [eps [h ->]].
replace ((x + y) * (1 + eps) - (x + y)) with (eps * (x + y)) by ring; rewrite Rabs_mult; apply Rmult_le_compat_r; [apply Rabs_pos|].
replace (u_ro radix2 prec) with u in h; [exact h|].
unfold u_ro; rewrite bpow_plus; simpl (bp 1); lra.
Qed.
Lemma u_pos : 0 < u. Proof. apply bpow_gt_0. Qed.
Lemma u_le : u <= / 4.
Proof. replace (/ 4) with (bp (-2)) by (simpl; lra); apply bpow_le; lia. Qed.
Lemma u_frac : u / (1 + u) <= u.
Proof.
assert (p := u_pos); apply (Rmult_le_reg_r (1 + u)); [lra|]; unfold Rdiv; rewrite Rmult_assoc, Rinv_l by lra; nra.
Qed.

(* the exponent of the product of two numbers *)
Lemma product_mant a b : format a -> format b -> a * b <> 0 -> bp (emin + 2 * prec - 1) <= Rabs (a * b) ->
  exists n k, a * b = IZR n * bp k /\ (emin <= k)%Z /\ Rabs (a * b) <= (bp prec - 1) * (bp prec - 1) * bp k.
Proof.
intros fa fb n0 h; destruct (format_mant _ fa) as [ma [ea la]]; destruct (format_mant _ fb) as [mb [eb lb]].
set (i := cexp radix2 fexp a) in *; set (j := cexp radix2 fexp b) in *; exists (ma * mb)%Z, (i + j)%Z.
assert (p2 : bp prec = IZR (2 ^ prec)) by (rewrite <- (IZR_Zpower radix2) by lia; reflexivity).
assert (e : a * b = IZR (ma * mb) * bp (i + j)) by (rewrite mult_IZR, bpow_plus, ea, eb at 1; ring).
assert (l : Rabs (a * b) <= (bp prec - 1) * (bp prec - 1) * bp (i + j)).
{ rewrite e, Rabs_mult, (Rabs_pos_eq (bp _)) by apply bpow_ge_0; apply Rmult_le_compat_r; [apply bpow_ge_0|].
  rewrite mult_IZR, Rabs_mult, p2, <- !abs_IZR; rewrite <- minus_IZR; apply Rmult_le_compat; try (apply IZR_le; lia). }
repeat split; [exact e| |exact l].
cut (emin + 2 * prec - 1 < 2 * prec + (i + j))%Z; [lia|]; apply (lt_bpow radix2).
apply Rle_lt_trans with (1 := h); apply Rle_lt_trans with (1 := l).
replace (2 * prec + (i + j))%Z with (prec + prec + (i + j))%Z by ring; rewrite (bpow_plus _ (prec + prec)), (bpow_plus _ prec prec).
apply Rmult_lt_compat_r; [apply bpow_gt_0|].
assert (1 < bp prec) by (apply (bpow_lt radix2 0); lia); nra.
Qed.

Theorem kahan_error (a b c d : R) : format a -> format b -> format c -> format d ->
  (a * b <> 0 -> bp (emin + 2 * prec - 1) <= Rabs (a * b)) -> (d * c <> 0 -> bp (emin + 2 * prec - 1) <= Rabs (d * c)) ->
  let w := RN (d * c) in
  let e := d * c - w in
  let f := RN (a * b + w) in
  let x := a * b + d * c in
  format e /\ Rabs (RN (f + e) - x) <= 2 * u * Rabs x.
Proof.
intros fa fb fc fd nab ndc w e f x.
assert (fw : format w) by (apply generic_format_round; auto with typeclass_instances).
assert (ff : format f) by (apply generic_format_round; auto with typeclass_instances).
assert (fe : format e).
{ unfold e; replace (d * c - w) with (- (w - d * c)) by ring; apply generic_format_opp; apply mult_error_FLT; assumption || auto with typeclass_instances. }
split; [exact fe|].
assert (up := u_pos); assert (ul := u_le); assert (uf := u_frac); assert (x0 := Rabs_pos x).
set (y := a * b + w) in *; assert (exy : x = y + e) by (unfold x, y, e; ring).
(* y representable *)
assert (good : format y -> Rabs (RN (f + e) - x) <= 2 * u * Rabs x).
{ intro fy; assert (ey : f = y) by (apply round_generic; auto with typeclass_instances); rewrite ey, exy.
  apply Rle_trans with (1 := add_err y e fy fe); rewrite <- exy; nra. }
destruct (Req_dec (a * b) 0) as [z|nz].
{ apply good; unfold y; rewrite z, Rplus_0_l; exact fw. }
specialize (nab nz).
destruct (Req_dec (d * c) 0) as [z|nz'].
{ assert (w0 : w = 0) by (unfold w; rewrite z; apply round_0; auto with typeclass_instances).
  assert (e0 : e = 0) by (unfold e; rewrite w0, z; ring).
  rewrite e0, Rplus_0_r, (round_generic _ _ _ f ff); unfold f; replace x with y by (rewrite exy, e0; ring).
  unfold y; rewrite w0, Rplus_0_r.
  apply Rle_trans with (/ 2 * bp (- prec + 1) * Rabs (a * b)).
  - apply relative_error_N_FLT; [exact prec_gt_0_|]; apply Rle_trans with (2 := nab); apply bpow_le; lia.
  - rewrite bpow_plus; simpl (bp 1); assert (p := Rabs_pos (a * b)); nra. }
specialize (ndc nz').
destruct (product_mant a b fa fb nz nab) as [nk [k [eab [hk lab]]]].
destruct (product_mant d c fd fc nz' ndc) as [nj [j [edc [hj ldc]]]].
assert (P1 : 1 < bp prec) by (apply (bpow_lt radix2 0); lia).
assert (P4 : 4 <= bp prec) by (replace 4 with (bp 2) by (simpl; lra); apply bpow_le; lia).
(* the exponent of w *)
assert (lw : bp (emin + 2 * prec - 1) <= Rabs w).
{ apply abs_round_ge_generic; auto with typeclass_instances; apply generic_format_bpow; unfold FLT_exp; lia. }
assert (w0 : w <> 0) by (intro z; rewrite z, Rabs_R0 in lw; generalize (bpow_gt_0 radix2 (emin + 2 * prec - 1)); lra).
assert (lm := mag_gt_bpow radix2 w _ lw).
set (ew := cexp radix2 fexp w); assert (eew : ew = (mag radix2 w - prec)%Z) by (unfold ew, cexp, FLT_exp; lia).
assert (lw2 : bp (ew + prec - 1) <= Rabs w) by (rewrite eew; replace (mag radix2 w - prec + prec - 1)%Z with (mag radix2 w - 1)%Z by ring; apply bpow_mag_le; exact w0).
assert (hew : (ew <= prec + j)%Z).
{ cut (mag radix2 w <= 2 * prec + j)%Z; [lia|]; apply mag_le_bpow; [exact w0|].
  assert (fb' : format ((bp prec - 1) * bp (prec + j))).
  { replace (bp prec - 1) with (IZR (2 ^ prec - 1)) by (rewrite minus_IZR; f_equal; rewrite <- (IZR_Zpower radix2) by lia; reflexivity).
    apply format_multiple; [lia|]; rewrite Rabs_mult, (Rabs_pos_eq (bp _)) by apply bpow_ge_0.
    rewrite <- abs_IZR, bpow_plus, (bpow_plus _ prec (prec + j)), (bpow_plus _ prec j).
    apply Rmult_le_compat_r; [apply Rmult_le_pos; apply bpow_ge_0|].
    rewrite <- (IZR_Zpower radix2) by lia; apply IZR_le; change (Zpower radix2 prec) with (2 ^ prec)%Z.
    assert (0 < 2 ^ prec)%Z by (apply Z.pow_pos_nonneg; lia); lia. }
  apply Rle_lt_trans with ((bp prec - 1) * bp (prec + j)).
  - apply abs_round_le_generic; auto with typeclass_instances.
    apply Rle_trans with (1 := ldc); rewrite bpow_plus.
    assert (q := bpow_gt_0 radix2 j); nra.
  - replace (2 * prec + j)%Z with (prec + (prec + j))%Z by ring; rewrite (bpow_plus _ prec (prec + j)).
    apply Rmult_lt_compat_r; [apply bpow_gt_0|lra]. }
assert (le : Rabs e <= bp (ew - 1)).
{ unfold e; rewrite Rabs_minus_sym; unfold w; apply Rle_trans with (1 := error_le_half_ulp_round _ _ _ _); fold w.
  rewrite ulp_neq_0 by exact w0; fold ew; unfold Zminus; rewrite bpow_plus; simpl (bp (- (1))); lra. }
destruct (format_mant _ fw) as [mw [emw _]]; fold ew in emw.
assert (hew0 : (emin <= ew)%Z) by (unfold ew, cexp, FLT_exp; lia).
(* y is a multiple of the smaller unit *)
set (m0 := Z.min k ew).
assert (ym : exists n, y = IZR n * bp m0).
{ exists (nk * 2 ^ (k - m0) + mw * 2 ^ (ew - m0))%Z; unfold y; rewrite eab, emw at 1; rewrite plus_IZR, !mult_IZR.
  assert (pw : forall z, (m0 <= z)%Z -> bp z = IZR (2 ^ (z - m0)) * bp m0).
  { intros z hz; replace (IZR (2 ^ (z - m0))) with (bp (z - m0)) by (rewrite <- (IZR_Zpower radix2) by lia; reflexivity).
    rewrite <- bpow_plus; f_equal; ring. }
  rewrite (pw k), (pw ew) by lia; ring. }
destruct (Rle_or_lt (Rabs y) (bp (prec + m0))) as [small|big].
{ apply good; destruct ym as [n ->]; apply format_multiple; [lia|exact small]. }
clear good; assert (y0 : y <> 0) by (intro z; rewrite z, Rabs_R0 in big; generalize (bpow_gt_0 radix2 (prec + m0)); lra).
set (h := (mag radix2 y - 1 - prec)%Z).
assert (ly : bp (prec + h) <= Rabs y) by (replace (prec + h)%Z with (mag radix2 y - 1)%Z by (unfold h; ring); apply bpow_mag_le; exact y0).
assert (gy : Rabs y < bp (prec + h + 1)) by (replace (prec + h + 1)%Z with (mag radix2 y : Z) by (unfold h; ring); apply bpow_mag_gt).
assert (hm : (m0 <= h)%Z).
{ cut (prec + m0 < prec + h + 1)%Z; [lia|]; apply (lt_bpow radix2); lra. }
assert (ce : cexp radix2 fexp y = (h + 1)%Z) by (unfold cexp, FLT_exp, h in *; lia).
set (H := bp h); set (M := bp (prec + h)); fold M in ly.
assert (uM : u * M = H) by (unfold H, M; rewrite <- bpow_plus; f_equal; ring).
assert (H0 : 0 < H) by apply bpow_gt_0; assert (M0 : 0 < M) by apply bpow_gt_0.
assert (eps : Rabs (f - y) <= H).
{ apply Rle_trans with (1 := error_le_half_ulp _ _ _ _); rewrite ulp_neq_0, ce by exact y0; rewrite bpow_plus; simpl (bp 1); unfold H; lra. }
assert (mono : forall t, 0 <= t -> t * M <= Rabs x -> t * H <= u * Rabs x) by (intros t ht hx; rewrite <- uM; nra).
assert (tri : Rabs y <= Rabs x + Rabs e).
{ replace y with (x + - e) by (rewrite exy; ring); rewrite <- (Rabs_Ropp e); apply Rabs_triang. }
assert (fin : forall A, Rabs (RN (f + e) - (f + e)) <= A -> Rabs (RN (f + e) - x) <= A + Rabs (f - y)).
{ intros A hA; replace (RN (f + e) - x) with (RN (f + e) - (f + e) + (f - y)) by (rewrite exy; ring).
  apply Rle_trans with (1 := Rabs_triang _ _); lra. }
destruct (Rle_or_lt M (Rabs x)) as [bigx|smallx].
{ assert (hx : H <= u * Rabs x) by (specialize (mono 1); lra).
  apply Rle_trans with (1 := fin _ (add_err f e ff fe)).
  assert (l : Rabs (f + e) <= (1 + u) * Rabs x).
  { replace (f + e) with (x + (f - y)) by (rewrite exy; ring); apply Rle_trans with (1 := Rabs_triang _ _); lra. }
  assert (l2 : u / (1 + u) * Rabs (f + e) <= u * Rabs x).
  { apply Rle_trans with (u / (1 + u) * ((1 + u) * Rabs x)).
    - apply Rmult_le_compat_l; [|exact l]; apply Rlt_le, Rdiv_lt_0_compat; lra.
    - right; field; lra. }
  lra. }
assert (exs : Rabs (f + e) <= Rabs x + H).
{ replace (f + e) with (x + (f - y)) by (rewrite exy; ring); apply Rle_trans with (1 := Rabs_triang _ _); lra. }
destruct (Z_le_gt_dec h j) as [hjh|hjh].
- (* the last addition is exact *)
  assert (em : exists n, e = IZR n * bp j).
  { destruct (round_repr_same_exp radix2 fexp ZnearestE nj j) as [n' en']; exists (nj - n')%Z.
    unfold e, w; rewrite edc; change (IZR nj * bp j) with (F2R (Float radix2 nj j)); rewrite en'; unfold F2R; simpl; rewrite minus_IZR; ring. }
  assert (fm : exists n, f + e = IZR n * bp h).
  { destruct em as [n1 e1].
    set (z := ZnearestE (scaled_mantissa radix2 fexp y)).
    exists (z * 2 + n1 * 2 ^ (j - h))%Z; rewrite e1.
    assert (ez : f = IZR z * bp (h + 1)) by (unfold f, round; fold z; rewrite ce; reflexivity); rewrite ez.
    assert (pw : bp j = IZR (2 ^ (j - h)) * bp h).
    { replace (IZR (2 ^ (j - h))) with (bp (j - h)) by (rewrite <- (IZR_Zpower radix2) by lia; reflexivity).
      rewrite <- bpow_plus; f_equal; ring. }
    rewrite plus_IZR, !mult_IZR, pw, bpow_plus; change (bp 1) with 2; ring. }
  assert (ex : format (f + e)).
  { destruct fm as [n en]; rewrite en in *; apply format_multiple; [lia|].
    rewrite Rabs_mult, (Rabs_pos_eq (bp h)), <- abs_IZR in * by apply bpow_ge_0; rewrite bpow_plus; apply Rmult_le_compat_r; [apply bpow_ge_0|].
    replace (bp prec) with (IZR (2 ^ prec)) by (rewrite <- (IZR_Zpower radix2) by lia; reflexivity); apply IZR_le.
    cut (Z.abs n < 2 ^ prec + 1)%Z; [lia|]; apply lt_IZR; rewrite plus_IZR.
    replace (IZR (2 ^ prec)) with (bp prec) by (rewrite <- (IZR_Zpower radix2) by lia; reflexivity).
    apply (Rmult_lt_reg_r H); [exact H0|]; fold H in exs; unfold M in smallx; rewrite bpow_plus in smallx; fold H in smallx; lra. }
  assert (r : Rabs (RN (f + e) - x) <= H).
  { apply Rle_trans with (1 := fin 0 ltac:(rewrite round_generic; auto with typeclass_instances; right; replace (f + e - (f + e)) with 0 by ring; apply Rabs_R0)); lra. }
  assert (half : / 2 * M <= Rabs x); [|specialize (mono (/ 2)); lra].
  assert (em1 : forall z, bp (z - 1) = / 2 * bp z) by (intro z; unfold Zminus; rewrite bpow_plus; simpl (bp (- (1))); lra).
  destruct (Z_le_gt_dec ew (prec + h)) as [l|g].
  + assert (l2 : bp ew <= M) by (apply bpow_le; exact l); rewrite em1 in le; lra.
  + assert (g2 : (ew > k)%Z).
    { destruct (Z_le_gt_dec ew k) as [l'|g']; [exfalso|exact g']; replace m0 with ew in big by lia.
      assert (bp (prec + h + 1) <= bp (prec + ew)) by (apply bpow_le; lia); lra. }
    assert (tw : Rabs w <= Rabs y + Rabs (a * b)).
    { replace w with (y + - (a * b)) by (unfold y; ring); rewrite <- (Rabs_Ropp (a * b)); apply Rabs_triang. }
    replace m0 with k in * by lia.
    destruct (Z_le_gt_dec (prec + k + 2) ew) as [l3|g3].
    * exfalso; assert (l4 : bp (2 * prec + k) <= bp (ew + prec - 1 - 1)) by (apply bpow_le; lia).
      assert (l5 : bp (prec + h + 1) <= bp (ew + prec - 1 - 1)) by (apply bpow_le; lia).
      rewrite (em1 (ew + prec - 1)%Z) in l4, l5.
      assert (l6 : Rabs (a * b) < bp (2 * prec + k)).
      { apply Rle_lt_trans with (1 := lab); replace (2 * prec + k)%Z with (prec + prec + k)%Z by ring.
        rewrite (bpow_plus _ (prec + prec)), (bpow_plus _ prec prec); apply Rmult_lt_compat_r; [apply bpow_gt_0|nra]. }
      lra.
    * assert (eew2 : ew = (prec + h + 1)%Z) by lia; assert (ehk : h = k) by lia.
      assert (e1 : bp (ew + prec - 1) = bp prec * M) by (unfold M; rewrite <- bpow_plus; f_equal; lia).
      assert (e2 : bp (ew - 1) = M) by (unfold M; f_equal; lia).
      assert (e3 : bp k = H) by (unfold H; f_equal; lia).
      assert (e4 : M = bp prec * H) by (unfold M, H; rewrite bpow_plus; reflexivity).
      rewrite e1 in lw2; rewrite e2 in le; rewrite e3 in lab; rewrite e4 in *; nra.
- assert (le4 : Rabs e <= / 4 * M).
  { apply Rle_trans with (1 := le); replace (/ 4) with (bp (-2)) by (simpl; lra); unfold M; rewrite <- bpow_plus; apply bpow_le; lia. }
  assert (x34 : 3 / 4 * M <= Rabs x) by lra.
  assert (mx := mono (3 / 4) ltac:(lra) x34).
  assert (near : exists g, format g /\ Rabs g = M /\ Rabs (g - (f + e)) = Rabs (Rabs (f + e) - M)).
  { assert (fM : format M) by (apply generic_format_bpow; unfold FLT_exp; lia).
    destruct (Rle_or_lt 0 (f + e)) as [s|s].
    - exists M; repeat split; [exact fM|apply Rabs_pos_eq; lra|]; rewrite (Rabs_pos_eq _ s), Rabs_minus_sym; reflexivity.
    - exists (- M); repeat split; [apply generic_format_opp; exact fM|rewrite Rabs_Ropp; apply Rabs_pos_eq; lra|].
      rewrite (Rabs_left _ s); f_equal; ring. }
  assert (N : forall g, format g -> Rabs (RN (f + e) - (f + e)) <= Rabs (g - (f + e))).
  { intros g fg; apply (round_N_pt radix2 fexp (fun t => negb (Z.even t)) (f + e)); exact fg. }
  destruct near as [g [fg [ag dg]]]; specialize (N g fg); rewrite dg in N.
  destruct (Rle_or_lt (Rabs (f + e)) M) as [l|gt].
  + assert (rr : Rabs (RN (f + e) - (f + e)) <= / 2 * H).
    { destruct l as [l|l].
      - apply Rle_trans with (1 := error_le_half_ulp _ _ _ _); apply Rmult_le_compat_l; [lra|].
        destruct (Req_dec (f + e) 0) as [z|nz0].
        + rewrite z, ulp_FLT_0; [|exact prec_gt_0_]; apply bpow_le; lia.
        + rewrite ulp_neq_0 by exact nz0; apply bpow_le; unfold cexp, FLT_exp.
          assert (mag radix2 (f + e) <= prec + h)%Z by (apply mag_le_bpow; assumption); lia.
      - apply Rle_trans with (1 := N); rewrite l; unfold Rminus; rewrite Rplus_opp_r, Rabs_R0; lra. }
    apply Rle_trans with (1 := fin _ rr); lra.
  + assert (rr : Rabs (RN (f + e) - (f + e)) <= Rabs (f + e) - M).
    { rewrite (Rabs_pos_eq (Rabs (f + e) - M)) in N by lra; exact N. }
    apply Rle_trans with (1 := fin _ rr).
    assert (q : u * Rabs x = H - u * (M - Rabs x)) by (rewrite <- uM; ring); nra.
Qed.
End Kahan.

Section Sums.
Variables prec emax : Z.
Context (prec_gt_0_ : Prec_gt_0 prec) (prec_lt_emax_ : Prec_lt_emax prec emax).
Hypothesis prec1 : (1 < prec)%Z.
Notation float := (binary_float prec emax).
Notation u := (bpow radix2 (- prec)).
Notation val := (@B2R prec emax).
Notation fin := (@is_finite prec emax).
Notation fadd := (fadd prec emax prec_gt_0_ prec_lt_emax_).
Notation fsub := (fsub prec emax prec_gt_0_ prec_lt_emax_).
Notation step := (sum_step prec emax prec_gt_0_ prec_lt_emax_).
Notation zero := (fzero prec emax).

Lemma fadd_commE (x y : float) : fin (fadd x y) = true -> fadd y x = fadd x y.
Proof.
intro h; destruct (fadd_comm prec emax _ _ x y h) as [h' e]; destruct (fadd_inv _ _ _ _ _ _ h) as [hx hy].
apply B2R_Bsign_inj; try assumption.
generalize (Bplus_correct prec emax _ _ mode_NE x y hx hy); destruct (Rlt_bool _ _); [intros [_ [_ h1]]|].
- generalize (Bplus_correct prec emax _ _ mode_NE y x hy hx); destruct (Rlt_bool _ _); [intros [_ [_ h2]]|].
  + unfold M_Float.fadd; rewrite h1, h2, Rplus_comm, Bool.andb_comm; reflexivity.
  + intros [h2 _]; apply not_finite_overflow in h2; unfold M_Float.fadd in h'; congruence.
- intros [h1 _]; apply not_finite_overflow in h1; unfold M_Float.fadd in h; congruence.
Qed.
(* one step: the compensation is increased by the exact error of the addition *)
Lemma stepP (sum comp x : float) : fin (fst (step (sum, comp) x)) = true ->
  fin sum = true /\ fin x = true /\ fst (step (sum, comp) x) = fadd sum x /\
  exists e, fin e = true /\ val e = val sum + val x - val (fadd sum x) /\ snd (step (sum, comp) x) = fadd comp e.
Proof.
unfold sum_step; simpl fst; intro ht; destruct (fadd_inv _ _ _ _ _ _ ht) as [hs hx]; split; [exact hs|split; [exact hx|split; [reflexivity|]]].
simpl snd; destruct (fgt _ _ _ _) eqn:g.
- apply (fgt_abs prec emax) in g; [|assumption..].
  destruct (neumaier_ok prec emax _ _ prec1 sum x (Rlt_le _ _ g) ht) as [h1 h2]; eexists; split; [exact h1|split; [exact h2|reflexivity]].
- assert (l : Rabs (val sum) <= Rabs (val x)).
  { apply Rnot_lt_le; intro l; apply (fgt_abs prec emax) in l; [congruence|assumption..]. }
  destruct (fadd_comm prec emax _ _ sum x ht) as [h' e'].
  (* the sum is the same number in either order *)
  assert (eq : fadd x sum = fadd sum x).
  { apply fadd_commE; exact ht. }
  destruct (neumaier_ok prec emax _ _ prec1 x sum l h') as [h1 h2]; rewrite eq in *.
  eexists; split; [exact h1|split; [rewrite h2; ring|reflexivity]].
Qed.

Definition rsum (v : list float) : R := fold_right (fun x s => val x + s) 0 v.
Definition rsum_abs (v : list float) : R := fold_right (fun x s => Rabs (val x) + s) 0 v.
Lemma rsum_snoc v x : rsum (v ++ [x]) = rsum v + val x.
Proof. induction v as [|y v IH]; simpl; [ring|]; unfold rsum in *; simpl; rewrite IH; ring. Qed.
Lemma rsum_abs_snoc v x : rsum_abs (v ++ [x]) = rsum_abs v + Rabs (val x).
Proof. induction v as [|y v IH]; simpl; [ring|]; unfold rsum_abs in *; simpl; rewrite IH; ring. Qed.
Lemma rsum_abs_pos v : 0 <= rsum_abs v.
Proof. induction v as [|y v IH]; [apply Rle_refl|]; unfold rsum_abs in *; simpl; generalize (Rabs_pos (val y)); lra. Qed.

(* the state of the loop after the elements of v *)
Lemma loopP (v : list float) t c : fold_left step v (zero, zero) = (t, c) -> fin t = true -> fin c = true ->
  let q := (1 + u) ^ Nat.pred (length v) in
  exists E B, val t + E = rsum v /\ Rabs E <= B /\ B <= (q - 1) * rsum_abs v /\ Rabs (val c - E) <= (q - 1) * B /\ Rabs (val t) <= q * rsum_abs v /\
    Forall (fun x => fin x = true) v.
Proof.
revert t c; induction v as [|x v IH] using rev_ind; intros t' c' e ht' hc'.
{ simpl in e; injection e as <- <-; simpl; exists 0, 0; rewrite !Rminus_0_r, Rabs_R0; repeat split; try lra; constructor. }
rewrite fold_left_app in e; destruct (fold_left step v (zero, zero)) as [t c] eqn:ev; simpl fold_left in e.
assert (e1 : fst (step (t, c) x) = t') by (change (step (t, c) x = (t', c')) in e; rewrite e; reflexivity).
assert (e2 : snd (step (t, c) x) = c') by (change (step (t, c) x = (t', c')) in e; rewrite e; reflexivity).
rewrite <- e1 in ht'; destruct (stepP t c x ht') as [ht [hx [e3 [d [hd [ed e4]]]]]]; rewrite e1 in ht'.
rewrite e1 in e3; rewrite e2 in e4.
assert (hc : fin c = true) by (rewrite e4 in hc'; apply (fadd_inv _ _ _ _ _ _ hc')).
specialize (IH t c eq_refl ht hc); cbv zeta in *; destruct IH as [E [B [h1 [h2 [h3 [h4 [h5 h6]]]]]]].
assert (up := bpow_gt_0 radix2 (- prec)).
rewrite rsum_snoc, rsum_abs_snoc.
assert (A0 := rsum_abs_pos v); assert (x0 := Rabs_pos (val x)).
assert (F : Forall (fun x => fin x = true) (v ++ [x])) by (apply Forall_app; split; [exact h6|constructor; [exact hx|constructor]]).
destruct v as [|y v].
- (* the first addition is exact *)
  simpl in ev; injection ev as <- <-; exists 0, 0; simpl length; simpl pow; simpl rsum; simpl rsum_abs.
  assert (et : val t' = val x).
  { rewrite e3, (fadd_val _ _ _ _ _ _ ltac:(rewrite <- e3; exact ht')); simpl val at 1; rewrite Rplus_0_l.
    apply round_generic; auto with typeclass_instances; apply format_val. }
  assert (ed0 : val d = 0) by (rewrite ed, <- e3, et; simpl val at 1; ring).
  assert (ec : val c' = 0).
  { rewrite e4, (fadd_val _ _ _ _ _ _ ltac:(rewrite <- e4; exact hc')), ed0; simpl val; rewrite Rplus_0_r; apply round_0; auto with typeclass_instances. }
  rewrite et, ec, !Rminus_0_r, Rabs_R0; repeat split; try lra; exact F.
- assert (en : Nat.pred (length ((y :: v) ++ [x])) = S (Nat.pred (length (y :: v)))) by (rewrite app_length; simpl; lia); rewrite en.
  rewrite <- tech_pow_Rmult; set (q := (1 + u) ^ Nat.pred (length (y :: v))) in *.
  assert (q1 : 1 <= q) by (apply pow_R1_Rle; lra).
  set (A := rsum_abs (y :: v)) in *.
  assert (se : Rabs (val t + val x) <= q * A + Rabs (val x)) by (apply Rle_trans with (1 := Rabs_triang _ _); lra).
  assert (vt : val t' = val t + val x - val d) by (rewrite ed, <- e3; ring).
  assert (ld : Rabs (val d) <= u * Rabs (val t + val x)).
  { rewrite ed, Rabs_minus_sym, (fadd_val _ _ _ _ _ _ ltac:(rewrite <- e3; exact ht')).
    apply add_error; [exact prec_gt_0_|apply format_val..]. }
  assert (ld2 : Rabs (val d) <= u * (q * (A + Rabs (val x)))).
  { apply Rle_trans with (1 := ld); apply Rmult_le_compat_l; [lra|]; nra. }
  exists (E + val d), (B + Rabs (val d)); repeat split.
  + rewrite vt, <- h1; ring.
  + apply Rle_trans with (1 := Rabs_triang _ _); lra.
  + assert (0 <= (q - 1) * Rabs (val x)) by (apply Rmult_le_pos; lra); lra.
  + assert (cd : Rabs (val c + val d) <= Rabs (val c - E) + (B + Rabs (val d))).
    { replace (val c + val d) with ((val c - E) + (E + val d)) by ring; apply Rle_trans with (1 := Rabs_triang _ _).
      apply Rplus_le_compat_l; apply Rle_trans with (1 := Rabs_triang _ _); lra. }
    assert (ce : Rabs (val c' - (val c + val d)) <= u * Rabs (val c + val d)).
    { rewrite e4, (fadd_val _ _ _ _ _ _ ltac:(rewrite <- e4; exact hc')); apply add_error; [exact prec_gt_0_|apply format_val..]. }
    replace (val c' - (E + val d)) with ((val c' - (val c + val d)) + (val c - E)) by ring.
    apply Rle_trans with (1 := Rabs_triang _ _).
    assert (d0 := Rabs_pos (val d)); assert (B0 : 0 <= B) by (apply Rle_trans with (2 := h2); apply Rabs_pos).
    assert (0 <= (q - 1) * Rabs (val d)) by (apply Rmult_le_pos; lra); assert (0 <= u * Rabs (val c - E)) by (apply Rmult_le_pos; [lra|apply Rabs_pos]).
    assert (u * Rabs (val c + val d) <= u * (Rabs (val c - E) + (B + Rabs (val d)))) by (apply Rmult_le_compat_l; lra).
    assert (u * Rabs (val c - E) <= u * ((q - 1) * B)) by (apply Rmult_le_compat_l; lra).
    assert (0 <= u * ((q - 1) * Rabs (val d))) by (apply Rmult_le_pos; lra); lra.
  + rewrite vt; unfold Rminus; apply Rle_trans with (1 := Rabs_triang _ _); rewrite Rabs_Ropp.
    assert (0 <= (q - 1) * Rabs (val x)) by (apply Rmult_le_pos; lra); lra.
  + exact F.
Qed.
End Sums.
