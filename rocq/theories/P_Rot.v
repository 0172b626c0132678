(* Lemmas about 3x3 rotation matrices *)
From mathcomp Require Import all_ssreflect all_algebra.
From mathcomp Require Import ring.
From Verif Require Import M_Vec M_Mat M_Quat M_Transform Spec SpecQuat P_Vec P_Mat P_Transform P_Quat.
Set Implicit Arguments. Unset Strict Implicit. Unset Printing Implicit Defensive.
Import Order.Theory GRing.Theory Num.Theory.
Local Open Scope ring_scope.

Section Fun.
Variable R : comRingType.
Implicit Types f g : nat -> nat -> R.
Definition fmx n f : 'M[R]_n := \matrix_(i, j) f i j.
Lemma det_fmx2 f : \det (fmx 2 f) = f 0%N 0%N * f 1%N 1%N - f 0%N 1%N * f 1%N 0%N.
Proof.
rewrite (expand_det_row _ ord0) !big_ord_recl big_ord0 /cofactor !det_mx11 !mxE /=.
by rewrite /bump /= !addn0 expr0 expr1 mul1r addr0 mulN1r mulrN.
Qed.
Definition sk (i a : nat) : nat := (a + (i <= a))%N.
Lemma minor_fmx n f i j : row' i (col' j (fmx n.+1 f)) = fmx n (fun a b => f (sk i a) (sk j b)).
Proof. by apply/matrixP => a b; rewrite !mxE /= /bump /sk [(_ + a)%N]addnC [(_ + b)%N]addnC. Qed.
Lemma cofactor_fmx3 f i j : cofactor (fmx 3 f) i j =
  (-1) ^+ (i + j) * (f (sk i 0) (sk j 0) * f (sk i 1) (sk j 1) - f (sk i 0) (sk j 1) * f (sk i 1) (sk j 0)).
Proof. by rewrite /cofactor minor_fmx det_fmx2. Qed.
Lemma det_fmx3 f : \det (fmx 3 f) =
  f 0%N 0%N * (f 1%N 1%N * f 2%N 2%N - f 1%N 2%N * f 2%N 1%N) - f 0%N 1%N * (f 1%N 0%N * f 2%N 2%N - f 1%N 2%N * f 2%N 0%N)
  + f 0%N 2%N * (f 1%N 0%N * f 2%N 1%N - f 1%N 1%N * f 2%N 0%N).
Proof.
rewrite (expand_det_row _ ord0) !big_ord_recl big_ord0 !cofactor_fmx3 !mxE /=.
rewrite /bump /= !addn0 !expr2 expr0 expr1 /sk /= addr0 !mulN1r opprK !mul1r mulrN.
by rewrite addrA.
Qed.
Lemma mul_fmx3 f g : fmx 3 f *m fmx 3 g = fmx 3 (fun i j => f i 0%N * g 0%N j + f i 1%N * g 1%N j + f i 2%N * g 2%N j).
Proof. by apply/matrixP => i j; rewrite !mxE !big_ord_recl big_ord0 !mxE /= addr0 addrA. Qed.
Lemma tr_fmx n f : (fmx n f)^T = fmx n (fun i j => f j i).
Proof. by apply/matrixP => i j; rewrite !mxE. Qed.
Lemma fmx_inj n f g : fmx n f = fmx n g -> forall i j, (i < n)%N -> (j < n)%N -> f i j = g i j.
Proof. by move=> /matrixP h i j hi hj; move: (h (Ordinal hi) (Ordinal hj)); rewrite !mxE. Qed.
Lemma one_fmx n : 1%:M = fmx n (fun i j => (i == j)%:R).
Proof. by apply/matrixP => i j; rewrite !mxE. Qed.
Lemma mxof_fmx n (m : mat R) : mxof n n m = fmx n (get m).
Proof. by []. Qed.

(* proper orthogonal matrices *)
Definition so n (A : 'M[R]_n) : Prop := A *m A^T = 1%:M /\ \det A = 1.
Lemma so_tr n (A : 'M[R]_n) : so A -> so A^T.
Proof. by move=> [o d]; split; rewrite ?det_tr // trmxK; apply: mulmx1C. Qed.

Lemma so3_adj f : so (fmx 3 f) -> forall i j : 'I_3, f i j = (-1) ^+ (i + j) * (f (sk i 0) (sk j 0) * f (sk i 1) (sk j 1) - f (sk i 0) (sk j 1) * f (sk i 1) (sk j 0)).
Proof.
move=> [o d] i j; have := mul_mx_adj (fmx 3 f); rewrite d => h.
have e : (fmx 3 f)^T = \adj (fmx 3 f) by rewrite -[LHS]mulmx1 -h mulmxA (mulmx1C o) mul1mx.
by move/matrixP: e => /(_ j i); rewrite !mxE cofactor_fmx3.
Qed.

Lemma comb4 (k l x1 x2 x3 x4 y1 y2 y3 y4 : R) : x1 = y1 -> x2 = y2 -> x3 = y3 -> x4 = y4 ->
  k * (x1 - y1) + k * (x2 - y2) + l * (x3 - y3) + l * (x4 - y4) = 0.
Proof. by move=> -> -> -> ->; rewrite !subrr !mulr0 !addr0. Qed.
(* the equations behind the conversion to a quaternion *)
Lemma so3_quat f : so (fmx 3 f) ->
  let a i j := f i j in let w := 1 + f 0%N 0%N + f 1%N 1%N + f 2%N 2%N in
  let p := f 2%N 1%N - f 1%N 2%N in let q := f 0%N 2%N - f 2%N 0%N in let r := f 1%N 0%N - f 0%N 1%N in
  [/\ [/\ q * q + r * r = 2%:R * w * (1 - f 0%N 0%N), p * p + r * r = 2%:R * w * (1 - f 1%N 1%N) &
          p * p + q * q = 2%:R * w * (1 - f 2%N 2%N)],
      p * q = w * (f 1%N 0%N + f 0%N 1%N), p * r = w * (f 2%N 0%N + f 0%N 2%N) & q * r = w * (f 2%N 1%N + f 1%N 2%N)].
Proof.
move=> sf; have ad (i j : nat) (hi : (i < 3)%N) (hj : (j < 3)%N) := so3_adj sf (Ordinal hi) (Ordinal hj).
have [o _] := sf; have o' := mulmx1C o.
move: o o'; rewrite tr_fmx !mul_fmx3 one_fmx => /fmx_inj o /fmx_inj o' /=.
have ro i j hi hj := o i j hi hj; have co i j hi hj := o' i j hi hj.
have := (ad 0%N 0%N isT isT); have := (ad 1%N 1%N isT isT); have := (ad 2%N 2%N isT isT).
have := (ad 0%N 1%N isT isT); have := (ad 1%N 0%N isT isT); have := (ad 0%N 2%N isT isT).
have := (ad 2%N 0%N isT isT); have := (ad 1%N 2%N isT isT); have := (ad 2%N 1%N isT isT).
have := (ro 0%N 0%N isT isT); have := (ro 1%N 1%N isT isT); have := (ro 2%N 2%N isT isT).
have := (ro 0%N 1%N isT isT); have := (ro 0%N 2%N isT isT); have := (ro 1%N 2%N isT isT).
have := (co 0%N 0%N isT isT); have := (co 1%N 1%N isT isT); have := (co 2%N 2%N isT isT).
have := (co 0%N 1%N isT isT); have := (co 0%N 2%N isT isT); have := (co 1%N 2%N isT isT).
rewrite /= /sk /= {ad o o' ro co sf}.
move: (f 0%N 0%N) (f 0%N 1%N) (f 0%N 2%N) (f 1%N 0%N) (f 1%N 1%N) (f 1%N 2%N) (f 2%N 0%N) (f 2%N 1%N) (f 2%N 2%N).
move=> a00 a01 a02 a10 a11 a12 a20 a21 a22 c12 c02 c01 c22 c11 c00 r12 r02 r01 r22 r11 r00.
rewrite !expr2 !exprS !expr0 !mulr1 !mulN1r !opprK !mul1r => h21 h12 h20 h02 h10 h01 h22 h11 h00.
split; [split|..]; apply/eqP; rewrite -subr_eq0; apply/eqP.
- by rewrite -(comb4 1 (-2%:R) r00 c00 h11 h22); ring.
- by rewrite -(comb4 1 (-2%:R) r11 c11 h00 h22); ring.
- by rewrite -(comb4 1 (-2%:R) r22 c22 h00 h11); ring.
- by rewrite -(comb4 (-1) (-1) r01 c01 h01 h10); ring.
- by rewrite -(comb4 (-1) (-1) r02 c02 h02 h20); ring.
- by rewrite -(comb4 (-1) (-1) r12 c12 h12 h21); ring.
Qed.
End Fun.


Section Quat.
Variable R : comRingType.
(* the homogeneous form of the rotation matrix *)
Definition roth (x : hq R) : nat -> nat -> R :=
  let: (s, i, j, k) := x in fun a b => nth 0 (nth [::] [::
   [:: s * s + i * i - j * j - k * k; 2%:R * (i * j - k * s); 2%:R * (i * k + j * s)];
   [:: 2%:R * (i * j + k * s); s * s - i * i + j * j - k * k; 2%:R * (j * k - i * s)];
   [:: 2%:R * (i * k - j * s); 2%:R * (j * k + i * s); s * s - i * i - j * j + k * k]] a) b.
Lemma rotm_roth x : hnorm x = 1 -> fmx 3 (rotm x) = fmx 3 (roth x).
Proof.
case: x => [[[s i] j] k] /= h; apply/matrixP => -[[|[|[|a]]] ha] // [[|[|[|b]]] hb] //; rewrite !mxE //= -[X in X - _]h; ring.
Qed.
Lemma det_roth x : \det (fmx 3 (roth x)) = hnorm x ^+ 3.
Proof. by case: x => [[[s i] j] k]; rewrite det_fmx3 /=; ring. Qed.
Lemma roth_orth x : fmx 3 (roth x) *m (fmx 3 (roth x))^T = (hnorm x ^+ 2)%:M.
Proof.
case: x => [[[s i] j] k]; rewrite tr_fmx mul_fmx3; apply/matrixP => -[[|[|[|a]]] ha] // [[|[|[|b]]] hb] //; rewrite !mxE /=; ring.
Qed.
Lemma roth_mul x y : fmx 3 (roth (hmul x y)) = fmx 3 (roth x) *m fmx 3 (roth y).
Proof.
case: x y => [[[s i] j] k] [[[s' i'] j'] k']; rewrite mul_fmx3; apply/matrixP => -[[|[|[|a]]] ha] // [[|[|[|b]]] hb] //; rewrite !mxE /=; ring.
Qed.
Lemma roth_so x : hnorm x = 1 -> so (fmx 3 (roth x)).
Proof. by move=> h; split; rewrite ?roth_orth ?det_roth h expr1n. Qed.
End Quat.

Lemma quat_scalars (R : numFieldType) (u a00 a01 a02 a10 a11 a12 a20 a21 a22 : R) : u != 0 ->
  let w := 1 + a00 + a11 + a22 in let p := a21 - a12 in let q := a02 - a20 in let r := a10 - a01 in
  u ^+ 2 = w ->
  q * q + r * r = 2%:R * w * (1 - a00) -> p * p + r * r = 2%:R * w * (1 - a11) -> p * p + q * q = 2%:R * w * (1 - a22) ->
  p * q = w * (a10 + a01) -> p * r = w * (a20 + a02) -> q * r = w * (a21 + a12) ->
  let d := (2%:R * u)^-1 in let x := (u * 2%:R^-1, p * d, q * d, r * d) in
  hnorm x = 1 /\ forall i j, (i < 3)%N -> (j < 3)%N ->
   rotm x i j = nth 0 (nth [::] [:: [:: a00; a01; a02]; [:: a10; a11; a12]; [:: a20; a21; a22]] i) j.
Proof.
move=> u0 w p q r uw k0 k1 k2 k01 k02 k12 d x.
have n2 : 2%:R != 0 :> R by rewrite pnatr_eq0.
have dd : d ^+ 2 = (4%:R * w)^-1 by rewrite -uw /d; field; rewrite u0.
have du : d * u = 2%:R^-1 by rewrite /d; field; rewrite u0.
have w0 : w != 0 by rewrite -uw expf_neq0.
have j0 : q * d * (q * d) + r * d * (r * d) = (1 - a00) / 2%:R.
  transitivity ((q * q + r * r) * d ^+ 2); [by ring|by rewrite k0 dd; field; rewrite w0].
have j1 : p * d * (p * d) + r * d * (r * d) = (1 - a11) / 2%:R.
  transitivity ((p * p + r * r) * d ^+ 2); [by ring|by rewrite k1 dd; field; rewrite w0].
have j2 : p * d * (p * d) + q * d * (q * d) = (1 - a22) / 2%:R.
  transitivity ((p * p + q * q) * d ^+ 2); [by ring|by rewrite k2 dd; field; rewrite w0].
have j01 : p * d * (q * d) = (a10 + a01) / 4%:R.
  transitivity ((p * q) * d ^+ 2); [by ring|by rewrite k01 dd; field; rewrite w0].
have j02 : p * d * (r * d) = (a20 + a02) / 4%:R.
  transitivity ((p * r) * d ^+ 2); [by ring|by rewrite k02 dd; field; rewrite w0].
have j12 : q * d * (r * d) = (a21 + a12) / 4%:R.
  transitivity ((q * r) * d ^+ 2); [by ring|by rewrite k12 dd; field; rewrite w0].
have jp y : y * d * (u * 2%:R^-1) = y / 4%:R.
  transitivity (y * (d * u) * 2%:R^-1); [by ring|by rewrite du; field].
split.
- rewrite /x /= -!addrA [p * d * _ + _]addrA.
  have -> : p * d * (p * d) + q * d * (q * d) + r * d * (r * d) = (3%:R - (a00 + a11 + a22)) / 4%:R.
    apply: (mulfI n2); rewrite -[RHS](_ : (1 - a00) / 2%:R + (1 - a11) / 2%:R + (1 - a22) / 2%:R = _); last by field.
    by rewrite -j0 -j1 -j2; ring.
  have -> : u * 2%:R^-1 * (u * 2%:R^-1) = w / 4%:R by rewrite -uw; field.
  by rewrite /w; field.
- move=> [|[|[|i]]] // [|[|[|j]]] // _ _; rewrite /x /= ?j0 ?j1 ?j2 ?j01 ?j02 ?j12 ?jp /p /q /r; by field.
Qed.
