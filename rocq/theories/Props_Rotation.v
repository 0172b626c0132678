(* Properties C54 - C57: rotations, over Coq's real numbers with Coq's sine and cosine *)
From Coq Require Import Reals.
From mathcomp Require Import all_ssreflect all_algebra.
From mathcomp Require Import ring.
From Verif Require Import M_Vec M_Mat M_Quat M_Transform Spec SpecQuat RealStruct P_Vec P_Mat P_Transform P_Quat P_Rot P_Rot2 Props_Quat.
Set Implicit Arguments. Unset Strict Implicit. Unset Printing Implicit Defensive.
Import Order.Theory GRing.Theory Num.Theory.
Local Open Scope ring_scope.

Arguments cos : clear scopes.
Arguments sin : clear scopes.
Lemma cosD (a b : R) : cos (a + b) = cos a * cos b - sin a * sin b. Proof. exact: cos_plus. Qed.
Lemma sinD (a b : R) : sin (a + b) = sin a * cos b + cos a * sin b. Proof. exact: sin_plus. Qed.
Lemma cosN (a : R) : cos (- a) = cos a. Proof. exact: cos_neg. Qed.
Lemma sinN (a : R) : sin (- a) = - sin a. Proof. exact: sin_neg. Qed.
Lemma cos_0' : cos (0 : R) = 1. Proof. exact: cos_0. Qed.
Lemma sin_0' : sin (0 : R) = 0. Proof. exact: sin_0. Qed.
Lemma cs1 (a : R) : cos a * cos a + sin a * sin a = 1.
Proof. by have := sin2_cos2 a; rewrite /Rsqr addrC => h; apply: h. Qed.
Arguments cs1 : clear scopes.
Lemma R2 : 2%:R != 0 :> R. Proof. by rewrite pnatr_eq0. Qed.
Lemma half_split (a : R) : a = a / 2%:R + a / 2%:R.
Proof. by rewrite -mulr2n -mulr_natr mulfVK // R2. Qed.
Lemma cos_half (a : R) : cos a = cos (a / 2%:R) * cos (a / 2%:R) - sin (a / 2%:R) * sin (a / 2%:R).
Proof. by rewrite {1}(half_split a) cosD. Qed.
Lemma sin_half (a : R) : sin a = 2%:R * (sin (a / 2%:R) * cos (a / 2%:R)).
Proof. by rewrite {1}(half_split a) sinD [cos _ * sin _]mulrC mulr_natl mulr2n. Qed.

(** * C54 Rotation in the plane *)
Theorem C54_action (follow rm : bool) (jk a : R) (r c : nat) (p : seq R) : shape follow 2 r c -> size p = 2%N ->
  transform follow 2 r c (rotation2d cos sin follow rm jk r c a) p =
  Some [:: cos a * nth 0 p 0 - sin a * nth 0 p 1; sin a * nth 0 p 0 + cos a * nth 0 p 1].
Proof.
move=> hs sp; rewrite (affine_app (rotation2d_affine cos sin rm jk a hs)) //; congr Some.
rewrite /app /mkseq /= !big_ord_recl !big_ord0 /lit /=.
by congr [:: _; _]; rewrite addr0 ?mulrN mulrC; congr (_ + _); rewrite mulrC.
Qed.
Print Assumptions C54_action.

(* counter-clockwise: the polar angle grows by a *)
Theorem C54_polar (follow rm : bool) (jk a rho phi : R) (r c : nat) : shape follow 2 r c ->
  transform follow 2 r c (rotation2d cos sin follow rm jk r c a) [:: rho * cos phi; rho * sin phi] =
  Some [:: rho * cos (phi + a); rho * sin (phi + a)].
Proof.
move=> hs; rewrite C54_action //= cosD sinD; move: (cos a) (sin a) (cos phi) (sin phi) => ca sa cp sp.
by congr (Some [:: _; _]); ring.
Qed.
Print Assumptions C54_polar.

Theorem C54_compose (follow rm : bool) (jk a b : R) (r c : nat) (p : seq R) : shape follow 2 r c -> size p = 2%N ->
  [/\ exists2 q, transform follow 2 r c (rotation2d cos sin follow rm jk r c a) p = Some q &
        transform follow 2 r c (rotation2d cos sin follow rm jk r c b) q =
        transform follow 2 r c (rotation2d cos sin follow rm jk r c (a + b)) p,
      transform follow 2 r c (rotation2d cos sin follow rm jk r c 0) p = Some p &
      exists2 q, transform follow 2 r c (rotation2d cos sin follow rm jk r c a) p = Some q &
        transform follow 2 r c (rotation2d cos sin follow rm jk r c (- a)) q = Some p].
Proof.
move=> hs sp; split.
- eexists; first exact: C54_action.
  rewrite !C54_action //= cosD sinD; move: (cos a) (sin a) (cos b) (sin b) (nth 0 p 0) (nth 0 p 1) => ca sa cb sb x y.
  by congr (Some [:: _; _]); ring.
- by rewrite C54_action // cos_0' sin_0' !mul1r !mul0r subr0 add0r; case: p sp => [|x [|y []]].
- eexists; first exact: C54_action.
  rewrite C54_action //= cosN sinN; congr Some; have := cs1 a.
  case: p sp => [|x [|y []]] // _ /=; move: (cos a) (sin a) => C S e.
  have k z p : p = (C * C + S * S) * z -> p = z by rewrite e mul1r.
  by congr [:: _; _]; apply: k; ring.
Qed.
Print Assumptions C54_compose.

Theorem C54_special_orthogonal (follow rm : bool) (jk a b : R) :
  let M a := mxof 2 2 (rotation2d cos sin follow rm jk 2 2 a) in
  [/\ M a *m (M a)^T = 1%:M, (M a)^T *m M a = 1%:M, \det (M a) = 1, M a *m M b = M (a + b) & M (- a) = (M a)^T].
Proof.
move=> M; have hs : shape follow 2 2 2 by case: (follow).
have e x : M x = fmx 2 (lit (if follow then [:: [:: cos x; sin x]; [:: - sin x; cos x]] else [:: [:: cos x; - sin x]; [:: sin x; cos x]])).
  rewrite /M (affine_mx (rotation2d_affine cos sin rm jk x hs)); case: (follow) => //.
  by apply/matrixP => -[[|[|i]] hi] // [[|[|j]] hj] //; rewrite !mxE.
have o : M a *m (M a)^T = 1%:M.
  rewrite e; apply/matrixP => i j; rewrite !mxE !big_ord_recl big_ord0 !mxE addr0; have := cs1 a.
  by case: (follow); case: i j => [[|[|i]] hi] // [[|[|j]] hj] // h; rewrite /lit /= ?mulrN ?mulNr ?opprK ?h //;
    rewrite 1?addrC ?h // 1?[cos a * sin a]mulrC ?subrr // 1?[sin a * cos a]mulrC ?subrr ?addNr // addrC subrr.
split=> //; first exact: mulmx1C.
- by rewrite e det_fmx2; have := cs1 a; case: (follow); rewrite /lit /= ?mulrN ?mulNr opprK.
- rewrite !e; apply/matrixP => i j; rewrite !mxE !big_ord_recl big_ord0 !mxE addr0 cosD sinD.
  move: (cos a) (sin a) (cos b) (sin b) => C S C' S'.
  by case: (follow); case: i j => [[|[|i]] hi] // [[|[|j]] hj] //; rewrite /lit /=; ring.
- rewrite !e cosN sinN; apply/matrixP => i j; rewrite !mxE.
  by case: (follow); case: i j => [[|[|i]] hi] // [[|[|j]] hj] //; rewrite /lit /= ?opprK.
Qed.
Print Assumptions C54_special_orthogonal.

Example C54_example : shape true 2 3 2 /\ transform true 2 3 2 (rotation2d cos sin true true (0 : R) 3 2 PI) [:: 1; 0] = Some [:: - 1; 0].
Proof. by split=> //; rewrite C54_action //= cos_PI sin_PI !mulr1 !mulr0 subr0 addr0. Qed.

(** * C55 Rotation around an axis *)
(* the image of v: cos a * v + sin a * (u x v) + (1 - cos a) * (u . v) * u *)
Definition turned (u : seq R) (a : R) (v : seq R) : seq R :=
  mkseq (fun i => cos a * nth 0 v i + sin a * nth 0 (cross3 u v) i + (1 - cos a) * dot3 u v * nth 0 u i) 3.

Arguments turned : clear scopes.

Theorem C55_action (follow rm : bool) (jk a : R) (r c : nat) (u v : seq R) : shape follow 3 r c ->
  size u = 3%N -> size v = 3%N ->
  transform follow 3 r c (rotation_axis_angle cos sin follow rm jk r c u a) v = Some (turned u a v).
Proof.
move=> hs su sv; rewrite (affine_app (rotation_axis_angle_affine cos sin rm jk a hs su)) //; congr Some.
rewrite /app /turned /dot3 /rodrigues /lit /cross3 /mkseq /= !big_ord_recl !big_ord0 /=.
move: (cos a) (sin a) (nth 0 u 0) (nth 0 u 1) (nth 0 u 2) (nth 0 v 0) (nth 0 v 1) (nth 0 v 2) => C S u0 u1 u2 v0 v1 v2.
by congr [:: _; _; _]; ring.
Qed.
Print Assumptions C55_action.

(* the axis is fixed *)
Theorem C55_fixes_axis (follow rm : bool) (jk a t : R) (r c : nat) (u : seq R) : shape follow 3 r c ->
  size u = 3%N -> dot3 u u = 1 ->
  transform follow 3 r c (rotation_axis_angle cos sin follow rm jk r c u a) (lincomb3 t u 0 u) = Some (lincomb3 t u 0 u).
Proof.
move=> hs su; rewrite C55_action ?size_mkseq // => n1; congr Some; move: n1.
rewrite /turned /dot3 /cross3 /lincomb3 /mkseq /= !big_ord_recl !big_ord0 /=.
move: (cos a) (sin a) (nth 0 u 0) (nth 0 u 1) (nth 0 u 2) => C S x y z; rewrite addr0 => n1.
have e : x * (t * x + 0 * x) + (y * (t * y + 0 * y) + (z * (t * z + 0 * z) + 0)) = t by rewrite -[RHS]mulr1 -n1; ring.
by rewrite !e; congr [:: _; _; _]; ring.
Qed.
Print Assumptions C55_fixes_axis.

(* vectors orthogonal to the axis turn by a, counter-clockwise as seen from the tip of the axis *)
Theorem C55_turns (follow rm : bool) (jk a phi : R) (r c : nat) (u e : seq R) : shape follow 3 r c ->
  size u = 3%N -> size e = 3%N -> dot3 u u = 1 -> dot3 u e = 0 ->
  transform follow 3 r c (rotation_axis_angle cos sin follow rm jk r c u a) (lincomb3 (cos phi) e (sin phi) (cross3 u e)) =
  Some (lincomb3 (cos (phi + a)) e (sin (phi + a)) (cross3 u e)).
Proof.
move=> hs su se; rewrite C55_action ?size_mkseq // => n1 o; congr Some; move: n1 o.
rewrite cosD sinD /turned /dot3 /cross3 /lincomb3 /mkseq /= !big_ord_recl !big_ord0 /=.
move: (cos a) (sin a) (cos phi) (sin phi) (nth 0 u 0) (nth 0 u 1) (nth 0 u 2) (nth 0 e 0) (nth 0 e 1) (nth 0 e 2) => C S C' S' x y z e0 e1 e2.
rewrite !addr0 => n1 o.
have d : x * (C' * e0 + S' * (y * e2 - z * e1)) + (y * (C' * e1 + S' * (z * e0 - x * e2)) + z * (C' * e2 + S' * (x * e1 - y * e0))) = 0.
  by rewrite -[RHS](mulr0 C') -o; ring.
rewrite !d !mulr0 !mul0r !addr0.
have k f x' p q : p = f - f * (x * x + (y * y + z * z)) + x' * (x * e0 + (y * e1 + z * e2)) + q -> p = q.
  by rewrite n1 o mulr0 mulr1 subrr !add0r.
congr [:: _; _; _].
- by apply: (k (S * S' * e0) (S * S' * x)); ring.
- by apply: (k (S * S' * e1) (S * S' * y)); ring.
- by apply: (k (S * S' * e2) (S * S' * z)); ring.
Qed.
Print Assumptions C55_turns.

Lemma turned_add (u : seq R) a b v : dot3 u u = 1 -> turned u b (turned u a v) = turned u (a + b) v.
Proof.
rewrite /turned cosD sinD /dot3 /cross3 /mkseq /= !big_ord_recl !big_ord0 /=.
move: (cos a) (sin a) (cos b) (sin b) (nth 0 u 0) (nth 0 u 1) (nth 0 u 2) (nth 0 v 0) (nth 0 v 1) (nth 0 v 2) => C S C' S' x y z v0 v1 v2.
rewrite !addr0 => n1.
have k e p q : p = e * (x * x + (y * y + z * z) - 1) + q -> p = q by rewrite n1 subrr mulr0 add0r.
pose w := x * v0 + (y * v1 + z * v2).
congr [:: _; _; _].
- by apply: (k ((1 - C) * (1 - C') * w * x - S * S' * v0)); rewrite /w; ring.
- by apply: (k ((1 - C) * (1 - C') * w * y - S * S' * v1)); rewrite /w; ring.
- by apply: (k ((1 - C) * (1 - C') * w * z - S * S' * v2)); rewrite /w; ring.
Qed.
Lemma turned_0 (u : seq R) v : size v = 3%N -> turned u 0 v = v.
Proof.
move=> sv; rewrite /turned cos_0' sin_0'; rewrite [RHS](seq3 0 sv).
by rewrite /mkseq /= !subrr !mul0r !mul1r !addr0.
Qed.

Theorem C55_compose (follow rm : bool) (jk a b : R) (r c : nat) (u v : seq R) : shape follow 3 r c ->
  size u = 3%N -> dot3 u u = 1 -> size v = 3%N ->
  let T a := transform follow 3 r c (rotation_axis_angle cos sin follow rm jk r c u a) in
  [/\ exists2 w, T a v = Some w & T b w = T (a + b) v, T 0 v = Some v & exists2 w, T a v = Some w & T (- a) w = Some v].
Proof.
move=> hs su n1 sv T.
have A x w : size w = 3%N -> T x w = Some (turned u x w) by move=> sw; apply: C55_action.
have A2 x y : T y (turned u x v) = Some (turned u (x + y) v).
  by etransitivity; [apply: A; rewrite size_mkseq|congr Some; apply: turned_add].
split; [exists (turned u a v); first exact: A|by rewrite A // turned_0|exists (turned u a v); first exact: A].
- by etransitivity; [apply: A2|apply/esym; apply: A].
- by etransitivity; [apply: A2|congr Some; rewrite (addrN a) turned_0].
Qed.
Print Assumptions C55_compose.

(* the unit quaternion cos (a / 2) + sin (a / 2) u *)
Definition hrot (u : seq R) (a : R) : hq R_ringType :=
  (cos (a / 2%:R), sin (a / 2%:R) * nth 0 u 0, sin (a / 2%:R) * nth 0 u 1, sin (a / 2%:R) * nth 0 u 2).
Arguments hrot : clear scopes.
Lemma hrot_unit u a : dot3 u u = 1 -> hnorm (hrot u a) = 1.
Proof.
rewrite /dot3 !big_ord_recl big_ord0 /= addr0 /hrot /=.
move: (cos (a / 2%:R)) (sin (a / 2%:R)) (nth 0 u 0) (nth 0 u 1) (nth 0 u 2) (cs1 (a / 2%:R)) => C S x y z c1 n1.
transitivity (C * C + S * S * (x * x + (y * y + z * z))); first by ring.
by rewrite n1 mulr1 c1.
Qed.
Lemma rodrigues_roth u a : size u = 3%N -> dot3 u u = 1 ->
  fmx 3 (rodrigues (cos a) (sin a) u) = (fmx 3 (roth (hrot u a)))^T.
Proof.
move=> su; rewrite /dot3 !big_ord_recl big_ord0 /= addr0 => n1; rewrite tr_fmx.
have e1 : 1 - cos a = 2%:R * (sin (a / 2%:R) * sin (a / 2%:R)).
  rewrite cos_half; have := cs1 (a / 2%:R).
  by move: (cos _) (sin _) => C S h; rewrite -[X in X - _ = _]h; ring.
have e2 : cos a = cos (a / 2%:R) * cos (a / 2%:R) - sin (a / 2%:R) * sin (a / 2%:R) *
    (nth 0 u 0 * nth 0 u 0 + (nth 0 u 1 * nth 0 u 1 + nth 0 u 2 * nth 0 u 2)) by rewrite n1 mulr1 cos_half.
apply/matrixP => i j; rewrite !mxE /rodrigues e1 e2 (sin_half a) /hrot /lit {e1 e2 n1}.
rewrite (seq3 0 su) /=.
move: (cos (a / 2%:R)) (sin (a / 2%:R)) (nth 0 u 0) (nth 0 u 1) (nth 0 u 2) => C S x y z.
case: i j => [[|[|[|i]]] hi] // [[|[|[|j]]] hj] //=; ring.
Qed.

(* the matrix is a rotation matrix, whatever the order *)
Theorem C55_special_orthogonal (follow rm : bool) (jk a : R) (u : seq R) : size u = 3%N -> dot3 u u = 1 ->
  let M := mxof 3 3 (rotation_axis_angle cos sin follow rm jk 3 3 u a) in
  [/\ M *m M^T = 1%:M, M^T *m M = 1%:M & \det M = 1].
Proof.
move=> su n1 M; have hs : shape follow 3 3 3 by case: (follow).
suff [o d] : so M by split=> //; apply: mulmx1C.
have e : M = if follow then fmx 3 (rodrigues (cos a) (sin a) u) else (fmx 3 (rodrigues (cos a) (sin a) u))^T.
  by rewrite /M (affine_mx (rotation_axis_angle_affine cos sin rm jk a hs su)) tr_fmx; case: (follow).
rewrite e rodrigues_roth // trmxK; case: (follow); last exact: roth_so (hrot_unit _ n1).
exact: so_tr (roth_so (hrot_unit _ n1)).
Qed.
Print Assumptions C55_special_orthogonal.

Definition basis3 (k : nat) : seq R := mkseq (fun i => (i == k)%:R) 3.
(* RotationX, RotationY, RotationZ are the axis-angle rotations about the coordinate axes, entry by entry *)
Theorem C55_coordinate_axes (follow rm : bool) (jk a : R) (r c axis : nat) (v : seq R) : shape follow 3 r c -> (axis < 3)%N ->
  size v = 3%N ->
  [/\ forall i j, (i < r)%N -> (j < c)%N -> get (rotation_axis cos sin follow rm jk r c a axis) i j =
        get (rotation_axis_angle cos sin follow rm jk r c (basis3 axis) a) i j,
      transform follow 3 r c (rotation_axis cos sin follow rm jk r c a axis) v = Some (turned (basis3 axis) a v) &
      rotation_x cos sin follow rm jk r c a = rotation_axis cos sin follow rm jk r c a 0 /\
      rotation_y cos sin follow rm jk r c a = rotation_axis cos sin follow rm jk r c a 1 /\
      rotation_z cos sin follow rm jk r c a = rotation_axis cos sin follow rm jk r c a 2].
Proof.
move=> hs ha sv.
have A := rotation_axis_affine cos sin rm jk a axis hs.
have B : affine_mat follow 3 r c (rotation_axis_angle cos sin follow rm jk r c (basis3 axis) a)
   (lit (axis_lit (cos a) (sin a) axis)) (fun=> 0).
  apply: affine_ext (rotation_axis_angle_affine cos sin rm jk a hs (size_mkseq _ _)) _ _ => // i j hi hj.
  rewrite /rodrigues /axis_lit /lit; move: (cos a) (sin a) => C S.
  by case: axis ha i j hi hj {A} => [|[|[|axis]]] // _ [|[|[|i]]] // [|[|[|j]]] // _ _ /=; ring.
split=> //.
- move=> i j hi hj; case: A B => [_ hA] [_ hB].
  have := hA (if follow then i else j) (if follow then j else i); rewrite -hB /fget /frows /fcols.
  + by case: (follow) => ->.
  + by case: (follow).
  + by case: (follow).
- by rewrite (affine_app A) // -(affine_app B) // C55_action // size_mkseq.
Qed.
Print Assumptions C55_coordinate_axes.

Example C55_example : [/\ shape false 3 3 4, dot3 (basis3 1) (basis3 1) = 1 & dot3 (basis3 1) (basis3 2) = 0].
Proof. by rewrite /dot3 !big_ord_recl !big_ord0 /= !mulr1 !mulr0 !add0r !addr0. Qed.

(** * C56 Composite rotations *)
(* first the rotation by a0 around x0, then by a1 around x1, then by a2 around x2, whatever the order and shape *)
Theorem C56_sequence (follow rm : bool) (jk a0 a1 a2 : R) (x0 x1 x2 r c : nat) (v : seq R) : shape follow 3 r c ->
  (x0 < 3)%N -> (x1 < 3)%N -> (x2 < 3)%N -> size v = 3%N ->
  let T a x := transform follow 3 r c (rotation_axis cos sin follow rm jk r c a x) in
  exists v1, exists2 v2, T a0 x0 v = Some v1 /\ T a1 x1 v1 = Some v2 &
   transform follow 3 r c (rotation_tri cos sin follow rm jk r c a0 a1 a2 x0 x1 x2) v = T a2 x2 v2.
Proof.
move=> hs h0 h1 h2 sv T; rewrite /T (affine_app (rotation_tri_affine cos sin rm jk a0 a1 a2 x0 x1 x2 hs)) // !app_mul3.
do 2! eexists; first split.
- by apply: affine_app (rotation_axis_affine cos sin rm jk a0 x0 hs) hs _ sv.
- by apply: affine_app (rotation_axis_affine cos sin rm jk a1 x1 hs) hs _ _; rewrite ?size_app.
- by apply/esym; apply: affine_app (rotation_axis_affine cos sin rm jk a2 x2 hs) hs _ _; rewrite ?size_app.
Qed.
Print Assumptions C56_sequence.

Theorem C56_matrix (follow rm : bool) (jk a0 a1 a2 : R) (x0 x1 x2 : nat) :
  let M a x := mxof 3 3 (rotation_axis cos sin follow rm jk 3 3 a x) in
  mxof 3 3 (rotation_tri cos sin follow rm jk 3 3 a0 a1 a2 x0 x1 x2) =
  if follow then M a0 x0 *m M a1 x1 *m M a2 x2 else M a2 x2 *m M a1 x1 *m M a0 x0.
Proof.
move=> M; have hs : shape follow 3 3 3 by case: (follow).
rewrite (affine_mx (rotation_tri_affine cos sin rm jk a0 a1 a2 x0 x1 x2 hs)) /M.
rewrite (affine_mx (rotation_axis_affine cos sin rm jk a0 x0 hs)).
rewrite (affine_mx (rotation_axis_affine cos sin rm jk a1 x1 hs)).
rewrite (affine_mx (rotation_axis_affine cos sin rm jk a2 x2 hs)).
case: (follow); apply/matrixP => i j; rewrite !mxE.
  by apply: eq_bigr => l _; rewrite !mxE; congr (_ * _); apply: eq_bigr => k _; rewrite !mxE.
under [RHS]eq_bigr => l _ do rewrite !mxE mulr_suml; rewrite exchange_big; apply: eq_bigr => l _ /=.
rewrite mulr_suml; apply: eq_bigr => k _; rewrite !mxE.
by rewrite -mulrA mulrC [X in X * _]mulrC.
Qed.
Print Assumptions C56_matrix.

Lemma obind2 (A : Type) (f g : A -> option A) x y z : x = Some y -> f y = Some z -> obind g (obind f x) = g z.
Proof. by move=> -> /= ->. Qed.
(* the documented axis sequences: Z-X-Z and X-Y-Z *)
Theorem C56_named (follow rm : bool) (jk a0 a1 a2 : R) (r c : nat) (v : seq R) : shape follow 3 r c -> size v = 3%N ->
  let T m := transform follow 3 r c m in
  let X a := rotation_x cos sin follow rm jk r c a in
  let Y a := rotation_y cos sin follow rm jk r c a in
  let Z a := rotation_z cos sin follow rm jk r c a in
  T (rotation_euler cos sin follow rm jk r c a0 a1 a2) v = obind (T (Z a2)) (obind (T (X a1)) (T (Z a0) v)) /\
  T (rotation_rpy cos sin follow rm jk r c a0 a1 a2) v = obind (T (Z a2)) (obind (T (Y a1)) (T (X a0) v)).
Proof.
move=> hs sv T X Y Z.
have [v1 [v2 [e1 e2] e3]] := C56_sequence rm jk a0 a1 a2 hs (isT : 2 < 3)%N (isT : 0 < 3)%N (isT : 2 < 3)%N sv.
have [w1 [w2 [f1 f2] f3]] := C56_sequence rm jk a0 a1 a2 hs (isT : 0 < 3)%N (isT : 1 < 3)%N (isT : 2 < 3)%N sv.
by split; [rewrite (obind2 _ e1 e2); apply: e3|rewrite (obind2 _ f1 f2); apply: f3].
Qed.
Print Assumptions C56_named.

Lemma rotation_quatE jk sf u a : size u = 3%N -> rotation_quat cos sin jk sf u a = mkq sf (hrot u a).
Proof. by move=> su; rewrite /rotation_quat (seq3 0 su) /of_scalar_vector /= of_canonicalE. Qed.
Lemma basis3E x : (x < 3)%N -> set_nth 0 (zero_vec R_ringType 3) x 1 = basis3 x.
Proof. by case: x => [|[|[|x]]]. Qed.
Lemma basis3_unit x : (x < 3)%N -> dot3 (basis3 x) (basis3 x) = 1.
Proof.
by rewrite /dot3 !big_ord_recl big_ord0; case: x => [|[|[|x]]] // _ /=; rewrite !mulr1 !mulr0 !add0r ?addr0.
Qed.
Lemma qrotate_hrot jk sf u a v : size u = 3%N -> dot3 u u = 1 -> size v = 3%N ->
  qrotate jk (mkq sf (hrot u a)) v = Some (turned u a v).
Proof.
move=> su n1 sv; have h := hrot_unit a n1.
have hs : shape true 3 3 3 by [].
rewrite -(@C65_rotates _ true true jk jk 3 3 (mkq sf (hrot u a)) v) ?wfq_mkq ?absq_mkq //.
rewrite (affine_app (quat_to_matrix_affine true jk sf (hrot u a) hs)) //.
rewrite -(C55_action true jk a hs su sv) (affine_app (rotation_axis_angle_affine cos sin true jk a hs su)) //.
congr Some; apply/eq_in_map => j; rewrite mem_iota => /andP [_ hj]; apply: eq_bigr => l _; congr (_ * _).
have := rodrigues_roth a su n1; rewrite -rotm_roth // tr_fmx => /fmx_inj -> //.
Qed.

Theorem C56_quaternion (jk a0 a1 a2 : R) (sf : bool) (x0 x1 x2 : nat) (v : seq R) :
  (x0 < 3)%N -> (x1 < 3)%N -> (x2 < 3)%N -> size v = 3%N ->
  let Q a x := qrotate jk (rotation_axis_quat cos sin jk sf a x) in
  exists v1, exists2 v2, Q a0 x0 v = Some v1 /\ Q a1 x1 v1 = Some v2 &
   qrotate jk (rotation_tri_quat cos sin jk sf a0 a1 a2 x0 x1 x2) v = Q a2 x2 v2.
Proof.
move=> h0 h1 h2 sv Q; rewrite /Q /rotation_tri_quat /rotation_axis_quat !basis3E // !rotation_quatE ?size_mkseq //.
have n0 sf' a x (hx : (x < 3)%N) : absq (mkq sf' (hrot (basis3 x) a)) <> hzero R_ringType.
  by rewrite absq_mkq => e; have := hrot_unit a (basis3_unit hx); rewrite e /= !mulr0 !addr0 => /eqP; rewrite eq_sym oner_eq0.
exists (turned (basis3 x0) a0 v), (turned (basis3 x1) a1 (turned (basis3 x0) a0 v)).
  by rewrite !qrotate_hrot ?size_mkseq ?basis3_unit.
have m0 sf' (x y : hq R_ringType) : absq (mkq sf' x) <> hzero R_ringType -> absq (mkq sf' y) <> hzero R_ringType ->
   absq (mkq sf' (hmul x y)) <> hzero R_ringType.
  by rewrite !absq_mkq => /eqP hx /eqP hy; apply/eqP; rewrite -hnorm_eq0 hnormM mulf_neq0 ?hnorm_eq0.
have [w e] := C64_compose jk (wfq_mkq sf _) (wfq_mkq sf _) (n0 sf a2 x2 h2) (n0 sf a1 x1 h1) (size_mkseq _ _ : size (turned (basis3 x0) a0 v) = 3%N).
rewrite qrotate_hrot ?basis3_unit ?size_mkseq // in e; case: e => <- <-.
rewrite !qmul_mkq.
have [w' e'] := C64_compose jk (wfq_mkq sf _) (wfq_mkq sf _) (m0 _ _ _ (n0 sf a2 x2 h2) (n0 sf a1 x1 h1)) (n0 sf a0 x0 h0) sv.
by rewrite qrotate_hrot ?basis3_unit ?size_mkseq // in e'; case: e' => <-; rewrite qmul_mkq.
Qed.
Print Assumptions C56_quaternion.

Example C56_example : [/\ (2 < 3)%N, (0 < 3)%N & shape true 3 4 3]. Proof. by []. Qed.

(** * C57 The matrix and the quaternion of a builder rotate alike *)
Theorem C57_axis_angle (follow rm sf : bool) (jk jk' a : R) (r c : nat) (u v : seq R) : shape follow 3 r c ->
  size u = 3%N -> dot3 u u = 1 -> size v = 3%N ->
  transform follow 3 r c (rotation_axis_angle cos sin follow rm jk r c u a) v =
    qrotate jk' (rotation_quat cos sin jk' sf u a) v /\
  qrotate jk' (rotation_quat cos sin jk' sf u a) v = Some (turned u a v).
Proof. by move=> hs su n1 sv; rewrite C55_action // rotation_quatE // qrotate_hrot. Qed.
Print Assumptions C57_axis_angle.

Theorem C57_coordinate_axis (follow rm sf : bool) (jk jk' a : R) (r c axis : nat) (v : seq R) : shape follow 3 r c ->
  (axis < 3)%N -> size v = 3%N ->
  transform follow 3 r c (rotation_axis cos sin follow rm jk r c a axis) v =
  qrotate jk' (rotation_axis_quat cos sin jk' sf a axis) v.
Proof.
move=> hs ha sv; have [_ -> _] := C55_coordinate_axes rm jk a hs ha sv.
by rewrite /rotation_axis_quat basis3E // rotation_quatE ?size_mkseq // qrotate_hrot ?size_mkseq ?basis3_unit.
Qed.
Print Assumptions C57_coordinate_axis.

Theorem C57_three_axes (follow rm sf : bool) (jk jk' a0 a1 a2 : R) (r c x0 x1 x2 : nat) (v : seq R) : shape follow 3 r c ->
  (x0 < 3)%N -> (x1 < 3)%N -> (x2 < 3)%N -> size v = 3%N ->
  transform follow 3 r c (rotation_tri cos sin follow rm jk r c a0 a1 a2 x0 x1 x2) v =
  qrotate jk' (rotation_tri_quat cos sin jk' sf a0 a1 a2 x0 x1 x2) v.
Proof.
move=> hs h0 h1 h2 sv.
have [v1 [v2 [e1 e2] ->]] := C56_sequence rm jk a0 a1 a2 hs h0 h1 h2 sv.
have [w1 [w2 [f1 f2] ->]] := C56_quaternion jk' a0 a1 a2 sf h0 h1 h2 sv.
have s1 : size v1 = 3%N by move: e1; have [_ -> _] := C55_coordinate_axes rm jk a0 hs h0 sv => -[<-]; rewrite size_mkseq.
have s2 : size v2 = 3%N by move: e2; have [_ -> _] := C55_coordinate_axes rm jk a1 hs h1 s1 => -[<-]; rewrite size_mkseq.
rewrite (C57_coordinate_axis _ sf _ jk') // in e1; rewrite e1 in f1; case: f1 => <- in f2 *.
rewrite (C57_coordinate_axis _ sf _ jk') // in e2; rewrite e2 in f2; case: f2 => <-.
exact: C57_coordinate_axis.
Qed.
Print Assumptions C57_three_axes.

Example C57_example (a : R) : let u := [:: cos a; sin a; 0] in size u = 3%N /\ dot3 u u = 1.
Proof. by split=> //; rewrite /dot3 !big_ord_recl big_ord0 /= mulr0 !addr0 cs1. Qed.
