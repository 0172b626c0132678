(* The one-sided Jacobi SVD. *)
From mathcomp Require Import all_ssreflect all_algebra.
From mathcomp Require Import ring.
From Verif Require Import Spec M_Vec P_Vec M_Mat P_Mat P_Mat2 M_LU P_Tri P_LU P_LU2 M_QR P_QR M_SVD P_SVD2 P_SVD P_SVDres.
Set Implicit Arguments. Unset Strict Implicit. Unset Printing Implicit Defensive.
Import Order.Theory GRing.Theory Num.Theory.
Local Open Scope ring_scope.

Section One.
Variable R : rcfType.
Implicit Types (A U V X : mat R).
Variables (sg : nat -> nat -> nat -> bool * bool) (rows cols : nat) (M0 : 'M[R]_(rows, cols)).

Definition inv1 (st : mat R * mat R) : Prop :=
  [/\ wf rows cols st.1, wf cols cols st.2, (mxof cols cols st.2)^T *m mxof cols cols st.2 = 1%:M &
      mxof rows cols st.1 *m mxof cols cols st.2 = M0].

(* the scalar product of two columns *)
Definition gram X p q : R := \sum_(k < rows) get X k p * get X k q.

Lemma tmpE X p q : wf rows cols X -> (p < cols)%N -> (q < cols)%N -> tmp rows X p q = (gram X p p, gram X p q, gram X q q).
Proof.
move=> w hp hq; rewrite /tmp /gram; congr (_, _, _);
by apply: (@dot_rowcol R rows (fun k => get X k _) (fun k => get X k _)); rewrite ?(size_get_col w) // => i hi; rewrite (nth_get_col _ w).
Qed.

Lemma one_sided_stepP k p q X V e : (p < q < cols)%N -> inv1 (X, V) ->
  exists X' V' e', one_sided_step sg rows cols k p q (X, V, e) = Some (X', V', e') /\ inv1 (X', V') /\
  gram X' p q = 0 /\
  ((X', V', e') = (X, V, e) /\ gram X p q = 0 \/ gram X p q != 0 /\ e' = std_max e `|gram X p q|).
Proof.
move=> pq [/= wX wV oV eM]; have /andP [lpq qn] := pq; have pn := ltn_trans lpq qn.
have npq : (q == p) = false := gtn_eqF lpq.
have [t1 t2 t3] := tmpE wX pn qn; rewrite /one_sided_step /tmp t1 t2 t3 normr_eq0; case: (eqVneq (gram X p q) 0) => [z|nz].
  by exists X, V, e; do !split=> //; left.
have [c [s [-> [cs ho]]]] := diagonalize_hermitianP (sg k p q).1 (gram X p p) (gram X p q) (gram X q q).
rewrite /=; have [cv [sv [-> [hu pos mn [w hw hrot]]]]] := minimize_rotationP cs; rewrite /=.
have [[wX' _ _] eX] := givens_rightP cv sv 1 wX pq.
have [[wV' _ _] eV] := givens_leftP cv (- sv) 1 wV pq.
do 3!eexists; split; first by reflexivity.
set X' := givens_right _ _ _ _ _ _ _ in wX' eX *; set V' := givens_left _ _ _ _ _ _ _ in wV' eV *.
split; [split=> //=|split; last by right].
- rewrite -oV; apply/matrixP => i j; rewrite !mxE.
  under eq_bigr do rewrite !mxE.
  under [RHS]eq_bigr do rewrite !mxE.
  apply: (sum_rot (f := fun k => get V' k i * get V' k j) (g := fun k => get V k i * get V k j) pq) => [l ln /negPf k1 /negPf k2|].
    by rewrite !eV // k1 k2.
  rewrite !eV // !eqxx npq !mul1r.
  transitivity ((cv ^+ 2 + sv ^+ 2) * (get V p i * get V p j + get V q i * get V q j)); last by rewrite hu mul1r.
  by ring.
- rewrite -eM; apply/matrixP => i j; rewrite !mulmx_get.
  apply: (sum_rot (f := fun k => get X' i k * get V' k j) (g := fun k => get X i k * get V k j) pq) => [l ln /negPf k1 /negPf k2|].
    by rewrite eV // eX // k1 k2.
  rewrite !eV // !eX // !eqxx npq !mul1r.
  transitivity ((cv ^+ 2 + sv ^+ 2) * (get X i p * get V p j + get X i q * get V q j)); last by rewrite hu mul1r.
  by ring.
- have := offd_min hw hrot ho; rewrite /offd => h; rewrite -[RHS]h /gram !mulr_suml -sumrB mulr_suml -big_split /=.
  apply: eq_bigr => l _; rewrite !eX // !eqxx npq; ring.
Qed.

Lemma one_sided_sweepP k st : inv1 st ->
  exists st' e, one_sided_sweep sg rows cols k st = Some (st', e) /\ inv1 st'.
Proof.
move=> h; have [|[s e] h1 h2] := @pairs_loopP _ (fun s : mat R * mat R * R => inv1 s.1) cols (one_sided_step sg rows cols k) (st, 0) h.
  move=> p q [[X V] e] pq hs; have [X' [V' [e' [-> [hi _]]]]] := one_sided_stepP k e pq hs.
  by exists (X', V', e').
by exists s, e.
Qed.

Lemma one_sided_jacobi_inv fuel k prev err st : inv1 st ->
  exists2 st', inv1 st' &
    jacobi (one_sided_sweep sg rows cols) fuel k prev err st = Done st' \/
    jacobi (one_sided_sweep sg rows cols) fuel k prev err st = Running st'.
Proof. by move=> h; apply: jacobiP => // k' s; apply: one_sided_sweepP. Qed.
End One.

Section Result.
Variable R : rcfType.
Implicit Types (A U V X : mat R).

Lemma upper_diag n (M : 'M[R]_n) (e : nat -> bool) :
  (forall i j : 'I_n, (j < i)%N -> M i j = 0) -> (forall i j, (i <= j)%N -> e j -> e i) ->
  (forall i j, (M^T *m M) i j = if i == j then (e i)%:R else 0) ->
  forall i j, if i == j then M i j ^+ 2 = (e i)%:R else M i j = 0.
Proof.
move=> hu hmon hd.
suff H m : forall i : 'I_n, (i < m)%N -> forall j, if i == j then M i j ^+ 2 = (e i)%:R else M i j = 0.
  by move=> i j; apply: (H i.+1).
elim: m => // m IH i; rewrite ltnS leq_eqVlt => /orP [/eqP im|]; last exact: IH.
have row j : (M^T *m M) i j = M i i * M i j.
  rewrite mxE (bigD1 i) //= mxE big1 ?addr0 // => k ki; rewrite mxE.
  have -> : M k i = 0; last by rewrite mul0r.
  case: (ltngtP k i) => [lt|lt|eq]; last by move/eqP: ki; case; apply: val_inj.
    by have := IH k _ i; rewrite -im lt (negPf ki) => ->.
  exact: hu.
have hii : M i i ^+ 2 = (e i)%:R by rewrite expr2 -row hd eqxx.
move=> j; case: eqP => [<- //|/eqP ij].
case ei: (e i) hii => hii.
  have nz : M i i != 0 by rewrite -sqrf_eq0 hii oner_eq0.
  by apply: (mulfI nz); rewrite -row hd (negPf ij) mulr0.
case: (ltnP j i) => ji; first exact: hu.
have ej : e j = false by apply: negbTE; apply: contraFN ei; apply: hmon.
have := hd j j; rewrite eqxx ej mxE => /eqP; rewrite psumr_eq0 => [/allP h|k _]; last by rewrite mxE -expr2 sqr_ge0.
by have := h i (mem_index_enum _); rewrite mxE mulf_eq0 orbb => /eqP.
Qed.

Variable std_sort : seq (R * nat) -> seq (R * nat).
Hypothesis sortP : forall l, perm_eq (std_sort l) l /\ sorted (fun a b => b.1 <= a.1) (std_sort l).
Variables (tmin tmax sqrteps : R).
Hypotheses (tmin0 : 0 < tmin) (tmm : tmin <= tmax) (eps0 : 0 < sqrteps).

Lemma std_sort_idx (rows cols : nat) (f : nat -> R) :
  let l := std_sort (mkseq (fun i => (f i, i)) cols) in
  let from i := (nth (0, 0%N) l i).2 in
  [/\ size l = cols, perm_eq [seq from i | i <- iota 0 cols] (iota 0 cols),
      forall i, (i < cols)%N -> (from i < cols)%N /\ (nth (0, 0%N) l i).1 = f (from i),
      forall i j, (i < cols)%N -> (j < cols)%N -> (from i == from j) = (i == j) &
      forall i j, (i <= j < cols)%N -> f (from j) <= f (from i)].
Proof.
pose l0 := mkseq (fun i => (f i, i)) cols; move=> l from; have [hp hs] : perm_eq l l0 /\ sorted (fun a b => b.1 <= a.1) l := sortP l0.
have sl : size l = cols by rewrite (perm_size hp) size_mkseq.
have el : [seq from i | i <- iota 0 cols] = [seq x.2 | x <- l].
  apply: (@eq_from_nth _ 0%N); rewrite !size_map size_iota ?sl // => i hi.
  by rewrite (nth_map 0%N) ?size_iota // nth_iota // (nth_map (0, 0%N)) ?sl.
have pi : perm_eq [seq from i | i <- iota 0 cols] (iota 0 cols).
  rewrite el; have -> : iota 0 cols = [seq x.2 | x <- l0] by rewrite -map_comp map_id_in.
  exact: perm_map.
have me i : (i < cols)%N -> (from i < cols)%N /\ (nth (0, 0%N) l i).1 = f (from i).
  move=> hi; have : nth (0, 0%N) l i \in l0 by rewrite -(perm_mem hp) mem_nth ?sl.
  by rewrite /from => /mapP [k]; rewrite mem_iota => /andP [_ hk] -> /=.
split=> //.
  move=> i j hi hj; have u : uniq [seq from i | i <- iota 0 cols] by rewrite (perm_uniq pi) iota_uniq.
  have := nth_uniq 0%N _ _ u; rewrite size_map size_iota => /(_ i j hi hj).
  by rewrite !(nth_map 0%N) ?size_iota // !nth_iota.
move=> i j /andP [ij jc]; have ic := leq_ltn_trans ij jc.
rewrite -(me i ic).2 -(me j jc).2.
have tr : transitive (fun a b : R * nat => b.1 <= a.1) by move=> a b c h1 h2; apply: le_trans h1.
have rf : reflexive (fun a b : R * nat => b.1 <= a.1) by move=> a; apply: lexx.
by apply: (sorted_leq_nth tr rf (0, 0%N) hs); rewrite ?inE ?sl.
Qed.

Lemma sum_perm cols (from : nat -> nat) (g : nat -> R) :
  perm_eq [seq from i | i <- iota 0 cols] (iota 0 cols) -> \sum_(i < cols) g (from i) = \sum_(i < cols) g i.
Proof.
move=> h; rewrite -(big_mkord xpredT (fun i => g (from i))) -(big_mkord xpredT g) /index_iota subn0.
by rewrite -(big_map from xpredT g) (perm_big _ h).
Qed.

Lemma one_sided_resultP rows cols rm sg0 s A st : (0 < cols <= rows)%N -> s != 0 ->
  mxof rows cols A != 0 ->
  inv1 (s^-1 *: mxof rows cols A) st ->
  (forall p q, (p < cols)%N -> (q < cols)%N -> p != q -> gram rows st.1 p q = 0) ->
  exists2 d, one_sided_result std_sort tmin tmax rows cols rm sg0 sqrteps s st = Some d &
  let U := mxof rows cols (svdU d) in let V := mxof cols cols (svdV d) in
  [/\ [/\ wf rows cols (svdU d), size (svdS d) = cols & wf cols cols (svdV d)],
      U^T *m U = 1%:M, V *m V^T = 1%:M &
      U *m diag_mx (rv cols (svdS d)) *m V = mxof rows cols A].
Proof.
move=> /andP [c0 cr] s0 A0; case: st => X V [/= wX wV oV eM] og; rewrite /one_sided_result.
set len := fun i => vlength (get_col rows X i).
have [sl pi me inj mono] := @std_sort_idx rows cols len.
set l := std_sort _ in sl pi me inj mono *; set from := fun i => (nth (0, 0%N) l i).2 in pi me inj mono *.
have lenE i : (i < cols)%N -> len i ^+ 2 = gram rows X i i.
  move=> hi; rewrite /len (@length_sum _ rows) ?(size_get_col wX) //; apply: eq_bigr => k _.
  by rewrite (nth_get_col _ wX) // expr2.
have len0 i : 0 <= len i by apply: length_ge0.
have SE i : (i < cols)%N -> nth 0 [seq x.1 | x <- l] i = len (from i).
  by move=> hi; rewrite (nth_map (0, 0%N)) ?sl // (me i hi).2.
set S := [seq x.1 | x <- l] in SE *.
have sS : size S = cols by rewrite size_map.
(* the sorted columns *)
set X1 := for_loop 0 cols _ (uninit false _ _ _).
have [wX1 gX1] : wf rows cols X1 /\ forall i j, (i < rows)%N -> (j < cols)%N -> get X1 i j = get X i (from j).
  pose P k (Y : mat R) := wf rows cols Y /\ forall i j, (i < rows)%N -> (j < k)%N -> get Y i j = get X i (from j).
  have : P cols X1; last by [].
  apply: (@for_loop_ind _ P) => //; first by split=> //; apply: wf_uninit.
  move=> k Y /andP [_ kc] [wY gY]; have [fk _] := me k kc.
  have [[w' _ _] g'] := set_colP wY kc (size_get_col wX fk).
  split=> // i j hi; rewrite ltnS leq_eqVlt g' => /orP [/eqP ->|jk]; first by rewrite eqxx (nth_get_col _ wX).
  by rewrite (ltn_eqF jk) gY.
set V1 := for_loop 0 cols _ (uninit true _ _ _).
have [wV1 gV1] : wf cols cols V1 /\ forall i j, (i < cols)%N -> (j < cols)%N -> get V1 i j = get V (from i) j.
  pose P k (Y : mat R) := wf cols cols Y /\ forall i j, (i < k)%N -> (j < cols)%N -> get Y i j = get V (from i) j.
  have : P cols V1; last by [].
  apply: (@for_loop_ind _ P) => //; first by split=> //; apply: wf_uninit.
  move=> k Y /andP [_ kc] [wY gY]; have [fk _] := me k kc.
  have [[w' _ _] g'] := set_rowP wY kc (size_get_row wV fk).
  split=> // i j; rewrite ltnS leq_eqVlt g' => /orP [/eqP ->|jk] hj; first by rewrite eqxx (nth_get_row _ wV).
  by rewrite (ltn_eqF jk) gY.
set X2 := for_loop 0 cols _ X1.
have [wX2 gX2] : wf rows cols X2 /\ forall i j, (i < rows)%N -> (j < cols)%N ->
    get X2 i j = if len (from j) != 0 then get X i (from j) / len (from j) else get X i (from j).
  pose P k (Y : mat R) := wf rows cols Y /\ forall i j, (i < rows)%N -> (j < cols)%N ->
    get Y i j = if (j < k)%N && (len (from j) != 0) then get X i (from j) / len (from j) else get X i (from j).
  have : P cols X2.
    apply: (@for_loop_ind _ P) => //.
    move=> k Y /andP [_ kc] [wY gY]; rewrite SE //.
    case: (eqVneq (len (from k)) 0) => [z|nz] /=.
      split=> // i j hi hj; rewrite gY // ltnS [(j <= k)%N]leq_eqVlt.
      by case: (j =P k) => [->|_] //=; rewrite ltnn z eqxx.
    have sc : size [seq x / len (from k) | x <- get_col rows Y k] = rows by rewrite size_map (size_get_col wY).
    have [[w' _ _] g'] := set_colP wY kc sc.
    split=> // i j hi hj; rewrite g' ltnS [(j <= k)%N]leq_eqVlt.
    case: (j =P k) => [->|_] /=; last by rewrite gY.
    by rewrite nz (set_nth_default 0) ?sc // (nth_map 0) ?(size_get_col wY) // (nth_get_col _ wY) // gY // ltnn.
  by case=> wX2 gX2; split=> // i j hi hj; rewrite gX2 // hj.
(* zero columns *)
have z0 i k : (i < cols)%N -> len i = 0 -> (k < rows)%N -> get X k i = 0.
  move=> hi hz hk; have := lenE i hi; rewrite hz expr0n /= => /esym /eqP; rewrite psumr_eq0; last first.
    by move=> l' _; rewrite -expr2 sqr_ge0.
  by move/allP/(_ (Ordinal hk) (mem_index_enum _)); rewrite mulf_eq0 orbb => /eqP.
have oX2 (i j : 'I_cols) : ((mxof rows cols X2)^T *m mxof rows cols X2) i j = if i == j then (len (from i) != 0)%:R else 0.
  have [fi _] := me i (ltn_ord i); have [fj _] := me j (ltn_ord j).
  rewrite mxE; under eq_bigr do rewrite !mxE !gX2 //.
  have -> : \sum_(k < rows) (if len (from i) != 0 then get X k (from i) / len (from i) else get X k (from i)) *
        (if len (from j) != 0 then get X k (from j) / len (from j) else get X k (from j)) =
      gram rows X (from i) (from j) / (if len (from i) != 0 then len (from i) else 1) / (if len (from j) != 0 then len (from j) else 1).
    rewrite /gram !mulr_suml; apply: eq_bigr => k _; case: eqP => _ /=; case: eqP => _ /=; rewrite ?divr1 //.
    - by rewrite mulrA.
    - by rewrite mulrAC.
    - by rewrite mulrACA -!mulrA.
  case: (i =P j) => [<-|ij]; last first.
    rewrite og // ?mul0r // inj //; apply/eqP => e; apply: ij; exact: val_inj.
  rewrite -lenE //; case: eqP => [->|/eqP nz] /=; first by rewrite expr0n !mul0r.
  by rewrite expr2 mulfK // divff.
have V1V1 : mxof cols cols V1 *m (mxof cols cols V1)^T = 1%:M.
  apply/matrixP => i j; have [fi _] := me i (ltn_ord i); have [fj _] := me j (ltn_ord j).
  have /matrixP /(_ (Ordinal fi) (Ordinal fj)) := mulmx1C oV.
  rewrite !mxE -!val_eqE /= inj // => <-; apply: eq_bigr => k _; by rewrite !mxE !gV1.
have X1V1 a b : (a < rows)%N -> (b < cols)%N -> \sum_(k < cols) get X a (from k) * get V (from k) b = get A a b / s.
  move=> ha hb; rewrite (sum_perm (fun k => get X a k * get V k b) pi).
  have /matrixP /(_ (Ordinal ha) (Ordinal hb)) := eM; rewrite mulmx_get => ->; by rewrite !mxE mulrC.
have [wc1 _ _ gc1] := convertP rm wV1.
have mV1 : mxof cols cols (convert rm cols cols V1) = mxof cols cols V1 by apply/matrixP => i j; rewrite !mxE gc1.
(* the product, given that U S = the sorted columns *)
have prod Um (T : seq R) : wf rows cols Um -> size T = cols -> (forall a i, (a < rows)%N -> (i < cols)%N -> get Um a i * nth 0 T i = get X a (from i)) ->
    mxof rows cols Um *m diag_mx (rv cols (vscale T s)) *m mxof cols cols (convert rm cols cols V1) = mxof rows cols A.
  move=> wUm sT h; rewrite mV1; apply/matrixP => a b; rewrite diag_mul [RHS]mxE -[RHS](divfK s0) -X1V1 // mulr_suml.
  apply: eq_bigr => k _; rewrite !mxE (nth_map 0) ?sT // gV1 // -h //.
  by move: (get Um _ _) (nth 0 T _) (get V _ _) => x y z; ring.
case: ifP => [/eqP over|/negbFE /eqP over].
  have [Q [Rm [-> [[wQ wR _ _] hu oQ eQ]]]] := @qrP R tmin tmax tmin0 tmm rows cols X2 wX2 (introT andP (conj c0 cr)).
  rewrite /=; eexists; first by reflexivity.
  have [wcQ _ _ gcQ] := convertP rm wQ.
  have mQ : mxof rows cols (convert rm rows cols Q) = mxof rows cols Q by apply/matrixP => i j; rewrite !mxE gcQ.
  split=> /=; rewrite ?mQ ?mV1 //; first by split=> //; rewrite size_map size_mkseq.
  rewrite -mQ -mV1; apply: prod => //; rewrite ?size_mkseq // => a i ha hi.
  have dR : forall i j : 'I_cols, if i == j then mxof cols cols Rm i j ^+ 2 = (len (from i) != 0)%:R else mxof cols cols Rm i j = 0.
    have h1 (i' j' : 'I_cols) : (j' < i')%N -> mxof cols cols Rm i' j' = 0 by move=> ji; rewrite mxE hu.
    pose e i := (i < cols)%N && (len (from i) != 0).
    have h2 i' j' : (i' <= j')%N -> e j' -> e i'.
      move=> ij /andP [jc nz]; rewrite /e (leq_ltn_trans ij jc) /=.
      move: nz; rewrite !neq_lt !ltNge !len0 /= -!ltNge => h.
      by apply: lt_le_trans h _; apply: mono; rewrite ij.
    have h3 (i' j' : 'I_cols) : ((mxof cols cols Rm)^T *m mxof cols cols Rm) i' j' = if i' == j' then (e i')%:R else 0.
      by rewrite /e ltn_ord /= -oX2 -eQ trmx_mul mulmxA -[_ *m _ *m mxof rows cols Q]mulmxA oQ mulmx1.
    by move=> i' j'; have := upper_diag h1 h2 h3 i' j'; rewrite /e ltn_ord.
  have QR : get X2 a i = get Q a i * get Rm i i.
    have /matrixP /(_ (Ordinal ha) (Ordinal hi)) := eQ; rewrite mulmx_get [RHS]mxE => <-.
    rewrite (bigD1 (Ordinal hi)) //= big1 ?addr0 // => k ki.
    by have := dR k (Ordinal hi); rewrite (negPf ki) mxE => ->; rewrite mulr0.
  have := dR (Ordinal hi) (Ordinal hi); rewrite eqxx mxE /= => r2.
  rewrite gcQ // nth_mkseq // SE // /copysign ger0_norm //.
  case: (eqVneq (len (from i)) 0) r2 => [z _|nz r2].
    by rewrite z oppr0 if_same mulr0 z0 // (me i hi).1.
  move: QR; rewrite gX2 // nz => /(canRL (divfK nz)) ->.
  move/eqP: r2; rewrite sqrf_eq1 => /orP [/eqP ->|/eqP ->].
    by rewrite ltr10 oner_eq0 /= mulr1.
  by rewrite ltrN10 /= mulrN1 mulrN mulNr.
(* every singular value is at least the threshold *)
eexists; first by reflexivity.
have all_ge i : (i < cols)%N -> nth 0 S 0 * sqrteps <= nth 0 S i.
  move=> hi; have : all (fun s => nth 0 S 0 * sqrteps <= s) S by rewrite all_count over sS.
  by move/(all_nthP 0); apply; rewrite sS.
have S0 : 0 < nth 0 S 0.
  rewrite SE // lt_def len0 andbT; apply: contraNneq A0 => z; apply/eqP/matrixP => a b; rewrite !mxE.
  apply/eqP; rewrite -[get A a b](divfK s0) -X1V1 // mulf_eq0 (negPf s0) orbF big1 // => k _.
  have [fk _] := me k (ltn_ord k); rewrite z0 ?mul0r //; apply/eqP; rewrite eq_le len0 andbT -z.
  by apply: mono; rewrite ltn_ord.
have nz i : (i < cols)%N -> len (from i) != 0.
  by move=> hi; rewrite -SE // gt_eqF // (lt_le_trans _ (all_ge i hi)) // mulr_gt0.
have [wcQ _ _ gcQ] := convertP rm wX2.
have mQ : mxof rows cols (convert rm rows cols X2) = mxof rows cols X2 by apply/matrixP => i j; rewrite !mxE gcQ.
split=> /=; rewrite ?mV1 ?mQ //.
- by split=> //; rewrite !size_map.
- by apply/matrixP => i j; rewrite oX2 nz // mxE; case: eqP.
- rewrite -mQ -mV1; apply: prod => // a i ha hi; rewrite gcQ // gX2 // nz // SE // divfK // nz //.
Qed.
End Result.
