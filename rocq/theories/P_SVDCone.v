(* The one-sided Jacobi SVD of complex matrices. *)
From mathcomp Require Import all_ssreflect all_algebra.
From mathcomp Require Import ring complex.
From Verif Require Import Spec M_Vec P_Vec M_Mat P_Mat P_Mat2 M_LU P_Tri P_LU P_LU2 M_Complex P_Complex M_QRC P_QRC P_QRC2 M_SVD P_SVD2 P_SVD P_SVDone M_SVDC P_SVDC2 P_SVDC P_SVDCres.
Set Implicit Arguments. Unset Strict Implicit. Unset Printing Implicit Defensive.
Import Order.Theory GRing.Theory Num.Theory.
Local Open Scope complex_scope.
Local Open Scope ring_scope.

Section One.
Variable R : rcfType.
Local Notation C := R[i].
Implicit Types (A U V X : mat C).
Variables (sg : nat -> nat -> nat -> bool) (rows cols : nat) (M0 : 'M[C]_(rows, cols)).

Definition inv1c (st : mat C * mat C) : Prop :=
  [/\ wf rows cols st.1, wf cols cols st.2, hermx (mxof cols cols st.2) *m mxof cols cols st.2 = 1%:M &
      mxof rows cols st.1 *m mxof cols cols st.2 = M0].

(* the scalar product of two columns *)
Definition gramc X p q : C := \sum_(k < rows) conjc (get X k p) * get X k q.

Lemma gramc_conj X p q : conjc (gramc X p q) = gramc X q p.
Proof. by rewrite /gramc conjsum; apply: eq_bigr => k _; rewrite conjM conjcK mulrC. Qed.
Lemma gramc_diag X p : gramc X p p = (\sum_(k < rows) cnorm1 (get X k p))%:C.
Proof. by rewrite rc_sum; apply: eq_bigr => k _; rewrite cnorm1E mulrC. Qed.

Lemma tmp_cE X p q : wf rows cols X -> (p < cols)%N -> (q < cols)%N ->
  tmp_c rows X p q = (Rep (gramc X p p), gramc X p q, Rep (gramc X q q)).
Proof.
move=> w hp hq.
have h l m : (l < cols)%N -> (m < cols)%N -> vsum (vmul (vconj (get_col rows X l)) (get_col rows X m)) = gramc X l m.
  move=> hl hm; apply: (@dot_rowcol _ rows (fun k => conjc (get X k l)) (fun k => get X k m)); rewrite ?size_map ?(size_get_col w) // => i hi.
    by rewrite (nth_map 0) ?(size_get_col w) // (nth_get_col _ w).
  by rewrite (nth_get_col _ w).
by rewrite /tmp_c !h.
Qed.

Lemma cabs_eq0' (z : C) : (cabs z == 0) = (z == 0). Proof. exact: cabs_eq0. Qed.

Lemma one_sided_step_cP k p q X V e : (p < q < cols)%N -> inv1c (X, V) ->
  exists X' V' e', one_sided_step_c sg rows cols k p q (X, V, e) = Some (X', V', e') /\ inv1c (X', V') /\
  gramc X' p q = 0 /\
  ((X', V', e') = (X, V, e) /\ gramc X p q = 0 \/ gramc X p q != 0 /\ e' = std_max e (cabs (gramc X p q))).
Proof.
move=> pq [/= wX wV oV eM]; have /andP [lpq qn] := pq; have pn := ltn_trans lpq qn.
have npq : (q == p) = false := gtn_eqF lpq.
have [t1 t2 t3] := tmp_cE wX pn qn; rewrite /one_sided_step_c /tmp_c t1 t2 t3 cabs_eq0; case: (eqVneq (gramc X p q) 0) => [z|nz].
  by exists X, V, e; do !split=> //; left.
rewrite /=.
have [c [s [-> [cs ho]]]] := diagonalize_hermitian_cP (sg k p q) (Rep (gramc X p p)) (gramc X p q) (Rep (gramc X q q)); ob.
have [r [sv [-> [hu pos mn [w hw hrot]]]]] := minimize_rotation_cP cs; ob.
have [[wX' _ _] eX] := givens_right_cP (r%:C) sv 1 wX pq.
have [[wV' _ _] eV] := givens_left_cP (r%:C) (- sv) 1 wV pq.
do 3!eexists; split; first by reflexivity.
set X' := givens_right_c _ _ _ _ _ _ _ in wX' eX *; set V' := givens_left_c _ _ _ _ _ _ _ in wV' eV *.
have one2 : 1 * conjc 1 = 1 :> C by rewrite conjc1 mul1r.
have hu' : r%:C * conjc r%:C + conjc sv * conjc (conjc sv) = 1 :> C by rewrite conj_rc conjcK [conjc sv * _]mulrC.
split; [split=> //=|split; last by right].
- rewrite -oV; apply/matrixP => i j; rewrite !mxE.
  under eq_bigr do rewrite !mxE mulrC.
  under [RHS]eq_bigr do rewrite !mxE mulrC.
  apply: (zsum_rot (f := fun k => get V' k j * conjc (get V' k i)) (g := fun k => get V k j * conjc (get V k i)) pq) => [l ln /negPf k1 /negPf k2|].
    by rewrite !eV // k1 k2.
  have := @rot_dot R (r%:C) (conjc sv) 1 (get V p j) (get V q j) (get V p i) (get V q i) hu' one2.
  rewrite !eV // !eqxx npq !mul1r !conjN !conj_rc !conjcK !mulrN !opprK.
  by move=> <-; congr (_ + _ * conjc _).
- rewrite -eM; apply/matrixP => i j; rewrite !mulmx_get_c.
  apply: (zsum_rot (f := fun k => get X' i k * get V' k j) (g := fun k => get X i k * get V k j) pq) => [l ln /negPf k1 /negPf k2|].
    by rewrite eV // eX // k1 k2.
  rewrite !eV // !eX // !eqxx npq !mul1r conjN conj_rc.
  transitivity ((r%:C * r%:C + sv * conjc sv) * (get X i p * get V p j + get X i q * get V q j)); last by rewrite hu mul1r.
  move: (conjc sv); move: (r%:C) (get X i p) (get X i q) (get V p j) (get V q j) => *; ring.
- have real_g l : (Rep (gramc X l l))%:C = gramc X l l by rewrite gramc_diag.
  have := offc_min (conj_rc _) (conj_rc _) hw hrot ho; rewrite !real_g gramc_conj /offc conj_rc => h; rewrite -[RHS]h.
  rewrite /gramc !mulr_suml -sumrB -sumrB mulr_suml -big_split /=.
  apply: eq_bigr => l _; rewrite !eX // !eqxx npq conjD !conjM conj_rc.
  move: (conjc sv) (conjc (get X l p)) (conjc (get X l q)); move: (r%:C) (get X l p) (get X l q) => *; ring.
Qed.

Lemma one_sided_sweep_cP k st : inv1c st ->
  exists st' e, one_sided_sweep_c sg rows cols k st = Some (st', e) /\ inv1c st'.
Proof.
move=> h; have [|[s e] h1 h2] := @pairs_loopP _ (fun s : mat C * mat C * R => inv1c s.1) cols (one_sided_step_c sg rows cols k) (st, 0) h.
  move=> p q [[X V] e] pq hs; have [X' [V' [e' [-> [hi _]]]]] := one_sided_step_cP k e pq hs.
  by exists (X', V', e').
by exists s, e.
Qed.

Lemma one_sided_jacobi_inv_c fuel k prev err st : inv1c st ->
  exists2 st', inv1c st' &
    jacobi (one_sided_sweep_c sg rows cols) fuel k prev err st = Done st' \/
    jacobi (one_sided_sweep_c sg rows cols) fuel k prev err st = Running st'.
Proof. by move=> h; apply: jacobiP => // k' s; apply: one_sided_sweep_cP. Qed.

(* orthogonal columns stay *)
Lemma one_sided_stay fuel k prev err st : inv1c st ->
  (forall p q, (p < q < cols)%N -> gramc st.1 p q = 0) ->
  jacobi (one_sided_sweep_c sg rows cols) fuel k prev err st = Done st \/
  jacobi (one_sided_sweep_c sg rows cols) fuel k prev err st = Running st.
Proof.
move=> hi ho; elim: fuel k prev err => [|f IH] k prev err /=; case: ifP => _; try by [left|right].
suff -> : one_sided_sweep_c sg rows cols k st = Some (st, 0) by apply: IH.
rewrite /one_sided_sweep_c.
have [|s' -> ->] := @pairs_loopP _ (fun s : mat C * mat C * R => s = (st, 0)) cols (one_sided_step_c sg rows cols k) (st, 0) erefl; last by [].
move=> p q s pq ->; case: st hi ho {IH} => X V hi ho.
have [X' [V' [e' [-> [_ [_ h]]]]]] := one_sided_step_cP k 0 pq hi; exists (X', V', e') => //.
by case: h => [[-> _] //|[]]; rewrite ho // eqxx.
Qed.
End One.

Section Result.
Variable R : rcfType.
Local Notation C := R[i].
Implicit Types (A U V X : mat C).

Lemma upper_diag_c n (M : 'M[C]_n) (e : nat -> bool) :
  (forall i j : 'I_n, (j < i)%N -> M i j = 0) -> (forall i j, (i <= j)%N -> e j -> e i) ->
  (forall i j, (hermx M *m M) i j = if i == j then (e i)%:R else 0) ->
  forall i j, if i == j then M i j * conjc (M i j) = (e i)%:R else M i j = 0.
Proof.
move=> hu hmon hd.
suff H m : forall i : 'I_n, (i < m)%N -> forall j, if i == j then M i j * conjc (M i j) = (e i)%:R else M i j = 0.
  by move=> i j; apply: (H i.+1).
elim: m => // m IH i; rewrite ltnS leq_eqVlt => /orP [/eqP im|]; last exact: IH.
have row j : (hermx M *m M) i j = conjc (M i i) * M i j.
  rewrite mxE (bigD1 i) //= mxE big1 ?addr0 // => k ki; rewrite mxE.
  have -> : M k i = 0; last by rewrite conjc0 mul0r.
  case: (ltngtP k i) => [lt|lt|eq]; last by move/eqP: ki; case; apply: val_inj.
    by have := IH k _ i; rewrite -im lt (negPf ki) => ->.
  exact: hu.
have hii : M i i * conjc (M i i) = (e i)%:R by rewrite mulrC -row hd eqxx.
move=> j; case: eqP => [<- //|/eqP ij].
case ei: (e i) hii => hii.
  have nz : conjc (M i i) != 0 by apply: contra_eq_neq hii => ->; rewrite mulr0 eq_sym oner_eq0.
  by apply: (mulfI nz); rewrite -row hd (negPf ij) mulr0.
case: (ltnP j i) => ji; first exact: hu.
have ej : e j = false by apply: negbTE; apply: contraFN ei; apply: hmon.
have : \sum_k cnorm1 (M k j) == 0.
  rewrite -rc_eq0 rc_sum; have := hd j j; rewrite eqxx ej mxE => h; apply/eqP; apply: etrans h.
  by apply: eq_bigr => k _; rewrite mxE cnorm1E mulrC.
rewrite psumr_eq0 => [/allP h|k _]; last exact: cnorm1_ge0.
by have := h i (mem_index_enum _); rewrite cnorm1_eq0 => /eqP.
Qed.

Variable std_sort : seq (R * nat) -> seq (R * nat).
Hypothesis sortP : forall l, perm_eq (std_sort l) l /\ sorted (fun a b => b.1 <= a.1) (std_sort l).
Variables (tmin tmax sqrteps : R).
Hypotheses (tmin0 : 0 < tmin) (tmm : tmin <= tmax) (eps0 : 0 < sqrteps).

Lemma zsum_perm cols (from : nat -> nat) (g : nat -> C) :
  perm_eq [seq from i | i <- iota 0 cols] (iota 0 cols) -> \sum_(i < cols) g (from i) = \sum_(i < cols) g i.
Proof.
move=> h; rewrite -(big_mkord xpredT (fun i => g (from i))) -(big_mkord xpredT g) /index_iota subn0.
by rewrite -(big_map from xpredT g) (perm_big _ h).
Qed.

Lemma one_sided_result_cP rows cols rm sg0 (s : R) A st : (0 < cols <= rows)%N -> 0 < s ->
  mxof rows cols A != 0 ->
  inv1c (s^-1%:C *: mxof rows cols A) st ->
  (forall p q, (p < cols)%N -> (q < cols)%N -> p != q -> gramc rows st.1 p q = 0) ->
  exists2 d, one_sided_result_c std_sort tmin tmax rows cols rm sg0 sqrteps s st = Some d &
  let U := mxof rows cols (cU d) in let V := mxof cols cols (cV d) in
  [/\ [/\ wf rows cols (cU d), size (cS d) = cols & wf cols cols (cV d)],
      hermx U *m U = 1%:M, V *m hermx V = 1%:M,
      exists2 ph : nat -> C, (forall i, ph i * conjc (ph i) = 1) &
        U *m diag_mx (\row_(i < cols) (ph i * (nth 0 (cS d) i)%:C)) *m V = mxof rows cols A /\
        ((exists2 i, (i < cols)%N & `|nth 0 (cS d) i| < sqrteps * `|nth 0 (cS d) 0|) ->
         exists2 c, (c < cols)%N & (exists2 k, (k < rows)%N & get st.1 k c != 0) /\
           (ph 0%N = anti (get st.1 0 c) \/ ph 0%N = - anti (get st.1 0 c))) &
      (forall i, (i < cols)%N -> sqrteps * `|nth 0 (cS d) 0| <= `|nth 0 (cS d) i|) ->
        U *m diag_mx (rvc cols (cS d)) *m V = mxof rows cols A /\ (forall i, (i < cols)%N -> 0 < nth 0 (cS d) i)].
Proof.
move=> /andP [c0 cr] s_gt0 A0; have s0 : s != 0 by rewrite gt_eqF.
have sc0 : s%:C != 0 :> C by rewrite rc_eq0.
case: st => X V [/= wX wV oV eM] og; rewrite /one_sided_result_c.
set len := fun i => clength (get_col rows X i).
have [sl pi me inj mono] := @std_sort_idx R std_sort sortP rows cols len.
set l := std_sort _ in sl pi me inj mono *; set from := fun i => (nth (0, 0%N) l i).2 in pi me inj mono *.
have lenE i : (i < cols)%N -> (len i ^+ 2)%:C = gramc rows X i i.
  move=> hi; rewrite /len (@clength_sum _ rows) ?(size_get_col wX) //; apply: eq_bigr => k _.
  by rewrite (nth_get_col _ wX) // mulrC.
have len0 i : 0 <= len i by apply: clength_ge0.
have SE i : (i < cols)%N -> nth 0 [seq x.1 | x <- l] i = len (from i).
  by move=> hi; rewrite (nth_map (0, 0%N)) ?sl // (me i hi).2.
set S := [seq x.1 | x <- l] in SE *.
have sS : size S = cols by rewrite size_map.
(* the sorted columns *)
set X1 := for_loop 0 cols _ (uninit false _ _ _).
have [wX1 gX1] : wf rows cols X1 /\ forall i j, (i < rows)%N -> (j < cols)%N -> get X1 i j = get X i (from j).
  pose P k (Y : mat C) := wf rows cols Y /\ forall i j, (i < rows)%N -> (j < k)%N -> get Y i j = get X i (from j).
  have : P cols X1; last by [].
  apply: (@for_loop_ind _ P) => //; first by split=> //; apply: wf_uninit.
  move=> k Y /andP [_ kc] [wY gY]; have [fk _] := me k kc.
  have [[w' _ _] g'] := set_colP wY kc (size_get_col wX fk).
  split=> // i j hi; rewrite ltnS leq_eqVlt g' => /orP [/eqP ->|jk]; first by rewrite eqxx (nth_get_col _ wX).
  by rewrite (ltn_eqF jk) gY.
set V1 := for_loop 0 cols _ (uninit true _ _ _).
have [wV1 gV1] : wf cols cols V1 /\ forall i j, (i < cols)%N -> (j < cols)%N -> get V1 i j = get V (from i) j.
  pose P k (Y : mat C) := wf cols cols Y /\ forall i j, (i < k)%N -> (j < cols)%N -> get Y i j = get V (from i) j.
  have : P cols V1; last by [].
  apply: (@for_loop_ind _ P) => //; first by split=> //; apply: wf_uninit.
  move=> k Y /andP [_ kc] [wY gY]; have [fk _] := me k kc.
  have [[w' _ _] g'] := set_rowP wY kc (size_get_row wV fk).
  split=> // i j; rewrite ltnS leq_eqVlt g' => /orP [/eqP ->|jk] hj; first by rewrite eqxx (nth_get_row _ wV).
  by rewrite (ltn_eqF jk) gY.
set X2 := for_loop 0 cols _ X1.
have [wX2 gX2] : wf rows cols X2 /\ forall i j, (i < rows)%N -> (j < cols)%N ->
    get X2 i j = if len (from j) != 0 then get X i (from j) / (len (from j))%:C else get X i (from j).
  pose P k (Y : mat C) := wf rows cols Y /\ forall i j, (i < rows)%N -> (j < cols)%N ->
    get Y i j = if (j < k)%N && (len (from j) != 0) then get X i (from j) / (len (from j))%:C else get X i (from j).
  have : P cols X2.
    apply: (@for_loop_ind _ P) => //.
    move=> k Y /andP [_ kc] [wY gY]; rewrite SE //.
    case: (eqVneq (len (from k)) 0) => [z|nz] /=.
      split=> // i j hi hj; rewrite gY // ltnS [(j <= k)%N]leq_eqVlt.
      by case: (j =P k) => [->|_] //=; rewrite ltnn z eqxx.
    have sc : size [seq x / (len (from k))%:C | x <- get_col rows Y k] = rows by rewrite size_map (size_get_col wY).
    have [[w' _ _] g'] := set_colP wY kc sc.
    split=> // i j hi hj; rewrite g' ltnS [(j <= k)%N]leq_eqVlt.
    case: (j =P k) => [->|_] /=; last by rewrite gY.
    by rewrite nz (set_nth_default 0) ?sc // (nth_map 0) ?(size_get_col wY) // (nth_get_col _ wY) // gY // ltnn.
  by case=> wX2 gX2; split=> // i j hi hj; rewrite gX2 // hj.
(* zero columns *)
have z0 i k : (i < cols)%N -> len i = 0 -> (k < rows)%N -> get X k i = 0.
  move=> hi hz hk; have := lenE i hi; rewrite hz expr0n gramc_diag => /complexI /esym /eqP; rewrite psumr_eq0; last first.
    by move=> l' _; apply: cnorm1_ge0.
  by move/allP/(_ (Ordinal hk) (mem_index_enum _)); rewrite cnorm1_eq0 => /eqP.
have oX2 (i j : 'I_cols) : (hermx (mxof rows cols X2) *m mxof rows cols X2) i j = if i == j then (len (from i) != 0)%:R else 0.
  have [fi _] := me i (ltn_ord i); have [fj _] := me j (ltn_ord j).
  rewrite mxE; under eq_bigr do rewrite !mxE !gX2 //.
  pose q i := if len (from i) != 0 then len (from i) else 1.
  have hq k (m : 'I_cols) : (if len (from m) != 0 then get X k (from m) / (len (from m))%:C else get X k (from m)) = get X k (from m) / (q m)%:C.
    by rewrite /q; case: eqP => //= _; rewrite (_ : (1 : R)%:C = 1) // divr1.
  under eq_bigr do rewrite !hq conj_divr.
  have -> : \sum_(k < rows) conjc (get X k (from i)) / (q i)%:C * (get X k (from j) / (q j)%:C) =
      gramc rows X (from i) (from j) / (q i)%:C / (q j)%:C.
    by rewrite /gramc !mulr_suml; apply: eq_bigr => k _; rewrite mulrACA mulrA.
  case: (i =P j) => [<-|ij]; last first.
    rewrite og // ?mul0r // inj //; apply/eqP => e; apply: ij; exact: val_inj.
  rewrite -lenE // /q; case: eqP => [->|/eqP nz] /=; first by rewrite expr0n (_ : (0 : R)%:C = 0) // !mul0r.
  have nzc : (len (from i))%:C != 0 :> C by rewrite rc_eq0.
  by rewrite rcX expr2 mulfK // divff.
have V1V1 : mxof cols cols V1 *m hermx (mxof cols cols V1) = 1%:M.
  apply/matrixP => i j; have [fi _] := me i (ltn_ord i); have [fj _] := me j (ltn_ord j).
  have /matrixP /(_ (Ordinal fi) (Ordinal fj)) := mulmx1C oV.
  rewrite !mxE -!val_eqE /= inj // => <-; apply: eq_bigr => k _; by rewrite !mxE !gV1.
have X1V1 a b : (a < rows)%N -> (b < cols)%N -> \sum_(k < cols) get X a (from k) * get V (from k) b = get A a b / s%:C.
  move=> ha hb; rewrite (zsum_perm (fun k => get X a k * get V k b) pi).
  have /matrixP /(_ (Ordinal ha) (Ordinal hb)) := eM; rewrite mulmx_get_c => ->; by rewrite !mxE mulrC rcV.
have [wc1 _ _ gc1] := convertP rm wV1.
have mV1 : mxof cols cols (convert rm cols cols V1) = mxof cols cols V1 by apply/matrixP => i j; rewrite !mxE gc1.
(* the product, given that U S = the sorted columns *)
have prod Um (T : nat -> C) : wf rows cols Um -> (forall a i, (a < rows)%N -> (i < cols)%N -> get Um a i * T i = get X a (from i) * s%:C) ->
    mxof rows cols Um *m diag_mx (\row_(i < cols) T i) *m mxof cols cols (convert rm cols cols V1) = mxof rows cols A.
  move=> wUm h; rewrite mV1; apply/matrixP => a b; rewrite diag_mul_c [RHS]mxE -[RHS](divfK sc0) -X1V1 // mulr_suml.
  apply: eq_bigr => k _; rewrite !mxE gV1 //; rewrite h //.
  by rewrite mulrAC.
have S0 : 0 < nth 0 S 0.
  rewrite SE // lt_def len0 andbT; apply: contraNneq A0 => z; apply/eqP/matrixP => a b; rewrite !mxE.
  apply/eqP; rewrite -[get A a b](divfK sc0) -X1V1 // mulf_eq0 (negPf sc0) orbF big1 // => k _.
  have [fk _] := me k (ltn_ord k); rewrite z0 ?mul0r //; apply/eqP; rewrite eq_le len0 andbT -z.
  by apply: mono; rewrite ltn_ord.
case: ifP => [over|/negbFE /eqP over].
  have [Q [Rm [eqr [[wQ wR _ _] hu oQ eQ]]]] := @qr_cP R tmin tmax tmin0 tmm rows cols X2 wX2 (introT andP (conj c0 cr)).
  rewrite eqr.
  ob; eexists; first by reflexivity.
  have [wcQ _ _ gcQ] := convertP rm wQ.
  have mQ : mxof rows cols (convert rm rows cols Q) = mxof rows cols Q by apply/matrixP => i j; rewrite !mxE gcQ.
  cbn [cU cS cV]; set T := mkseq _ cols.
  have TE i : (i < cols)%N -> nth 0 (vscale T s) i = (if (Rep (get Rm i i) < 0) || ((Rep (get Rm i i) == 0) && sg0 i) then - len (from i) else len (from i)) * s.
    move=> hi; rewrite (nth_map 0) ?size_mkseq // nth_mkseq // SE // /copysign [`|_|]ger0_norm //.
  split; rewrite ?mQ ?mV1 //; first by split=> //; rewrite size_map size_mkseq.
    have dR : forall i j : 'I_cols, if i == j then mxof cols cols Rm i j * conjc (mxof cols cols Rm i j) = (len (from i) != 0)%:R else mxof cols cols Rm i j = 0.
      have h1 (i' j' : 'I_cols) : (j' < i')%N -> mxof cols cols Rm i' j' = 0 by move=> ji; rewrite mxE hu.
      pose e i := (i < cols)%N && (len (from i) != 0).
      have h2 i' j' : (i' <= j')%N -> e j' -> e i'.
        move=> ij /andP [jc nz]; rewrite /e (leq_ltn_trans ij jc) /=.
        move: nz; rewrite !neq_lt !ltNge !len0 /= -!ltNge => h.
        by apply: lt_le_trans h _; apply: mono; rewrite ij.
      have h3 (i' j' : 'I_cols) : (hermx (mxof cols cols Rm) *m mxof cols cols Rm) i' j' = if i' == j' then (e i')%:R else 0.
        by rewrite /e ltn_ord /= -oX2 -eQ hermx_mul mulmxA -[_ *m _ *m mxof rows cols Q]mulmxA oQ mulmx1.
      by move=> i' j'; have := upper_diag_c h1 h2 h3 i' j'; rewrite /e ltn_ord.
    pose sgn i : C := if (Rep (get Rm i i) < 0) || ((Rep (get Rm i i) == 0) && sg0 i) then -1 else 1.
    have sgn2 i : sgn i * sgn i = 1 by rewrite /sgn; case: ifP => _; rewrite ?mulrNN mulr1.
    have sgnc i : conjc (sgn i) = sgn i by rewrite /sgn; case: ifP => _; rewrite ?conjN conjc1.
    exists (fun i => if (i < cols)%N && (len (from i) != 0) then get Rm i i * sgn i else 1).
      move=> i; case: ifP => [/andP [hi nz]|_]; last by rewrite conjc1 mulr1.
      have := dR (Ordinal hi) (Ordinal hi); rewrite eqxx mxE /= nz => r2.
      by rewrite conjM mulrACA r2 sgnc sgn2 mulr1.
    split; last first.
      move=> _; have [f0 _] := me 0%N c0; have nz : len (from 0%N) != 0 by rewrite -SE // gt_eqF.
      exists (from 0%N) => //; split.
        case: (boolP [exists k : 'I_rows, get X k (from 0%N) != 0]) => [/existsP [k hk]|/existsPn h]; first by exists k.
        move: nz; rewrite -sqrf_eq0 -rc_eq0 lenE // gramc_diag rc_eq0 big1 ?eqxx // => k _.
        by apply/eqP; rewrite cnorm1_eq0; have := h k; rewrite negbK.
      rewrite c0 nz /=; have r0 := leq_trans c0 cr.
      have -> : get Rm 0 0 = anti (get X 0 (from 0%N)).
        rewrite (qr_first tmin0 tmm wX2 (introT andP (conj c0 cr)) eqr) gX2 // nz anti_divr; last by rewrite lt_def nz len0.
        suff -> : clength (get_col rows X2 0) = 1 by rewrite (_ : (1 : R)%:C = 1) // mulr1.
        apply/eqP; rewrite -(@eqr_expn2 _ 2) ?clength_ge0 ?ler01 // expr1n; apply/eqP/complexI.
        rewrite (@clength_sum _ rows) ?(size_get_col wX2) //.
        have := oX2 (Ordinal c0) (Ordinal c0); rewrite eqxx nz mxE => h1; apply: etrans (etrans h1 _); last by [].
        by apply: eq_bigr => k _; rewrite !mxE (nth_get_col _ wX2) // mulrC.
      by rewrite /sgn; case: ifP => _; rewrite ?mulr1 ?mulrN1; [right|left].
    rewrite -mQ -mV1; apply: (prod _ (fun i => (if (i < cols)%N && (len (from i) != 0) then get Rm i i * sgn i else 1) * (nth 0 (vscale T s) i)%:C)) => // a i ha hi.
    have QR : get X2 a i = get Q a i * get Rm i i.
      have /matrixP /(_ (Ordinal ha) (Ordinal hi)) := eQ; rewrite mulmx_get_c [RHS]mxE => <-.
      rewrite (bigD1 (Ordinal hi)) //= big1 ?addr0 // => k ki.
      by have := dR k (Ordinal hi); rewrite (negPf ki) mxE => ->; rewrite mulr0.
    rewrite gcQ // TE // hi /=; case: (eqVneq (len (from i)) 0) => [z|nz] /=.
      by rewrite z oppr0 if_same mul0r (_ : (0 : R)%:C = 0) // !mulr0 z0 ?mul0r // (me i hi).1.
    move: QR; rewrite gX2 // nz => /(canRL (divfK _)); rewrite rc_eq0 => /(_ nz) ->.
    have -> : ((if (Rep (get Rm i i) < 0) || (Rep (get Rm i i) == 0) && sg0 i then - len (from i) else len (from i)) * s)%:C = sgn i * (len (from i))%:C * s%:C :> C.
      by rewrite [in LHS]rcM /sgn; case: ifP => _; rewrite ?mul1r // mulN1r; congr (_ * _); apply/eqP; rewrite eq_complex /= oppr0 !eqxx.
    have := sgn2 i; move: (sgn i) (s%:C) ((len (from i))%:C) (get Rm i i) (get Q a i) => e t u v w e1.
    by transitivity (e * e * (w * v * u * t)); [ring|rewrite e1 mul1r].
  (* some singular value is under the threshold *)
  move=> hge; case/negP: over; rewrite -sS -all_count; apply/(all_nthP 0) => i; rewrite sS => hi.
  have := hge i hi; have lT j : (j < cols)%N -> `|nth 0 (vscale T s) j| = nth 0 S j * s.
    by move=> hj; rewrite TE // normrM (gtr0_norm s_gt0) SE //; case: ifP => _; rewrite ?normrN ger0_norm.
  by rewrite !lT // mulrA ler_pmul2r // mulrC.
(* every singular value is at least the threshold *)
eexists; first by reflexivity.
have all_ge i : (i < cols)%N -> nth 0 S 0 * sqrteps <= nth 0 S i.
  move=> hi; have : all (fun s => nth 0 S 0 * sqrteps <= s) S by rewrite all_count over sS.
  by move/(all_nthP 0); apply; rewrite sS.
have nz i : (i < cols)%N -> len (from i) != 0.
  by move=> hi; rewrite -SE // gt_eqF // (lt_le_trans _ (all_ge i hi)) // mulr_gt0.
have [wcQ _ _ gcQ] := convertP rm wX2.
have mQ : mxof rows cols (convert rm rows cols X2) = mxof rows cols X2 by apply/matrixP => i j; rewrite !mxE gcQ.
cbn [cU cS cV]; have TE i : (i < cols)%N -> nth 0 (vscale S s) i = len (from i) * s by move=> hi; rewrite (nth_map 0) ?sS // SE.
have pr : mxof rows cols (convert rm rows cols X2) *m diag_mx (rvc cols (vscale S s)) *m mxof cols cols (convert rm cols cols V1) = mxof rows cols A.
  apply: (prod _ (fun i => (nth 0 (vscale S s) i)%:C)) => // a i ha hi; rewrite gcQ // gX2 // nz // TE // [in LHS]rcM mulrA divfK // rc_eq0 nz //.
split; rewrite ?mV1 ?mQ //.
- by split=> //; rewrite !size_map.
- by apply/matrixP => i j; rewrite oX2 nz // mxE; case: eqP.
- exists (fun=> 1) => [i|]; first by rewrite conjc1 mulr1.
  split; first by rewrite -mQ -mV1 -pr; congr (_ *m diag_mx _ *m _); apply/rowP => i; rewrite !mxE mul1r //.
  case=> i hi; have SS j : (j < cols)%N -> `|nth 0 (vscale S s) j| = nth 0 S j * s.
    by move=> hj; rewrite TE // SE // ger0_norm // mulr_ge0 // ltW.
  by rewrite !SS // mulrA ltr_pmul2r // ltNge mulrC all_ge.
- move=> _; split; first by rewrite -mQ -mV1.
  by move=> i hi; rewrite TE // mulr_gt0 // lt_def nz // len0.
Qed.
End Result.
