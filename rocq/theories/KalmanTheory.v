(* Theory of the Kalman operations. *)
From mathcomp Require Import all_ssreflect all_algebra zify.
From Coq Require Import String.
From Verif Require Import RingTac Base BaseTheory Spec ModelState Denote StateTheory ModelAux AuxTheory ModelSim SpecSim SimTheory ModelKalman.

Set Implicit Arguments.
Unset Strict Implicit.
Unset Printing Implicit Defensive.

Import Order.TTheory GRing.Theory Num.Theory.
Local Open Scope ring_scope.

Section Arrays.
Variable R : realFieldType.
Implicit Types A B C X Y Z : arr R.
Local Notation mx := (mxof [rmorphism of @idfun R]).

Lemma amxE m n A : amx m n A = mx m n A. Proof. by apply/matrixP=> i j; rewrite !mxE. Qed.

Lemma nr_apow A k : nr A = nc A -> nr (apow A k) = nr A. Proof. by case: k. Qed.
Lemma nc_apow A k : nr A = nc A -> nc (apow A k) = nr A.
Proof. by move=> h; elim: k => //= k ->. Qed.

Lemma mx_apow n A k : nr A = n -> nc A = n -> mx n n (apow A k) = mpow (mx n n A) k.
Proof.
move=> h1 h2; elim: k => [|k IH] /=; first by rewrite h1 mxof_eye.
by rewrite (@mxof_mul _ _ _ n n n) ?IH // nc_apow ?h1.
Qed.

Lemma mx_get m n A (i : 'I_m) (j : 'I_n) : get A i j = mx m n A i j. Proof. by rewrite mxE. Qed.

(* ---------------------------------------------------------------- ctrb *)
Definition ctrbN A B K := foldl (fun Cc i => ahcat Cc (amul (apow A i) B)) B (iota 1 K).

Lemma ctrbNS A B K : ctrbN A B K.+1 = ahcat (ctrbN A B K) (amul (apow A K.+1) B).
Proof. by rewrite /ctrbN -[K.+1 in LHS]addn1 iotaD foldl_cat. Qed.

Lemma ctrbN_shape A B K : nr B = nr A -> nr (ctrbN A B K) = nr A /\ nc (ctrbN A B K) = (K.+1 * nc B)%N.
Proof.
move=> h; elim: K => [|K [IH1 IH2]]; first by rewrite mul1n.
by rewrite ctrbNS /= IH1 IH2; split=> //; rewrite [(K.+2 * _)%N]mulSn addnC.
Qed.

Lemma ctrbN_wf A B K : wfa B -> wfa (ctrbN A B K).
Proof. by move=> wB; case: K => // K; rewrite ctrbNS; apply: wfa_mk. Qed.

Lemma ctrbN_get n m A B K : nr A = n -> nc A = n -> nr B = n -> nc B = m -> forall k (i : 'I_n) (j : 'I_m), (k <= K)%N ->
  get (ctrbN A B K) i (k * m + j) = (mpow (amx n n A) k *m amx n m B) i j.
Proof.
move=> h1 h2 h3 h4; have sq : nr A = nc A by rewrite h1.
have e k : mpow (amx n n A) k *m amx n m B = mx n m (amul (apow A k) B).
  by rewrite !amxE (@mxof_mul _ _ _ n n m) ?mx_apow ?nr_apow ?nc_apow ?h1.
elim: K => [|K IH] k i j hk.
  by move: hk; rewrite leqn0 => /eqP->; rewrite mul0n add0n /= mul1mx mxE.
have [s1 s2] := @ctrbN_shape A B K (etrans h3 (esym h1)).
have hb : (k * m + j < K.+2 * m)%N.
  apply: leq_trans (_ : (k.+1 * m <= _)%N); first by rewrite mulSn addnC ltn_add2r.
  by rewrite leq_pmul2r //; case: (j) => ?; lia.
rewrite ctrbNS get_mk ?s1 ?h1 // ?s2 /=; last by rewrite h4; move: hb; rewrite !mulSn; lia.
rewrite h4; case: ltnP hk => h hk.
  apply: IH; move: h; rewrite -ltn_subRL => h; rewrite -ltnS -(ltn_pmul2r (m := m)); last by case: (j) => ?; lia.
  by apply: leq_ltn_trans (leq_addr j _) _; move: h; lia.
have -> : k = K.+1.
  apply/eqP; rewrite eqn_leq hk /= leqNgt; apply/negP => hk'; move: h; apply/negP; rewrite -ltnNge.
  by apply: leq_trans (_ : (k.+1 * m <= _)%N); [rewrite mulSn addnC ltn_add2r | rewrite leq_mul2r hk' orbT].
by rewrite addKn e mxE.
Qed.

Lemma ctrb_N A B : ctrb A B = ctrbN A B (nr A).-1. Proof. by []. Qed.

(* duality *)
Lemma aT_mul X Y : nc X = nr Y -> aT (amul X Y) = amul (aT Y) (aT X).
Proof.
move=> h; apply: arr_eqP; rewrite ?wfa_mk // => i j /= hi hj.
rewrite !get_mk // h; apply: eq_sumN => k hk; rewrite !get_mk ?h //; exact: mulrC.
Qed.
Lemma aT_hcat X Y : nr X = nr Y -> aT (ahcat X Y) = avcat (aT X) (aT Y).
Proof.
move=> h; apply: arr_eqP; rewrite ?wfa_mk // => i j /= hi hj.
rewrite [LHS]get_mk // [RHS]get_mk // [LHS]get_mk //=; case: ltnP => hc; rewrite get_mk //=; last by rewrite -h.
by move: hi hc; clear; lia.
Qed.

Lemma amulA X Y Z : nc X = nr Y -> nc Y = nr Z -> amul X (amul Y Z) = amul (amul X Y) Z.
Proof.
move=> h1 h2; apply: (@mxof_inj _ _ [rmorphism of @idfun R] (nr X) (nc Z)); rewrite ?wfa_mk //.
by rewrite (@mxof_mul _ _ _ _ (nc X)) // (@mxof_mul _ _ _ (nc X) (nc Y)) // (@mxof_mul _ _ _ _ (nc Y)) // (@mxof_mul _ _ _ _ (nc X)) // mulmxA.
Qed.
Lemma aTm X Y : wfa X -> wfa Y -> aT X = aT Y -> X = Y.
Proof. by move=> wX wY e; rewrite -(aTK wX) -(aTK wY) e. Qed.

Lemma apow_T A k : wfa A -> nr A = nc A -> apow (aT A) k = aT (apow A k).
Proof.
move=> wA sq; apply: (@mxof_inj _ _ [rmorphism of @idfun R] (nr A) (nr A)); rewrite ?wfa_mk //.
- by case: k => [|k]; rewrite wfa_mk.
- by case: k => [|k] /=; rewrite -?sq.
- by rewrite nc_apow //= sq.
- by rewrite /= nc_apow.
- by rewrite /= nr_apow.
rewrite (@mx_apow (nr A)) ?nr_mk ?nc_mk -?sq // !(@mxof_T _ _ _ (nr A) (nr A)) ?nr_apow ?nc_apow -?sq // (@mx_apow (nr A)) -?sq //.
elim: k => [|k IH] /=; first by rewrite trmx1.
rewrite IH -trmx_mul; congr (_^T); elim: k {IH} => [|k IH] /=; first by rewrite mul1mx mulmx1.
by rewrite -mulmxA IH.
Qed.

Lemma ctrb_dual A C : wfa A -> wfa C -> nr A = nc A -> nc C = nr A ->
  obsv A C = aT (ctrb (aT A) (aT C)).
Proof.
move=> wA wC sq h; rewrite /obsv /ctrb /= -sq.
elim: (_.-1) => [|K IH]; first by rewrite /= aTK.
rewrite -[K.+1]addn1 iotaD !foldl_cat; set X := foldl _ _ (iota 1 K) in IH *; set Y := foldl _ _ (iota 1 K) in IH *.
change (avcat X (amul C (apow A K.+1)) = aT (ahcat Y (amul (apow (aT A) K.+1) (aT C)))).
have hY : nr Y = nr A by have [-> _] := @ctrbN_shape (aT A) (aT C) K (etrans h sq); rewrite /= sq.
have wP : wfa (apow A K.+1) by apply: wfa_mk.
rewrite aT_hcat; last by rewrite hY /= sq.
rewrite IH; congr avcat; rewrite apow_T // -aT_mul ?nr_apow // aTK //; exact: wfa_mk.
Qed.

End Arrays.

Section SvdAlg.
Variable R : realFieldType.

Lemma count_sorted (tol : R) s : sorted (fun x y => y <= x) s -> forall i, (i < size s)%N ->
  (tol < nth 0 s i) = (i < count (fun x => (tol < x)%R) s)%N.
Proof.
elim: s => [//|x s IH] /= hp; have tr : transitive (fun x y : R => y <= x) by move=> a b c h1 h2; apply: le_trans h2 h1.
have al := order_path_min tr hp; have [hx|hx] := ltrP tol x.
  case=> [|i] hi /=; first by rewrite hx add1n.
  by rewrite add1n ltnS; apply: IH => //; apply: path_sorted hp.
have fl y : y \in x :: s -> (tol < y) = false.
  by rewrite inE ltNge => /orP[/eqP->|/(allP al) h]; rewrite ?hx // (le_trans h hx).
have -> : count (fun x => tol < x) s = 0%N.
  by apply/eqP; rewrite -leqn0 leqNgt -has_count -all_predC; apply/allP => y hy /=; rewrite fl // inE hy orbT.
by move=> i hi; rewrite fl ?ltn0 // mem_nth.
Qed.

Definition sigma p m (s : seq R) : 'M[R]_(p, m) := \matrix_(i, j) if i == j :> nat then nth 0 s i else 0.

Section Given.
Variables (p m : nat) (U : 'M[R]_p) (V : 'M[R]_m) (s : seq R) (M : 'M[R]_(p, m)) (tol : R).
Hypotheses (hU : U^T *m U = 1%:M) (hV : V *m V^T = 1%:M) (hM : M = U *m (sigma p m s *m V)).
Hypotheses (ss : size s = minn p m) (pos : all (fun x => 0 <= x) s) (so : sorted (fun x y => y <= x) s).
Hypotheses (t0 : 0 <= tol) (ex : forall x, x \in s -> x = 0 \/ tol < x).
Let r := count (fun x => tol < x) s.

Lemma svd_r_le : (r <= minn p m)%N. Proof. by rewrite -ss; apply: count_size. Qed.

Lemma svd_pos j : (j < r)%N -> nth 0 s j != 0.
Proof.
move=> hj; have hs : (j < size s)%N by apply: leq_trans hj (count_size _ _).
by have := count_sorted tol so hs; rewrite hj => h; apply: lt0r_neq0; apply: le_lt_trans t0 h.
Qed.

Lemma svd_zero j : (r <= j)%N -> nth 0 s j = 0.
Proof.
move=> hj; have [hs|hs] := ltnP j (size s); last by rewrite nth_default.
have := count_sorted tol so hs; rewrite ltnNge hj /= => h.
by case: (ex (mem_nth 0 hs)) => // h'; rewrite h' in h.
Qed.

Lemma svd_sigma : sigma p m s = diag_mx (\row_i if (i < r)%N then nth 0 s i else 1) *m pid_mx r.
Proof.
apply/matrixP => i j; rewrite mul_diag_mx !mxE; case: eqP => [e|_]; last by rewrite mulr0.
by case: ltnP => h; rewrite ?mulr1 // svd_zero // mulr0.
Qed.

Lemma svd_unitU : U \in unitmx. Proof. by have [] := mulmx1_unit hU. Qed.
Lemma svd_unitV : V \in unitmx. Proof. by have [] := mulmx1_unit hV. Qed.

Lemma svd_rank : \rank M = r.
Proof.
have r1 : (r <= p)%N by apply: leq_trans svd_r_le (geq_minl _ _).
have r2 : (r <= m)%N by apply: leq_trans svd_r_le (geq_minr _ _).
rewrite hM mulmxA mxrankMfree ?row_free_unit ?svd_unitV //.
rewrite svd_sigma mulmxA -mxrank_tr trmx_mul mxrankMfree; last first.
  rewrite row_free_unit unitmx_tr unitmx_mul svd_unitU /= unitmxE det_diag unitfE.
  apply/prodf_neq0 => i _; rewrite mxE; case: ifP => [h|_]; [exact: svd_pos | exact: oner_neq0].
by rewrite mxrank_tr rank_pid_mx.
Qed.

(* U^T M is row compressed *)
Lemma svd_rows (i : 'I_p) (j : 'I_m) : (r <= i)%N -> (U^T *m M) i j = 0.
Proof.
move=> hi; rewrite hM mulmxA hU mul1mx svd_sigma -mulmxA mul_diag_mx mxE [X in _ * X]mxE big1 ?mulr0 // => k _.
by rewrite mxE ltnNge hi andbF mul0r.
Qed.

(* the range of M is spanned by the first r columns of U *)
Lemma svd_inv (W : 'M[R]_p) (X : 'M[R]_m) : W *m M = M *m X -> forall i j : 'I_p, (r <= i)%N -> (j < r)%N -> (U^T *m W *m U) i j = 0.
Proof.
move=> e i j hi hj; have e2 : U^T *m W *m U *m sigma p m s = U^T *m M *m X *m V^T.
  rewrite -!mulmxA.
  have -> : U *m sigma p m s = M *m V^T by rewrite hM -!mulmxA hV mulmx1.
  by rewrite (mulmxA W) e !mulmxA.
have hjm : (j < m)%N by apply: leq_trans hj (leq_trans svd_r_le (geq_minr _ _)).
have := congr1 (fun Z : 'M_(p, m) => Z i (Ordinal hjm)) e2.
rewrite [LHS]mxE (bigD1 j) //= big1 ?addr0; last first.
  by move=> k hk; rewrite [sigma _ _ _ _ _]mxE /=; case: eqP => [/val_inj ek|_]; [rewrite ek eqxx in hk | rewrite mulr0].
have -> : (U^T *m M *m X *m V^T) i (Ordinal hjm) = 0.
  by rewrite -[U^T *m M *m X *m V^T]mulmxA [LHS]mxE big1 // => k _; rewrite svd_rows // mul0r.
rewrite [sigma _ _ _ _ _]mxE /= eqxx => /eqP.
by rewrite mulf_eq0 (negbTE (svd_pos hj)) orbF => /eqP.
Qed.

End Given.
End SvdAlg.

Section CtrbMx.
Variable R : realFieldType.
Local Notation mx := (mxof [rmorphism of @idfun R]).

Lemma horner_mxE n (A : 'M[R]_n.+1) (q : {poly R}) : horner_mx A q = \sum_(i < size q) q`_i *: A ^+ i.
Proof.
rewrite -[q in LHS]coefK poly_def rmorph_sum; apply: eq_bigr => i _.
by rewrite -mul_polyC rmorphM /= horner_mx_C rmorphX /= horner_mx_X; exact: mul_scalar_mx.
Qed.

Lemma mpowE n (A : 'M[R]_n.+1) k : mpow A k = A ^+ k.
Proof. by elim: k => [|k IH]; rewrite ?expr0 // mpowS IH exprS. Qed.

(* A^n is a combination of the lower powers *)
Lemma cayley n (A : 'M[R]_n) : exists c : nat -> R, mpow A n = \sum_(i < n) c i *: mpow A i.
Proof.
case: n A => [|n] A; first by exists (fun _ => 0); rewrite big_ord0 [LHS]flatmx0.
exists (fun i => - (char_poly A)`_i).
have := Cayley_Hamilton A; rewrite horner_mxE size_char_poly big_ord_recr /= => /eqP.
have -> : (char_poly A)`_n.+1 = 1.
  by have /monicP := char_poly_monic A; rewrite /lead_coef size_char_poly.
rewrite scale1r addrC addr_eq0 -mpowS mpowE => /eqP->; rewrite -sumrN; apply: eq_bigr => i _.
by rewrite mpowE scaleNr.
Qed.

(* the controllability matrix *)
Definition cmx n m (A : 'M[R]_n) (B : 'M[R]_(n, m)) (Cc : 'M[R]_(n, n * m)) : Prop :=
  forall k (i : 'I_n) (l : 'I_m) (j : 'I_(n * m)), (k < n)%N -> j = (k * m + l)%N :> nat -> Cc i j = (mpow A k *m B) i l.

Lemma idx_lt n m k l : (k < n)%N -> (l < m)%N -> (k * m + l < n * m)%N.
Proof.
move=> hk hl; apply: leq_trans (_ : (k.+1 * m <= _)%N); first by rewrite mulSn addnC ltn_add2r.
by rewrite leq_mul2r hk orbT.
Qed.

Lemma cmx_col n m (A : 'M[R]_n) (B : 'M[R]_(n, m)) Cc k (l : 'I_m) : cmx A B Cc -> (k < n)%N ->
  ((mpow A k *m col l B)^T <= Cc^T)%MS.
Proof.
move=> h hk; pose j := Ordinal (idx_lt hk (ltn_ord l)).
have -> : (mpow A k *m col l B)^T = row j Cc^T.
  apply/matrixP=> a b; rewrite !mxE (h k b l j) // mxE; apply: eq_bigr => q _; by rewrite !mxE.
exact: row_sub.
Qed.

Lemma cmx_inv n m (A : 'M[R]_n) (B : 'M[R]_(n, m)) Cc : cmx A B Cc -> exists X, A *m Cc = Cc *m X.
Proof.
move=> h; have /submxP[D hD] : ((A *m Cc)^T <= Cc^T)%MS.
  apply/row_subP => j; have m0 : (0 < m)%N by case: m {h B Cc} j => // - []; rewrite muln0.
  have hk : (j %/ m < n)%N by rewrite ltn_divLR.
  pose l := Ordinal (ltn_pmod j m0).
  have -> : row j (A *m Cc)^T = (mpow A (j %/ m).+1 *m col l B)^T.
    rewrite mpowS -mulmxA; apply/matrixP=> a b; rewrite !mxE; apply: eq_bigr => q _; congr (_ * _).
    rewrite (h (j %/ m)%N q l j) //; last by rewrite /= -divn_eq.
    by rewrite !mxE; apply: eq_bigr => ? _; rewrite !mxE.
  move: hk; rewrite leq_eqVlt => /orP[/eqP->|hk]; last exact: cmx_col.
  have [c ->] := cayley A; rewrite mulmx_suml linear_sum /=; apply: summx_sub => i _.
  by rewrite -scalemxAl linearZ /=; apply: scalemx_sub; apply: cmx_col.
by exists D^T; rewrite -[LHS]trmxK hD trmx_mul trmxK.
Qed.

Lemma ctrb_cmx n m (A B : arr R) : nr A = n -> nc A = n -> nr B = n -> nc B = m -> (0 < n)%N ->
  cmx (mx n n A) (mx n m B) (mx n (n * m) (ctrb A B)).
Proof.
move=> h1 h2 h3 h4 n0 k i l j hk ej; rewrite mxE /= ej ctrb_N.
rewrite (@ctrbN_get R n m A B _ h1 h2 h3 h4 k i l); first by rewrite !amxE.
by rewrite h1; move: hk; clear; lia.
Qed.

Lemma ctrb_shape n m (A B : arr R) : nr A = n -> nr B = n -> nc B = m -> (0 < n)%N ->
  nr (ctrb A B) = n /\ nc (ctrb A B) = (n * m)%N.
Proof.
move=> h1 h3 h4 n0; rewrite ctrb_N; have [-> ->] := @ctrbN_shape R A B (nr A).-1 (etrans h3 (esym h1)).
by rewrite h1 h4 prednK.
Qed.

Lemma ctrb_wf (A B : arr R) : wfa B -> wfa (ctrb A B). Proof. exact: ctrbN_wf. Qed.

End CtrbMx.

(* ------------------------------------------------------------------ *)
Section Kal.
Variable R : realFieldType.
Variables (npsvd : arr R -> arr R * seq R * arr R) (spac : R).
Local Notation mx := (mxof [rmorphism of @idfun R]).
Local Notation controllability_matrix := (controllability_matrix npsvd spac).
Local Notation observability_matrix := (observability_matrix npsvd spac).
Local Notation kalman_decomposition := (kalman_decomposition npsvd spac).

Definition svtol (A : arr R) (s : seq R) : R := smax s * (maxn (nr A) (nc A))%:R * spac.
Definition svrank (A : arr R) (s : seq R) : nat := count (fun x => svtol A s < x) s.

Lemma smax_ge0 (s : seq R) : 0 <= smax s.
Proof. by elim: s => //= x s IH; rewrite le_maxr IH orbT. Qed.
Lemma svtol_ge0 A s : 0 <= spac -> 0 <= svtol A s.
Proof. by move=> h; rewrite !mulr_ge0 ?smax_ge0 ?ler0n. Qed.

Lemma haroldsvd_ok (A u v : arr R) s : npsvd A = (u, s, v) -> s != [::] ->
  haroldsvd npsvd spac A None = Ok (u, mk (nr A) (nc A) (fun i j => if i == j then nth 0 s i else 0), v, svrank A s).
Proof. by rewrite /haroldsvd => -> /negbTE->. Qed.

Lemma get_abP g (A B : arr R) : get_ab g = Ok (A, B) ->
  (forall G, g = Sys G -> wfS G -> sgain G = false -> nr A = nc A /\ nr B = nr A) /\
  (forall t, g = Tup t -> [/\ nr A = nc A, nr B = nr A & exists t', t = A :: B :: t']).
Proof.
case: g => [G|[|a [|b t]]] //=.
  move=> [<- <-]; split=> // _ [<-] w g; have [_ [e1 e2 _ _ _]] := wfS_dyn w g; by rewrite e1 e2.
rewrite /assert_square; case: eqP => //= e1; case: eqP => //= e2 [<- <-]; split=> // t' [<-]; by split=> //; exists t.
Qed.

Lemma ctrb_ok (A B u v : arr R) s t : nr A = nc A -> nr B = nr A -> npsvd (ctrb A B) = (u, s, v) -> s != [::] ->
  controllability_matrix (Tup (A :: B :: t)) false = Ok (ctrb A B, u, svrank (ctrb A B) s).
Proof. by move=> h1 h2 e s0; rewrite /ModelKalman.controllability_matrix /= /assert_square h1 eqxx /= h2 h1 eqxx /= (haroldsvd_ok e s0). Qed.

Lemma ctrb_sys (G : state R) u s v : npsvd (ctrb (sa G) (sb G)) = (u, s, v) -> s != [::] ->
  controllability_matrix (Sys G) false = Ok (ctrb (sa G) (sb G), u, svrank (ctrb (sa G) (sb G)) s).
Proof. by move=> e s0; rewrite /ModelKalman.controllability_matrix /= (haroldsvd_ok e s0). Qed.

Lemma obsv_ok (A C u v : arr R) s t : nr A = nc A -> nc C = nr A -> npsvd (obsv A C) = (u, s, v) -> s != [::] ->
  observability_matrix (Tup (A :: C :: t)) false = Ok (obsv A C, v, svrank (obsv A C) s).
Proof. by move=> h1 h2 e s0; rewrite /ModelKalman.observability_matrix /= /assert_square h1 eqxx /= h2 h1 eqxx /= (haroldsvd_ok e s0). Qed.

(* a consistent svd as matrices *)
Lemma svd_mx (M u v : arr R) s : wfa M -> npsvd_ok M (u, s, v) ->
  [/\ (mx (nr M) (nr M) u)^T *m mx (nr M) (nr M) u = 1%:M, mx (nc M) (nc M) v *m (mx (nc M) (nc M) v)^T = 1%:M &
   mx (nr M) (nc M) M = mx (nr M) (nr M) u *m (sigma (nr M) (nc M) s *m mx (nc M) (nc M) v)].
Proof.
move=> wM [[wu [u1 u2] wv [v1 v2]] ou ov [sz pos so] e]; split.
- have := congr1 (mx (nr M) (nr M)) ou; rewrite (@mxof_mul _ _ _ _ (nr M)) ?nc_mk ?nr_mk ?u1 ?u2 // mxof_eye.
  by rewrite (@mxof_T _ _ _ (nr M) (nr M)).
- have := congr1 (mx (nc M) (nc M)) ov; rewrite (@mxof_mul _ _ _ _ (nc M)) ?nc_mk ?nr_mk ?v1 ?v2 // mxof_eye.
  by rewrite (@mxof_T _ _ _ (nc M) (nc M)).
rewrite [X in mx _ _ X]e (@mxof_mul _ _ _ _ (nr M)) // ?(@mxof_mul _ _ _ _ (nc M)) ?nr_mk ?nc_mk ?v2 //.
congr (_ *m (_ *m _)); apply/matrixP=> i j; rewrite mxE /= get_mk // mxE //.
Qed.


Lemma cleanup0 m n (M : arr R) : nr M = m -> nc M = n -> mx m n (cleanup 0 M) = mx m n M.
Proof.
move=> h1 h2; apply/matrixP=> i j; rewrite !mxE get_mk ?h1 ?h2 // ltNge normr_ge0 //.
Qed.

Lemma transform0 n m p (T a b c A B C : arr R) : nr a = n -> nc a = n -> nr b = n -> nc b = m -> nc c = n -> nr c = p ->
  transform 0 T a b c = Ok (A, B, C) ->
  [/\ nr T = n, nc T = n & mx n n T \in unitmx] /\
  [/\ [/\ wfa A, wfa B & wfa C], [/\ shp A = (n, n), shp B = (n, m) & shp C = (p, n)],
   mx n n A = invmx (mx n n T) *m mx n n a *m mx n n T, mx n m B = invmx (mx n n T) *m mx n m b &
   mx p n C = mx p n c *m mx n n T].
Proof.
move=> h1 h2 h3 h4 h5 h6; rewrite /transform; case e1: np_solve => [x|//]; case e2: np_solve => [y|//] [<- <- <-].
have [t1 t2] : nr T = n /\ nc T = n.
  by move: e1; rewrite /np_solve; case: ifP => // /norP[/negbNE/eqP <- /negbNE/eqP->] _.
have [_ x1 x2 uT ex] := np_solve_ok [rmorphism of @idfun R] t1 h2 e1.
have [_ y1 y2 _ ey] := np_solve_ok [rmorphism of @idfun R] t1 h4 e2.
have sm q (M : arr R) : nr M = q -> nr (amul M T) = q /\ nc (amul M T) = n by rewrite /= t2.
split; first by split.
have [sx1 sx2] := sm _ _ x1; have [sc1 sc2] := sm _ _ h6.
split; first by split; apply: wfa_mk.
- by split; rewrite /shp /= ?x1 ?t2 ?y1 ?y2 ?h6.
- by rewrite cleanup0 // (@mxof_mul _ _ _ n n) // ex.
- by rewrite cleanup0 // ey.
- by rewrite cleanup0 // (@mxof_mul _ _ _ p n).
Qed.

(* K is G in the coordinates x = T z *)
Definition similar (G K : state R) (T : 'M[R]_(snn G)) : Prop :=
  let n := snn G in let m := smn G in let p := spn G in
  [/\ T \in unitmx, snn K = n,
   [/\ mx n n (sa K) = invmx T *m mx n n (sa G) *m T, mx n m (sb K) = invmx T *m mx n m (sb G) &
       mx p n (sc K) = mx p n (sc G) *m T] & sd K = sd G].
Arguments similar G K T : clear implicits.

Lemma mx_map (L : fieldType) (f : {rmorphism R -> L}) m n (A : arr R) : mxof f m n A = map_mx f (mx m n A).
Proof. by apply/matrixP=> i j; rewrite !mxE. Qed.

Lemma invmxM (L : fieldType) n (X Y : 'M[L]_n) : X \in unitmx -> Y \in unitmx -> invmx (X *m Y) = invmx Y *m invmx X.
Proof.
move=> uX uY; have u : X *m Y \in unitmx by rewrite unitmx_mul uX.
rewrite -[RHS](mulKmx u) -[LHS]mulmx1; congr (_ *m _).
by rewrite mulmxA mulmxK // mulmxV.
Qed.

Lemma tfmx_sim (L : fieldType) n m p (T A : 'M[L]_n) (B : 'M[L]_(n, m)) (C : 'M[L]_(p, n)) D s : T \in unitmx ->
  regular (invmx T *m A *m T) s = regular A s /\
  tfmx (invmx T *m A *m T) (invmx T *m B) (C *m T) D s = tfmx A B C D s.
Proof.
move=> uT; have e : s%:M - invmx T *m A *m T = invmx T *m (s%:M - A) *m T.
  by rewrite mulmxBr mulmxBl scalar_mxC -[s%:M *m _ *m _]mulmxA mulVmx // mulmx1.
have r : regular (invmx T *m A *m T) s = regular A s by rewrite /regular e !unitmx_mul unitmx_inv uT andbT.
split=> //; rewrite /tfmx e; congr (_ + _); case u: (s%:M - A \in unitmx).
  set M := s%:M - A in u *.
  have -> : invmx (invmx T *m M *m T) = invmx T *m invmx M *m T.
    by rewrite !invmxM ?unitmx_mul ?unitmx_inv ?uT ?u // invmxK mulmxA.
  by rewrite !mulmxA mulmxK // mulmxK.
have u' : (invmx T *m (s%:M - A) *m T \in unitmx) = false by rewrite !unitmx_mul unitmx_inv uT u.
have iv (M : 'M[L]_n) : (M \in unitmx) = false -> invmx M = M by rewrite /invmx => ->.
by rewrite (iv _ u') (iv _ u) !mulmxA mulmxK // mulmxK.
Qed.

Lemma similar_tf (L : fieldType) (f : {rmorphism R -> L}) (G K : state R) T s : similar G K T ->
  regS f K s = regS f G s /\ forall i j, (i < spn G)%N -> (j < smn G)%N -> ev f K s i j = ev f G s i j.
Proof.
case=> uT eN [eA eB eC] eD; have uT' : map_mx f T \in unitmx by rewrite map_unitmx.
have mA q r (X : arr R) : mxof f q r X = map_mx f (mx q r X) by apply: mx_map.
have [h1 h2] := @tfmx_sim L _ _ _ (map_mx f T) (mxof f _ _ (sa G)) (mxof f _ (smn G) (sb G)) (mxof f (spn G) _ (sc G))
  (mxof f (spn G) (smn G) (sd G)) s uT'.
split; first by rewrite /regS eN (mA _ _ (sa K)) eA !map_mxM map_invmx -mA h1.
move=> i j hi hj; rewrite -(evalSE f K s (Ordinal hi) (Ordinal hj)) -(evalSE f G s (Ordinal hi) (Ordinal hj)).
congr (fun_of_matrix _ _ _); by rewrite /evalS -h2 eN eD (mA _ _ (sa K)) (mA _ _ (sb K)) (mA _ _ (sc K)) eA eB eC !map_mxM map_invmx -!mA.
Qed.

Lemma kalman_inv (G K : state R) T : wfS G -> kalman_decomposition 0 G = Ok (K, Some T) -> sgain G = false ->
  [/\ wfS K, sgain K = false, sdt K = sdt G, shp T = (snn G, snn G) & similar G K (mx (snn G) (snn G) T)].
Proof.
move=> w + ng; rewrite /ModelKalman.kalman_decomposition ng.
have [[wa wb wc wd] [e1 e2 e3 e4 e5]] := wfS_dyn w ng.
case: is_kalman_controllable => [ctr|//]; rewrite [bind _ _]/=; case: (if ctr then _ else _) => [[Tc r]|//]; rewrite [bind _ _]/=.
case ec: transform => [[[ac bc] cc]|//]; rewrite [bind _ _]/=; case: ifP => // r0.
case: (if _ != _ then _ else _) => [To|//]; rewrite [bind _ _]/=.
case eo: transform => [[[A B] C]|//]; rewrite [bind _ _]/=; case ek: mkS => [K'|//] [<- <-].
have [[t1 t2 ut] [_ [[a1 a2] [b1 b2] [c1 c2]] ma mb mc]] := @transform0 (snn G) (smn G) (spn G) _ _ _ _ _ _ _ erefl e1 e2 e5 e3 e4 ec.
have [[o1 o2 uo] [[wA wB wC] [[A1 A2] [B1 B2] [C1 C2]] mA mB mC]] := transform0 a1 a2 b1 b2 c2 c1 eo.
have eK : K' = St A B C (sd G) false (sdt G).
  by move: ek; rewrite mkS_ok ?A1 ?A2 ?B1 ?B2 ?C1 ?C2 ?(wfS_dt w) // => -[].
rewrite eK; split=> //.
- apply: wfS_mk => //; rewrite ?A1 ?A2 ?B1 ?B2 ?C1 ?C2 //; exact: wfS_dt w.
- by rewrite /shp /= t1 o2.
split=> //=; first by rewrite (@mxof_mul _ _ _ _ (snn G)) // unitmx_mul ut uo.
rewrite (@mxof_mul _ _ _ _ (snn G)) // mA mB mC ma mb mc.
by split; rewrite ?invmxM // !mulmxA.
Qed.


(* what the loops need of the svd: invertible factors of the right size and at least one singular value *)
Definition svd_shape (M : arr R) (usv : arr R * seq R * arr R) : Prop :=
  let: (u, s, v) := usv in
  [/\ s != [::], shp u = (nr M, nr M), shp v = (nc M, nc M), adet u != 0 & adet v != 0].

Lemma adet_eye n : adet (aeye n : arr R) != 0.
Proof. by rewrite -(unit_adet [rmorphism of @idfun R] (n := n)) // mxof_eye unitmx1. Qed.

Lemma transform_ok n th (T a b c : arr R) : shp T = (n, n) -> adet T != 0 -> nr a = n -> nr b = n ->
  exists A B C, [/\ transform th T a b c = Ok (A, B, C), nr A = n /\ nc A = n, nr B = n /\ nc B = nc b & nr C = nr c /\ nc C = n].
Proof.
move=> [t1 t2] u h1 h3; rewrite /transform (@np_solveP _ n (nc a)) // (negbTE u) /= (@np_solveP _ n (nc b)) // (negbTE u) /=.
by do 3 eexists; split; first reflexivity; rewrite /= ?t1 ?t2.
Qed.

Lemma obsv_shape n (A C : arr R) : nr A = n -> nc A = n -> nc C = n -> (0 < n)%N ->
  nr (obsv A C) = (n * nr C)%N /\ nc (obsv A C) = n.
Proof.
move=> h1 h2 h3 n0; rewrite /obsv h1.
have : forall K, nr (foldl (fun Co i => avcat Co (amul C (apow A i))) C (iota 1 K)) = (K.+1 * nr C)%N /\
   nc (foldl (fun Co i => avcat Co (amul C (apow A i))) C (iota 1 K)) = n.
  elim=> [|K [IH1 IH2]]; first by rewrite /= mul1n.
  rewrite -[K.+1]addn1 iotaD foldl_cat /= IH1 IH2; split=> //.
  by rewrite addn1 [(K.+2 * _)%N]mulSn addnC.
by move=> h; have [-> ->] := h n.-1; rewrite prednK.
Qed.

Lemma obs_ok n (A C : arr R) : (forall M, (0 < nr M)%N -> (0 < nc M)%N -> svd_shape M (npsvd M)) ->
  nr A = n -> nc A = n -> nc C = n -> (0 < n)%N -> (0 < nr C)%N ->
  exists Co V r, [/\ observability_matrix (Tup [:: A; C]) false = Ok (Co, V, r), shp V = (n, n) & adet V != 0].
Proof.
move=> hs h1 h2 h3 n0 p0; have [s1 s2] := obsv_shape h1 h2 h3 n0.
have := hs (obsv A C); rewrite s1 s2 muln_gt0 n0 p0 => /(_ isT isT).
case e: (npsvd _) => [[u s] v] [s0 _ sv _ dv].
by exists (obsv A C), v, (svrank (obsv A C) s); rewrite (obsv_ok _ _ _ e s0) ?h1 ?h2 ?h3 // sv s2.
Qed.

Lemma kalman_total th (G : state R) u s v : wfS G -> sgain G = false -> (0 < snn G)%N -> (0 < smn G)%N -> (0 < spn G)%N ->
  (forall M, (0 < nr M)%N -> (0 < nc M)%N -> svd_shape M (npsvd M)) -> npsvd (ctrb (sa G) (sb G)) = (u, s, v) ->
  if svrank (ctrb (sa G) (sb G)) s == 0%N then kalman_decomposition th G = Err ValueError
  else exists K T, kalman_decomposition th G = Ok (K, Some T).
Proof.
move=> w ng n0 m0 p0 hs es; have [[wa wb wc wd] [e1 e2 e3 e4 e5]] := wfS_dyn w ng.
have e1' : nr (sa G) = snn G by [].
have [c1 c2] := ctrb_shape e1' e2 e5 n0.
have := hs (ctrb (sa G) (sb G)); rewrite c1 c2 muln_gt0 n0 m0 => /(_ isT isT); rewrite es /svd_shape c1 => -[s0 su sv du dv].
set r := svrank _ s; rewrite /ModelKalman.kalman_decomposition ng -/(snn G).
have -> : is_kalman_controllable npsvd spac (Sys G) = Ok (~~ (r < snn G)%N).
  by rewrite /is_kalman_controllable /= (ctrb_ok [::] _ _ es s0) // e1.
rewrite [bind _ _]/= (ctrb_sys es s0) -/r [bind _ _]/=.
case: (ltnP r (snn G)) => [hr|hr]; rewrite [bind _ _]/=.
  have [ac [bc [cc [-> [a1 a2] [b1 b2] [c1' c2']]]]] := @transform_ok _ th u (sa G) (sb G) (sc G) su du e1' e2.
  rewrite [bind _ _]/=; case: eqP => // /eqP r0; rewrite ltn_eqF //=.
  have [|||||Co1 [V1 [r1 [-> sV1 dV1]]]] := @obs_ok r (asubm ac 0 r 0 r) (asubm cc 0 (nr cc) 0 r) hs; rewrite ?nr_mk ?nc_mk ?subn0 ?lt0n ?r0 //.
    by rewrite c1' e4 ?lt0n -?lt0n.
  have [|||||Co2 [V2 [r2 [-> sV2 dV2]]]] := @obs_ok (snn G - r) (asubm ac r (snn G) r (snn G)) (asubm cc 0 (nr cc) r (snn G)) hs; rewrite ?nr_mk ?nc_mk ?subn0 ?subn_gt0 //.
    by rewrite c1' e4 ?lt0n -?lt0n.
  rewrite [bind _ _]/=.
  have [v11 v12] := sV1; have [v21 v22] := sV2.
  have st : shp (adiag2 V1 V2) = (snn G, snn G) by rewrite /shp /= v11 v12 v21 v22 subnKC // ltnW.
  have dt : adet (adiag2 V1 V2) != 0.
    rewrite -(unit_adet [rmorphism of @idfun R] (n := r + (snn G - r))); last by rewrite /= v11 v21.
    by rewrite mxof_diag2 // unitmxE det_ublock unitrM -!unitmxE !(unit_adet [rmorphism of @idfun R]) ?dV1.
  have [A [B [C [-> [A1 A2] [B1 B2] [C1 C2]]]]] := @transform_ok _ th _ ac bc cc st dt a1 b1.
  by rewrite [bind _ _]/= mkS_ok ?A1 ?A2 ?B1 ?B2 ?C1 ?C2 ?b2 ?c1' ?(wfS_dt w) //=; do 2 eexists.
have [ac [bc [cc [-> [a1 a2] [b1 b2] [c1' c2']]]]] := @transform_ok (snn G) th (aeye (snn G)) (sa G) (sb G) (sc G) erefl (adet_eye _) e1' e2.
rewrite [bind _ _]/= -lt0n n0 eqxx /=.
have -> : (r == 0%N) = false by apply/negbTE; rewrite -lt0n; apply: leq_trans n0 hr.
have [To [-> sT dT]] : exists To, [/\ (do obs <- is_kalman_observable npsvd spac (Tup [:: ac; cc]);
    if obs then Ok (aeye (snn G)) else do (_, To, _) <- observability_matrix (Tup [:: ac; cc]) false; Ok To) = Ok To,
    shp To = (snn G, snn G) & adet To != 0].
  have [|||||Co1 [V1 [r1 [e sV1 dV1]]]] := @obs_ok (snn G) ac cc hs; rewrite ?a1 ?a2 ?c2' ?c1' ?e4 //.
  rewrite /is_kalman_observable /= /assert_square a1 a2 eqxx /= c2' eqxx /= e /=; case: ifP => _ //=.
    by exists (aeye (snn G)); split=> //; apply: adet_eye.
  by exists V1.
rewrite [bind _ _]/=; have [A [B [C [-> [A1 A2] [B1 B2] [C1 C2]]]]] := @transform_ok _ th _ ac bc cc sT dT a1 b1.
by rewrite [bind _ _]/= mkS_ok ?A1 ?A2 ?B1 ?B2 ?C1 ?C2 ?b2 ?c1' ?(wfS_dt w) //=; do 2 eexists.
Qed.


(* block triangular matrices in coordinates r + q *)
Lemma inv_diag r q (X : 'M[R]_r) (Y : 'M[R]_q) : X \in unitmx -> Y \in unitmx ->
  invmx (block_mx X 0 0 Y) = block_mx (invmx X) 0 0 (invmx Y).
Proof.
move=> uX uY; have e : block_mx X 0 0 Y *m block_mx (invmx X) 0 0 (invmx Y) = 1%:M.
  by rewrite mulmx_block !mulmx0 !mul0mx !addr0 !add0r !mulmxV // -scalar_mx_block.
have u : block_mx X 0 0 Y \in unitmx by have [] := mulmx1_unit e.
by rewrite -[RHS](mulKmx u) e mulmx1.
Qed.

Lemma low_zero r q m (M : arr R) : (forall i j, (r <= i < r + q)%N -> (j < m)%N -> get M i j = 0) ->
  mx (r + q) m M = col_mx (mx r m M) 0.
Proof.
move=> h; apply/matrixP=> i j; rewrite !mxE; case: splitP => k ek; rewrite !mxE ek //.
by rewrite h ?rmorph0 // leq_addr ltn_add2l /=.
Qed.

Lemma block_keep n r q m (V1 V2 ac bc A B : arr R) : n = (r + q)%N -> shp V1 = (r, r) -> shp V2 = (q, q) ->
  adet V1 != 0 -> adet V2 != 0 ->
  (forall k l, (r <= k < n)%N -> (l < r)%N -> get ac k l = 0) -> (forall k l, (r <= k < n)%N -> (l < m)%N -> get bc k l = 0) ->
  mx n n A = invmx (mx n n (adiag2 V1 V2)) *m mx n n ac *m mx n n (adiag2 V1 V2) ->
  mx n m B = invmx (mx n n (adiag2 V1 V2)) *m mx n m bc ->
  forall i j, (r <= i < n)%N -> ((j < r)%N -> get A i j = 0) /\ ((j < m)%N -> get B i j = 0).
Proof.
move=> ->{n} [v11 v12] [v21 v22] d1 d2 za zb; rewrite (@mxof_diag2 _ _ _ r q r q) //.
have u1 : mx r r V1 \in unitmx by rewrite unit_adet.
have u2 : mx q q V2 \in unitmx by rewrite unit_adet.
rewrite inv_diag // (low_zero zb) -(submxK (mx _ _ ac)).
have -> : dlsubmx (mx (r + q) (r + q) ac) = 0.
  apply/matrixP=> i j; rewrite !mxE /= za ?rmorph0 //; by rewrite leq_addr ltn_add2l /=.
rewrite !mulmx_block !mul0mx !mulmx0 !addr0 ?add0r mul_block_col !mul0mx !mulmx0 !addr0 => mA mB i j /andP[hi hi'].
split=> hj; have hk : (i - r < q)%N by move: hi hi'; clear; lia.
  have := congr1 (fun M : 'M_(_, _) => M (rshift r (Ordinal hk)) (lshift q (Ordinal hj))) mA.
  by rewrite block_mxEdl !mxE /= subnKC.
have := congr1 (fun M : 'M_(_, _) => M (rshift r (Ordinal hk)) (Ordinal hj)) mB.
by rewrite col_mxEd !mxE /= subnKC.
Qed.

Lemma kalman_structure (G K : state R) T u s v : wfS G -> sgain G = false -> (0 < snn G)%N -> (0 < smn G)%N -> (0 < spn G)%N ->
  0 <= spac -> (forall M, (0 < nr M)%N -> (0 < nc M)%N -> svd_shape M (npsvd M)) ->
  npsvd (ctrb (sa G) (sb G)) = (u, s, v) -> npsvd_ok (ctrb (sa G) (sb G)) (u, s, v) ->
  (forall x, x \in s -> x = 0 \/ svtol (ctrb (sa G) (sb G)) s < x) ->
  kalman_decomposition 0 G = Ok (K, Some T) ->
  let r := \rank (amx (snn G) (snn G * smn G) (ctrb (sa G) (sb G))) in
  forall i j, (r <= i < snn G)%N -> ((j < r)%N -> get (sa K) i j = 0) /\ ((j < smn G)%N -> get (sb K) i j = 0).
Proof.
move=> w ng n0 m0 p0 sp0 hs es ok ex; have [[wa wb wc wd] [e1 e2 e3 e4 e5]] := wfS_dyn w ng.
have e1' : nr (sa G) = snn G by [].
have [c1 c2] := ctrb_shape e1' e2 e5 n0; have wC := ctrb_wf (sa G) wb.
have := hs (ctrb (sa G) (sb G)); rewrite c1 c2 muln_gt0 n0 m0 => /(_ isT isT); rewrite es /svd_shape c1 => -[s0 su sv du dv].
have [_ _ _ [sz pos so] _] := ok; have [oU oV eM] := svd_mx wC ok.
rewrite c1 c2 in oU oV eM sz.
have rE : \rank (amx (snn G) (snn G * smn G) (ctrb (sa G) (sb G))) = svrank (ctrb (sa G) (sb G)) s.
  by rewrite amxE; apply: svd_rank oU oV eM sz so (svtol_ge0 _ _ sp0) ex.
rewrite rE; set r := svrank _ s; rewrite /ModelKalman.kalman_decomposition ng -/(snn G).
have -> : is_kalman_controllable npsvd spac (Sys G) = Ok (~~ (r < snn G)%N).
  by rewrite /is_kalman_controllable /= (ctrb_ok [::] _ _ es s0) // e1.
rewrite [bind _ _]/= (ctrb_sys es s0) -/r [bind _ _]/=.
case: (ltnP r (snn G)) => [hr|hr]; rewrite [bind _ _]/=; last first.
  by move=> _ i j /andP[h1 h2]; move: (leq_ltn_trans (leq_trans hr h1) h2); rewrite ltnn.
case ec: transform => [[[ac bc] cc]|//]; rewrite [bind _ _]/=; case: eqP => // /eqP r0; rewrite ltn_eqF //=.
have [[t1 t2 ut] [_ [[a1 a2] [b1 b2] [c1' c2']] ma mb mc]] := @transform0 (snn G) (smn G) (spn G) _ _ _ _ _ _ _ erefl e1 e2 e5 e3 e4 ec.
have [|||||Co1 [V1 [r1 [-> sV1 dV1]]]] := @obs_ok r (asubm ac 0 r 0 r) (asubm cc 0 (nr cc) 0 r) hs; rewrite ?nr_mk ?nc_mk ?subn0 ?lt0n ?r0 //.
  by rewrite c1' -?lt0n.
have [|||||Co2 [V2 [r2 [-> sV2 dV2]]]] := @obs_ok (snn G - r) (asubm ac r (snn G) r (snn G)) (asubm cc 0 (nr cc) r (snn G)) hs; rewrite ?nr_mk ?nc_mk ?subn0 ?subn_gt0 //.
  by rewrite c1' -?lt0n.
rewrite [bind _ _]/=.
have [v11 v12] := sV1; have [v21 v22] := sV2.
case eo: transform => [[[A B] C]|//]; rewrite [bind _ _]/=; case ek: mkS => [K'|//] [<- _].
have [[o1 o2 uo] [[wA wB wC'] [[A1 A2] [B1 B2] [C1 C2]] mA mB mC]] := transform0 a1 a2 b1 b2 c2' c1' eo.
have eK : K' = St A B C (sd G) false (sdt G).
  by move: ek; rewrite mkS_ok ?A1 ?A2 ?B1 ?B2 ?C1 ?C2 ?(wfS_dt w) // => -[].
rewrite eK /= => i j /andP[hi hin].
have iU : invmx (mx (snn G) (snn G) u) = (mx (snn G) (snn G) u)^T.
  have uU : mx (snn G) (snn G) u \in unitmx by have [] := mulmx1_unit oU.
  by rewrite -[RHS]mulmx1 -(mulmxV uU) mulmxA oU mul1mx.
(* rows r and below of bc, and the lower left block of ac, vanish *)
have zb k l : (r <= k < snn G)%N -> (l < smn G)%N -> get bc k l = 0.
  case/andP=> hk hk' hl; have := congr1 (fun M : 'M_(_, _) => M (Ordinal hk') (Ordinal hl)) mb; rewrite mxE /= => ->.
  have hj : (l < snn G * smn G)%N by apply: leq_trans hl _; rewrite leq_pmull.
  rewrite iU; have -> : (mx (snn G) (snn G) u)^T *m mx (snn G) (smn G) (sb G) =
     \matrix_(a, b) ((mx (snn G) (snn G) u)^T *m mx (snn G) (snn G * smn G) (ctrb (sa G) (sb G))) a (widen_ord (leq_pmull (smn G) n0) b).
    apply/matrixP=> a b; rewrite !mxE; apply: eq_bigr => q _; congr (_ * _).
    have := @ctrb_cmx R _ _ _ _ e1' e1 e2 e5 n0 0%N q b (widen_ord (leq_pmull (smn G) n0) b) n0 erefl.
    by rewrite /= mul1mx => ->.
  by rewrite mxE; apply: (svd_rows oU eM so ex).
have za k l : (r <= k < snn G)%N -> (l < r)%N -> get ac k l = 0.
  case/andP=> hk hk' hl; have hl' : (l < snn G)%N by apply: leq_trans hl (ltnW hr).
  have := congr1 (fun M : 'M_(_, _) => M (Ordinal hk') (Ordinal hl')) ma; rewrite mxE /= => ->.
  have [X eX] := cmx_inv (@ctrb_cmx R _ _ _ _ e1' e1 e2 e5 n0).
  rewrite iU; exact: (svd_inv oU oV eM sz so (svtol_ge0 _ _ sp0) ex eX).
have eq : snn G = (r + (snn G - r))%N by rewrite subnKC // ltnW.
by apply: (block_keep eq sV1 sV2 dV1 dV2 za zb mA mB); rewrite hi.
Qed.

(* dropping trailing states that the input does not reach *)
Definition leading (r : nat) (K : state R) : state R :=
  St (asubm (sa K) 0 r 0 r) (asubm (sb K) 0 r 0 (smn K)) (asubm (sc K) 0 (spn K) 0 r) (sd K) (sgain K) (sdt K).

Lemma tri_inv (L : fieldType) r q (X : 'M[L]_r) Z (Y : 'M[L]_q) : block_mx X Z 0 Y \in unitmx ->
  X \in unitmx /\ invmx (block_mx X Z 0 Y) = block_mx (invmx X) (- (invmx X *m Z *m invmx Y)) 0 (invmx Y).
Proof.
move=> u; have [uX uY] : X \in unitmx /\ Y \in unitmx.
  by move: u; rewrite !unitmxE det_ublock unitrM => /andP.
split=> //; have e : block_mx X Z 0 Y *m block_mx (invmx X) (- (invmx X *m Z *m invmx Y)) 0 (invmx Y) = 1%:M.
  by rewrite mulmx_block !mulmx0 !mul0mx !addr0 !add0r !mulmxV // mulmxN !mulmxA mulmxV // mul1mx addNr -scalar_mx_block.
by rewrite -[RHS](mulKmx u) e mulmx1.
Qed.

Lemma leading_tf (L : fieldType) (f : {rmorphism R -> L}) (K : state R) r s : (r <= snn K)%N ->
  (forall i j, (r <= i < snn K)%N -> ((j < r)%N -> get (sa K) i j = 0) /\ ((j < smn K)%N -> get (sb K) i j = 0)) ->
  regS f K s -> regS f (leading r K) s /\ forall i j, (i < spn K)%N -> (j < smn K)%N -> ev f (leading r K) s i j = ev f K s i j.
Proof.
move=> hr z; have eN : snn K = (r + (snn K - r))%N by rewrite subnKC.
move: eN z; set q := (snn K - r)%N; rewrite /regS /ev /regular /leading /=.
have -> : snn (St (asubm (sa K) 0 r 0 r) (asubm (sb K) 0 r 0 (smn K)) (asubm (sc K) 0 (spn K) 0 r) (sd K) (sgain K) (sdt K)) = r by rewrite /snn /= subn0.
move: (snn K) hr @q => N hr q; move: q => q0 eN; subst N => z.
have eA : mxof f (r + q0) (r + q0) (sa K) = block_mx (mxof f r r (asubm (sa K) 0 r 0 r)) (ursubmx (mxof f (r + q0) (r + q0) (sa K))) 0 (drsubmx (mxof f (r + q0) (r + q0) (sa K))).
  rewrite -[LHS]submxK; congr block_mx; apply/matrixP=> i j; rewrite !mxE /=; first by rewrite /asubm get_mk ?subn0.
  by have [|-> //] := z (r + i)%N j; rewrite ?rmorph0 // leq_addr ltn_add2l /=.
move: eA; set Z := ursubmx _; set Y := drsubmx _ => ->.
have -> : s%:M - block_mx (mxof f r r (asubm (sa K) 0 r 0 r)) Z 0 Y = block_mx (s%:M - mxof f r r (asubm (sa K) 0 r 0 r)) (- Z) 0 (s%:M - Y).
  by rewrite [s%:M in LHS]scalar_mx_block opp_block_mx add_block_mx sub0r oppr0 addr0.
move=> /tri_inv [uX ->]; split=> // i j hi hj; congr (_ + fun_of_matrix _ _ _).
have -> : (\col_k f (get (sb K) k j) : 'cV_(r + q0)) = col_mx (\col_k f (get (asubm (sb K) 0 r 0 (smn K)) k j)) 0.
  apply/matrixP=> k l; rewrite !mxE; case: splitP => a ea; rewrite !mxE ea; first by rewrite /asubm get_mk ?subn0.
  by have [|_ ->] := z (r + a)%N j; rewrite ?rmorph0 // leq_addr ltn_add2l /=.
have -> : (\row_k f (get (sc K) i k) : 'rV_(r + q0)) = row_mx (\row_k f (get (asubm (sc K) 0 (spn K) 0 r) i k)) (\row_k f (get (sc K) i (r + k)%N)).
  apply/matrixP=> k l; rewrite !mxE; case: splitP => a ea; rewrite !mxE ea // /asubm get_mk ?subn0 //.
by rewrite mul_row_block mul_row_col !mulmx0 !addr0.
Qed.

End Kal.
