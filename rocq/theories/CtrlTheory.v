(* Theory of ackermann and lqr. *)
From mathcomp Require Import all_ssreflect all_algebra zify.
From Coq Require Import String.
From Verif Require Import RingTac Base BaseTheory Spec ModelState Denote StateTheory FeedbackTheory PolyTheory ModelAux AuxTheory ModelSim SpecSim SimTheory ModelKalman KalmanTheory ModelCtrl SpecCtrl.

Set Implicit Arguments.
Unset Strict Implicit.
Unset Printing Implicit Defensive.

Import Order.TTheory GRing.Theory Num.Theory.
Local Open Scope ring_scope.

Section AckAlg.
Variables (R : realFieldType) (n : nat) (A : 'M[R]_n.+1) (B : 'cV[R]_n.+1) (q : 'rV[R]_n.+1) (P : {poly R}).
Hypotheses (hq : forall i, (i <= n)%N -> (q *m A ^+ i *m B) 0 0 = (i == n)%:R).
Hypotheses (mP : P \is monic) (sP : size P = n.+2).
Let K := q *m horner_mx A P.
Let Ac := A - B *m K.

Lemma ack_pow i : (i <= n)%N -> q *m Ac ^+ i = q *m A ^+ i.
Proof.
elim: i => [|i IH] hi //; rewrite !exprSr !mulmxA IH ?(ltnW hi) // mulmxBr mulmxA.
rewrite [q *m A ^+ i *m B]mx11_scalar hq ?(ltnW hi) // ltn_eqF // mul_scalar_mx scale0r subr0 //.
Qed.

Lemma ack_top : q *m Ac ^+ n.+1 = q *m A ^+ n.+1 - K.
Proof.
rewrite !exprSr !mulmxA ack_pow // mulmxBr mulmxA [q *m A ^+ n *m B]mx11_scalar hq // eqxx mul_scalar_mx scale1r //.
Qed.

Lemma ack_indep (g : {poly R}) : (size g <= n.+1)%N -> q *m horner_mx A g = 0 -> g = 0.
Proof.
move=> hg e; apply/eqP; rewrite -lead_coef_eq0; apply/eqP; set d := (size g).-1.
have [g0|g0] := eqVneq g 0; first by rewrite g0 lead_coef0.
have sg : size g = d.+1 by rewrite /d prednK // lt0n size_poly_eq0.
have hd : (d <= n)%N by rewrite -ltnS -sg.
have : (q *m horner_mx A g *m A ^+ (n - d) *m B) 0 0 = 0 by rewrite e !mul0mx mxE.
rewrite horner_mxE sg mulmx_sumr !mulmx_suml summxE big_ord_recr /= big1 ?add0r.
  rewrite -scalemxAr -!scalemxAl mxE -[q *m _ *m _]mulmxA -[A ^+ d *m _]/(A ^+ d * _) -exprD subnKC // hq // eqxx mulr1.
  by rewrite /lead_coef -/d.
move=> i _; rewrite -scalemxAr -!scalemxAl mxE -[q *m _ *m _]mulmxA -[A ^+ i *m _]/(A ^+ i * _) -exprD hq; last first.
  by have := ltn_ord i; move: hd; clear; lia.
by rewrite ltn_eqF ?mulr0 //; have := ltn_ord i; move: hd; clear; lia.
Qed.

Lemma ack_charpoly : char_poly Ac = P.
Proof.
apply/eqP; rewrite -subr_eq0; apply/eqP; set g := _ - P.
have sg : (size g <= n.+1)%N.
  have [e1 e2] : (char_poly Ac)`_n.+1 = 1 /\ P`_n.+1 = 1.
    have := monicP (char_poly_monic Ac); have := monicP mP; by rewrite /lead_coef size_char_poly sP.
  apply/leq_sizeP => j; rewrite leq_eqVlt => /orP[/eqP<-|hj]; first by rewrite coefB e1 e2 subrr.
  by rewrite coefB !nth_default ?subrr // ?sP ?size_char_poly.
apply: (ack_indep sg).
have hg : q *m horner_mx Ac g = 0.
  rewrite rmorphB /= Cayley_Hamilton sub0r mulmxN; apply/eqP; rewrite oppr_eq0; apply/eqP.
  rewrite horner_mxE sP big_ord_recr /= mulmxDr mulmx_sumr.
  have e2 : P`_n.+1 = 1 by have := monicP mP; rewrite /lead_coef sP.
  rewrite e2 scale1r ack_top.
  have -> : \sum_(i < n.+1) q *m (P`_i *: Ac ^+ i) = \sum_(i < n.+1) q *m (P`_i *: A ^+ i).
    by apply: eq_bigr => i _; rewrite -!scalemxAr ack_pow // -ltnS.
  have -> : K = \sum_(i < n.+1) q *m (P`_i *: A ^+ i) + q *m A ^+ n.+1.
    by rewrite /K horner_mxE sP big_ord_recr /= e2 scale1r mulmxDr mulmx_sumr.
  by rewrite addrA subrr.
rewrite -[RHS]hg !horner_mxE !mulmx_sumr; apply: eq_bigr => i _.
by rewrite -!scalemxAr ack_pow //; have := ltn_ord i; move: sg; clear; lia.
Qed.

End AckAlg.

Section Ack.
Variable R : realFieldType.
Variables (npsvd : arr R -> arr R * seq R * arr R) (spac : R).
Local Notation mx := (mxof [rmorphism of @idfun R]).
Local Notation ackermann := (ackermann npsvd spac).

Lemma size_np_poly (zs : seq R) : size (np_poly zs) = (size zs).+1.
Proof.
rewrite /np_poly; have : forall a : seq R, a != [::] -> size (foldl (fun a z => convolve a [:: 1; - z]) a zs) = (size a + size zs)%N.
  elim: zs => [|z zs IH] a ha /=; first by rewrite addn0.
  have hs : size (convolve a [:: 1; - z]) = (size a).+1 by rewrite size_convolve //= addnC.
  by rewrite IH -?size_eq0 hs // addSnnS.
by move=> ->.
Qed.

Lemma polyhi_np_poly (zs : seq R) : polyhi (np_poly zs) = \prod_(z <- zs) ('X - z%:P).
Proof.
rewrite /np_poly; have : forall a : seq R, polyhi (foldl (fun a z => convolve a [:: 1; - z]) a zs) = polyhi a * \prod_(z <- zs) ('X - z%:P).
  elim: zs => [|z zs IH] a /=; first by rewrite big_nil mulr1.
  rewrite IH polyhi_convolve big_cons mulrA; congr (_ * _ * _).
  by rewrite /polyhi /rev /= !cons_poly_def mul0r add0r mul1r polyCN.
by move=> ->; rewrite /polyhi /rev /= cons_poly_def mul0r add0r mul1r.
Qed.

Lemma ack_loopP n (A : arr R) p pmat k fuel : nr A = n -> nc A = n -> nr pmat = n -> nc pmat = n -> (k + fuel <= size p)%N ->
  exists M, [/\ ack_loop A p pmat k fuel = Ok M, nr M = n, nc M = n &
    mx n n M = mx n n pmat + \sum_(i < fuel) nth 0 p (k + i) *: mpow (mx n n A) (k + i)].
Proof.
move=> h1 h2; elim: fuel k pmat => [|f IH] k pmat h3 h4 hs /=; first by exists pmat; rewrite big_ord0 addr0.
have -> : (k < size p)%N by move: hs; clear; lia.
have [|||M [-> m1 m2 eM]] := IH k.+1 (aadd pmat (ascale (nth 0 p k) (apow A k))); rewrite ?nr_mk ?nc_mk //.
  by move: hs; clear; lia.
exists M; split=> //; rewrite eM (@mxof_add _ _ _ n n) //.
rewrite (@mxof_scale _ _ _ _ n n) ?nr_apow ?nc_apow ?h1 ?h2 // mx_apow // big_ord_recl addn0 addrA; congr (_ + _).
by apply: eq_bigr => i _; rewrite lift0 addSnnS.
Qed.

Lemma ack_short (A : arr R) p pmat k fuel : (k <= size p)%N -> (size p < k + fuel)%N -> ack_loop A p pmat k fuel = Err IndexError.
Proof.
elim: fuel k pmat => [|f IH] k pmat h1 h2 /=; first by move: h1 h2; clear; lia.
case: ifP => // hk; apply: IH => //; by move: h2; clear; lia.
Qed.

(* the last row of Cc^-1 *)
Lemma ack_q n (A : 'M[R]_n.+1) (B : 'cV[R]_n.+1) (Cc : 'M[R]_n.+1) :
  (forall (i j : 'I_n.+1), Cc i j = (A ^+ j *m B) i 0) -> Cc \in unitmx -> forall i, (i <= n)%N ->
  (row ord_max (invmx Cc) *m A ^+ i *m B) 0 0 = (i == n)%:R.
Proof.
move=> hC uC i hi; have hi' : (i < n.+1)%N by [].
have -> : row ord_max (invmx Cc) *m A ^+ i *m B = col (Ordinal hi') (row ord_max (invmx Cc *m Cc)).
  rewrite row_mul -mulmxA; apply/matrixP=> a b; rewrite !mxE; apply: eq_bigr => k _; rewrite hC; congr (_ * _).
  by rewrite /= (ord1 b).
by rewrite mulVmx // !mxE -val_eqE /= eq_sym.
Qed.

Definition reals (loc : seq R) : seq (pole R) := map (@PReal R) loc.
Lemma as_float_reals loc : as_float (reals loc) = Ok loc.
Proof.
rewrite /as_float /reals all_map (@eq_all _ _ predT) ?all_predT // -map_comp; congr Ok.
by rewrite -[RHS]map_id; apply: eq_map.
Qed.

(* a pair with n states and one input whose controllability matrix is found to have full rank *)
Definition ack_pair n (A B : arr R) : Prop :=
  [/\ [/\ wfa A, wfa B, shp A = (n, n) & shp B = (n, 1%N)], (0 < n)%N &
   forall u s v, npsvd (ctrb A B) = (u, s, v) -> s != [::] /\ svrank spac (ctrb A B) s = n].

Lemma ctrb1 n (A B : arr R) : shp A = (n.+1, n.+1) -> shp B = (n.+1, 1%N) -> shp (ctrb A B) = (n.+1, n.+1) /\
  forall i j : 'I_n.+1, mx n.+1 n.+1 (ctrb A B) i j = (mx n.+1 n.+1 A ^+ j *m mx n.+1 1 B) i 0.
Proof.
move=> [a1 a2] [b1 b2]; have [s1 s2] := ctrb_shape a1 b1 b2 (ltn0Sn n); rewrite muln1 in s2.
split=> [|i j]; first by rewrite /shp s1 s2.
rewrite -mpowE; have hj : (j < n.+1 * 1)%N by rewrite muln1.
have := @ctrb_cmx R n.+1 1 A B a1 a2 b1 b2 (ltn0Sn n) j i 0 (Ordinal hj) (ltn_ord j).
by rewrite /= muln1 addn0 => <- //; rewrite !mxE.
Qed.

Lemma ack_pre n g (A B : arr R) loc : get_ab g = Ok (A, B) -> ack_pair n A B -> loc != [::] ->
  ackermann g (reals loc) =
    do pmat <- ack_loop A (rev (np_poly loc)) (azeros n n) 0 n.+1;
    do X <- np_solve (ctrb A B) pmat;
    guard (0 < nr X)%N else IndexError;
    Ok (arows X [:: (nr X).-1]).
Proof.
move=> eg [[wA wB sA sB] n0 hs] l0; have [a1 a2] := sA; have [b1 b2] := sB.
case es: (npsvd (ctrb A B)) => [[u s] v]; have [s0 er] := hs _ _ _ es.
have okE S T (a : S) (f : S -> res T) : bind (Ok a) f = f a by [].
have [s1 _] := ctrb_shape a1 b1 b2 n0.
rewrite /ModelCtrl.ackermann eg okE b2 eqxx as_float_reals okE (@ctrb_ok _ npsvd spac _ _ _ _ _ [::] _ _ es s0) ?a1 ?a2 //.
by rewrite okE er s1 ltnn l0.
Qed.

Lemma ackermannP n g (A B : arr R) loc : get_ab g = Ok (A, B) -> ack_pair n A B -> mx n n (ctrb A B) \in unitmx -> size loc = n ->
  exists K, [/\ ackermann g (reals loc) = Ok K, wfa K, shp K = (1%N, n) &
    char_poly (mx n n A - mx n 1 B *m mx 1 n K) = \prod_(z <- loc) ('X - z%:P)].
Proof.
case: n => [|n] eg hp uC sl; first by case: hp.
have l0 : loc != [::] by rewrite -size_eq0 sl.
rewrite (ack_pre eg hp l0); case: hp => [[wA wB sA sB] _ hs]; have [a1 a2] := sA; have [b1 b2] := sB.
have [[c1 c2] hC] := ctrb1 sA sB.
have sp : size (rev (np_poly loc)) = n.+2 by rewrite size_rev size_np_poly sl.
have [|||||M [eM m1 m2 mM]] := @ack_loopP n.+1 A (rev (np_poly loc)) (azeros n.+1 n.+1) 0 n.+2 => //; first by rewrite sp.
rewrite [ack_loop _ _ _ _ _]eM [bind _ _]/=.
rewrite (@np_solveP _ n.+1 n.+1) // -if_neg -(unit_adet [rmorphism of @idfun R] c1) uC /= c1.
eexists; split; [reflexivity | exact: wfa_mk | by rewrite /shp /= m2 |].
have dC : adet (ctrb A B) != 0 by rewrite -(unit_adet [rmorphism of @idfun R] c1).
set Pp := \prod_(z <- loc) ('X - z%:P).
have hM : mx n.+1 n.+1 M = horner_mx (mx n.+1 n.+1 A) Pp.
  rewrite mM mxof_zeros add0r /Pp -polyhi_np_poly horner_mxE.
  have -> : size (polyhi (np_poly loc)) = n.+2 by rewrite polyhi_np_poly size_prod_XsubC sl.
  by apply: eq_bigr => i _; rewrite add0n mpowE /polyhi coef_Poly.
set q := row ord_max (invmx (mx n.+1 n.+1 (ctrb A B))).
have -> : mx 1 n.+1 (arows (amul (ainv (ctrb A B)) M) [:: n]) = q *m horner_mx (mx n.+1 n.+1 A) Pp.
  rewrite -hM /q -row_mul -(mxof_inv _ c1 dC) -(@mxof_mul _ _ _ n.+1 n.+1 n.+1) ?nr_mk ?nc_mk //.
  by apply/matrixP=> i j; rewrite !mxE /= get_mk ?nc_mk ?m2 // (ord1 i).
apply: ack_charpoly; first exact: ack_q hC uC.
  exact: monic_prod_XsubC.
by rewrite size_prod_XsubC sl.
Qed.

Lemma ackermann_short n g (A B : arr R) loc : get_ab g = Ok (A, B) -> ack_pair n A B -> loc != [::] -> (size loc < n)%N ->
  ackermann g (reals loc) = Err IndexError.
Proof.
move=> eg hp l0 hl; rewrite (ack_pre eg hp l0) ack_short // size_rev size_np_poly add0n ltnS; exact: hl.
Qed.

Lemma ack_uncontrollable n g (A B : arr R) loc u s v : get_ab g = Ok (A, B) -> shp A = (n, n) -> shp B = (n, 1%N) -> (0 < n)%N ->
  npsvd (ctrb A B) = (u, s, v) -> s != [::] -> (svrank spac (ctrb A B) s < n)%N -> ackermann g (reals loc) = Err ValueError.
Proof.
move=> eg [a1 a2] [b1 b2] n0 es s0 er.
have okE S T (a : S) (f : S -> res T) : bind (Ok a) f = f a by [].
have [s1 _] := ctrb_shape a1 b1 b2 n0.
rewrite /ModelCtrl.ackermann eg okE b2 eqxx as_float_reals okE (@ctrb_ok _ npsvd spac _ _ _ _ _ [::] _ _ es s0) ?a1 ?a2 //.
by rewrite okE s1 er.
Qed.

Lemma ack_multi g (A B : arr R) loc : get_ab g = Ok (A, B) -> nc B != 1%N -> ackermann g loc = Err ValueError.
Proof. by move=> eg /negbTE h; rewrite /ModelCtrl.ackermann eg /= h. Qed.

Lemma ack_complex g (A B : arr R) loc x y : get_ab g = Ok (A, B) -> nc B = 1%N -> List.In (PComplex x y) loc -> ackermann g loc = Err TypeError.
Proof.
move=> eg b1 hin; rewrite /ModelCtrl.ackermann eg /= b1 eqxx /as_float.
suff -> : all (fun z : pole R => if z is PReal _ then true else false) loc = false by [].
by elim: loc hin => [|z l IH] //= [->|/IH ->] //; rewrite andbF.
Qed.

End Ack.

(* ---------- lqr ---------- *)
Lemma trD (R : ringType) m n (U V : 'M[R]_(m, n)) : (U + V)^T = U^T + V^T.
Proof. by rewrite linearD. Qed.

Lemma trM (R : realFieldType) m n p (U : 'M[R]_(m, n)) (V : 'M[R]_(n, p)) : (U *m V)^T = V^T *m U^T.
Proof. exact: trmx_mul. Qed.
Ltac gen_mul := repeat match goal with |- context[@mulmx ?R ?a ?b ?c ?U ?V] => generalize (@mulmx R a b c U V); intro end.

Section LqAlg.
Variables (R : realFieldType) (n m : nat) (disc : bool) (A : 'M[R]_n) (B : 'M[R]_(n, m)).
Variables (Q X : 'M[R]_n) (Rw : 'M[R]_m) (Sw : 'M[R]_(n, m)) (K : 'M[R]_(m, n)).
Hypothesis ric : riccati disc A B Q Rw Sw X.
Let Rt := rest_weight disc B X Rw.
Let L := (if disc then B^T *m X *m A else B^T *m X) + Sw^T.
Hypothesis hK : K = invmx Rt *m L.

Let Rsym : Rt^T = Rt.
Proof. case: ric => hX _ hR _ _; rewrite /Rt /rest_weight; case: disc => //; by rewrite trD /= !trM hX trmxK hR mulmxA. Qed.
Let RK : Rt *m K = L.
Proof. by case: ric => _ _ _ u _; rewrite hK mulKVmx. Qed.
Let KR : K^T *m Rt = L^T.
Proof. by rewrite -{1}Rsym -trM RK. Qed.
Let KRK : K^T *m Rt *m K = Q + (if disc then A^T *m X *m A - X else A^T *m X + X *m A).
Proof.
rewrite KR hK mulmxA; case: ric => hX _ hR _; rewrite /L /Rt /rest_weight.
case: disc => h; rewrite trD /= !trM !trmxK hX; apply/eqP; rewrite -subr_eq0; apply/eqP; apply: oppr_inj; rewrite oppr0 -[RHS]h ?mulmxA.
- by rewrite opprB -addrA addrC.
- by rewrite opprB -addrA addrC.
Qed.

Lemma lq_complete : lq_optimal disc A B (block_mx Q Sw Sw^T Rw) K X.
Proof.
move=> x u; rewrite block_mxKdr -/Rt.
have -> : quad (u + K *m x) Rt = (u^T *m Rt *m u + u^T *m L *m x + x^T *m L^T *m u + x^T *m (K^T *m Rt *m K) *m x) 0 0.
  rewrite /quad trD trM -KR -RK !mulmxDl !mulmxDr !mulmxA; congr (fun_of_matrix _ 0 0).
  by rewrite !addrA.
rewrite KRK /quad tr_col_mx mul_row_block mul_row_col.
case: ric => hX hQ hR _ _.
rewrite /drift /L /Rt /rest_weight /quad; case: disc; rewrite !trD !trM ?trmxK ?hX; rewrite !(mulmxDl, mulmxDr, mulmxA, mulmxN, mulNmx); gen_mul; rewrite !mxE.
- have key (z0 z1 z2 z3 z4 z5 z6 z7 z8 : R) : z0 + z1 + (z2 + z3) + (z4 + z5 + (z6 + z7) - z8) =
    z7 + z3 + (z5 + z1) + (z6 + z2) + (z0 + (z4 - z8)) by mc_ring R.
  exact: key.
- have key (z0 z1 z2 z3 z4 z5 z6 z7 : R) : z0 + z1 + (z2 + z3) + (z4 + z5 + (z6 + z7)) =
    z3 + (z5 + z1) + (z7 + z2) + (z0 + (z4 + z6)) by mc_ring R.
  exact: key.
Qed.

(* with u = -K x nothing is lost *)
Lemma lq_closed W (KX : lq_optimal disc A B W K X) (x : 'cV[R]_n) : quad (col_mx x (- (K *m x))) W + drift disc A B X x (- (K *m x)) = 0.
Proof. by rewrite KX addNr /quad trmx0 !mul0mx mxE. Qed.

End LqAlg.

Lemma quad_eq0 (R : realFieldType) n (M : 'M[R]_n) : M^T = M -> (forall x, quad x M = 0) -> M = 0.
Proof.
move=> sM h; have q i j : ((delta_mx i 0 : 'cV[R]_n)^T *m M *m (delta_mx j 0 : 'cV[R]_n)) 0 0 = M i j.
  by rewrite trmx_delta -rowE -colE !mxE.
have d i : M i i = 0 by rewrite -q; apply: h.
apply/matrixP=> i j; rewrite [RHS]mxE.
have ad (U V : 'M[R]_1) : (U + V) 0 0 = U 0 0 + V 0 0 by rewrite mxE.
have := h (delta_mx i 0 + delta_mx j 0); rewrite /quad trD !mulmxDl !mulmxDr !ad !q !d add0r addr0.
have -> : M j i = M i j by rewrite -[in LHS]sM mxE.
by rewrite -mulr2n => /eqP; rewrite mulrn_eq0 /= => /eqP.
Qed.

Lemma lq_identity (R : realFieldType) n m disc (A : 'M[R]_n) (B : 'M[R]_(n, m)) W K X : X^T = X -> W^T = W -> lq_optimal disc A B W K X ->
  let Ac := A - B *m K in let M := col_mx 1%:M (- K) in
  (if disc then Ac^T *m X *m Ac - X else Ac^T *m X + X *m Ac) + M^T *m W *m M = 0.
Proof.
move=> sX sW h Ac M; apply: quad_eq0 => [|x].
  rewrite trD !trM trmxK sW !mulmxA; congr (_ + _); case: (disc).
    by rewrite linearB /= !trM trmxK sX mulmxA.
  by rewrite trD !trM trmxK sX addrC.
have := lq_closed h x; set v := - (K *m x).
have -> : col_mx x v = M *m x by rewrite mul_col_mx mul1mx mulNmx.
have -> : quad (M *m x) W = quad x (M^T *m W *m M) by rewrite /quad trM !mulmxA.
rewrite addrC => e; rewrite -[RHS]e /drift.
have -> : A *m x + B *m v = Ac *m x by rewrite /Ac /v mulmxBl mulmxN mulmxA.
have qD (P Z : 'M[R]_n) : quad x (P + Z) = quad x P + quad x Z by rewrite /quad mulmxDr mulmxDl mxE.
have qB (P Z : 'M[R]_n) : quad x (P - Z) = quad x P - quad x Z by rewrite /quad mulmxBr mulmxBl !mxE.
rewrite qD; congr (_ + _); case: (disc); first by rewrite qB /quad trM !mulmxA.
by rewrite qD /quad trM [RHS]mxE !mulmxA.
Qed.

Lemma lq_horizon (R : realFieldType) n m (A : 'M[R]_n) (B : 'M[R]_(n, m)) W K X x0 u N : lq_optimal true A B W K X ->
  \sum_(k < N) quad (col_mx (traj A B x0 u k) (u k)) W + quad (traj A B x0 u N) X =
  quad x0 X + \sum_(k < N) quad (u k + K *m traj A B x0 u k) (rest_weight true B X (drsubmx W)).
Proof.
move=> h; elim: N => [|N IH]; first by rewrite !big_ord0 add0r addr0.
rewrite !big_ord_recr /= addrA -IH -h /drift; set a := \sum_(_ < N) _; set b := quad (col_mx _ _) W; set c := quad _ X; set d := quad _ X.
mc_ring R.
Qed.

Section Lqr.
Variable R : realFieldType.
Variable ric : bool -> arr R -> arr R -> arr R -> arr R -> option (arr R) -> res (arr R).
Variables (E : Type) (eigvals : arr R -> E).
Local Notation mx := (mxof [rmorphism of @idfun R]).
Local Notation lqr := (lqr ric eigvals).

Definition disc_of (G : state R) : bool := isSome (sdt G).

Lemma lqr_gainP disc n m (a b q r X : arr R) s : shp a = (n, n) -> shp b = (n, m) -> shp X = (n, n) -> shp r = (m, m) ->
  (if s is Some s then shp s = (n, m) else True) ->
  riccati disc (amx n n a) (amx n m b) (amx n n q) (amx m m r) (if s is Some s then amx n m s else 0) (amx n n X) ->
  exists K, [/\ lqr_gain disc a b X r s = Ok K, wfa K, shp K = (m, n) &
   amx m n K = invmx (rest_weight disc (amx n m b) (amx n n X) (amx m m r)) *m
     ((if disc then (amx n m b)^T *m amx n n X *m amx n n a else (amx n m b)^T *m amx n n X) + (if s is Some s then amx n m s else 0)^T)].
Proof.
move=> [a1 a2] [b1 b2] [x1 x2] [r1 r2] hs [_ _ _ + _]; rewrite !amxE.
have hl : exists l, [/\ (if disc then np_add (amul (amul (aT b) X) b) r else Ok r) = Ok l, nr l = m, nc l = m &
   mx m m l = rest_weight disc (mx n m b) (mx n n X) (mx m m r)].
  case: disc; last by exists r.
  rewrite np_add_same ?nr_mk ?nc_mk ?b2 ?r1 ?r2 //; eexists; split; [reflexivity | by rewrite nr_mk | by rewrite nc_mk |].
  rewrite (@mxof_add _ _ _ m m) ?nr_mk ?nc_mk // !(@mxof_mul _ _ _ m n) ?nr_mk ?nc_mk //.
  by rewrite (@mxof_T _ _ _ n m).
have hr : exists r', [/\ (let rhs0 := if disc then amul (amul (aT b) X) a else amul (aT b) X in
     if s is Some s then np_add rhs0 (aT s) else Ok rhs0) = Ok r', nr r' = m, nc r' = n &
   mx m n r' = (if disc then (mx n m b)^T *m mx n n X *m mx n n a else (mx n m b)^T *m mx n n X) + (if s is Some s then mx n m s else 0)^T].
  set r0 := if disc then amul (amul (aT b) X) a else amul (aT b) X => /=.
  have [e1 e2 e3] : [/\ nr r0 = m, nc r0 = n & mx m n r0 = (if disc then (mx n m b)^T *m mx n n X *m mx n n a else (mx n m b)^T *m mx n n X)].
    rewrite /r0; case: (disc); rewrite ?nr_mk ?nc_mk; split=> //; rewrite !(@mxof_mul _ _ _ m n) ?nr_mk ?nc_mk // (@mxof_T _ _ _ n m) //.
  case: s hs => [s [s1 s2]|_]; last by exists r0; rewrite trmx0 addr0.
  rewrite np_add_same ?nr_mk ?nc_mk ?e1 ?e2 //; eexists; split; [reflexivity | by rewrite nr_mk | by rewrite nc_mk |].
  by rewrite (@mxof_add _ _ _ m n) // e3 (@mxof_T _ _ _ n m).
rewrite /lqr_gain; case: hl => l [-> l1 l2 <-] ul; case: hr => r' [/= -> r1' r2' er] /=.
have dl : adet l != 0 by rewrite -(unit_adet [rmorphism of @idfun R] l1).
rewrite (@np_solveP _ m n) // (negbTE dl); eexists; split; [reflexivity | exact: wfa_mk | by rewrite /shp /= l1 r2' |].
rewrite amxE (@mxof_mul _ _ _ m m n) ?nr_mk ?nc_mk // mxof_inv // er; congr (_ *m (_ + _^T)).
Qed.

(* effective weights *)
Definition weight_mx n m (q r : arr R) (s : option (arr R)) : 'M[R]_(n + m) :=
  block_mx (amx n n q) (if s is Some s then amx n m s else 0) (if s is Some s then amx n m s else 0)^T (amx m m r).

Lemma lqr_stateP (G : state R) Q Rw Sw w X : ric_ok ric -> wfS G -> sgain G = false ->
  substring_of (lower w) "state, output" -> String.eqb w "output" = false ->
  ric (disc_of G) (sa G) (sb G) Q (odflt (aeye (smn G)) Rw) Sw = Ok X ->
  exists K, [/\ lqr G Q Rw Sw w = Ok (K, X, eigvals (asub (sa G) (amul (sb G) K))), wfa K, shp K = (smn G, snn G) &
    lq_optimal (disc_of G) (Amx G) (Bmx G) (weight_mx (snn G) (smn G) Q (odflt (aeye (smn G)) Rw) Sw) (amx (smn G) (snn G) K) (amx (snn G) (snn G) X)].
Proof.
move=> ok w0 g hsub hw hX; have [wa [a2 b1 c1 c2 b2]] := wfS_dyn w0 g.
have sA : shp (sa G) = (snn G, snn G) by rewrite /shp a2.
have sB : shp (sb G) = (snn G, smn G) by rewrite /shp b1 b2.
have [x1 q1 r1 s1 hr] := ok _ _ _ _ _ _ _ _ _ sA sB hX.
have [K [eK wK sK mK]] := lqr_gainP sA sB x1 r1 s1 hr.
exists K; split=> //; last first.
  exact: (lq_complete hr mK).
by rewrite /ModelCtrl.lqr g hsub hw /= -/(disc_of G) hX /= eK.
Qed.

(* output weighting is state weighting with the weights M' W M, M = [C D; 0 I] *)
Definition out_mx (G : state R) : 'M[R]_(spn G + smn G, snn G + smn G) := block_mx (Cmx G) (Dmx G) 0 1%:M.

Lemma slice_block n m (M : arr R) : wfa M -> shp M = (n + m, n + m)%N ->
  exists q s t r, [/\ matrix_slice M m m "se" = Ok (q, s, t, r), [/\ wfa q, wfa s & wfa r], [/\ shp q = (n, n), shp s = (n, m) & shp r = (m, m)] &
    [/\ mx n n q = ulsubmx (mx (n + m) (n + m) M), mx n m s = ursubmx (mx (n + m) (n + m) M) & mx m m r = drsubmx (mx (n + m) (n + m) M)]].
Proof.
move=> wM [m1 m2]; rewrite /matrix_slice /= /cut_sub m1 m2 leq_addl addnK.
exists (asubm M 0 n 0 n), (asubm M 0 n n (n + m)), (asubm M n (n + m) 0 n), (asubm M n (n + m) n (n + m)); split.
- by rewrite /slice4 m1 m2.
- by split; apply: wfa_mk.
- by rewrite /shp /= !subn0 addKn.
- split; apply/matrixP=> i j; rewrite !mxE /asubm get_mk ?subn0 ?addKn ?add0n //=.
Qed.

Lemma lqr_output (G : state R) Q Rw Sw : wfS G -> sgain G = false -> shp Q = (spn G, spn G) ->
  shp (odflt (aeye (smn G)) Rw) = (smn G, smn G) -> (if Sw is Some s then shp s = (spn G, smn G) else True) ->
  (amx (spn G) (spn G) Q)^T = amx (spn G) (spn G) Q ->
  (amx (smn G) (smn G) (odflt (aeye (smn G)) Rw))^T = amx (smn G) (smn G) (odflt (aeye (smn G)) Rw) ->
  exists q r s, [/\ lqr G Q Rw Sw "output" = lqr G q (Some r) (Some s) "state", [/\ wfa q, wfa r & wfa s], [/\ shp q = (snn G, snn G), shp r = (smn G, smn G) & shp s = (snn G, smn G)] &
    weight_mx (snn G) (smn G) q r (Some s) = (out_mx G)^T *m weight_mx (spn G) (smn G) Q (odflt (aeye (smn G)) Rw) Sw *m out_mx G].
Proof.
move=> w0 g [q1 q2] [r1 r2] hs sQ sR; have [[wa wb wc wd] [a2 b1 c1 c2 b2]] := wfS_dyn w0 g.
set n := snn G; set m := smn G; set p := spn G; set Rr := odflt _ Rw.
set mat := ablock (sc G) (sd G) (azeros m n) (aeye m).
have hf : exists F, [/\ (if Sw is Some s then guard shp s == (p, m) else ValueError; Ok (ablock Q s (aT s) Rr) else Ok (adiag2 Q Rr)) = Ok F,
    nr F = (p + m)%N, nc F = (p + m)%N & mx (p + m) (p + m) F = weight_mx p m Q Rr Sw].
  case: Sw hs => [s hs|_].
    rewrite hs eqxx; exists (ablock Q s (aT s) Rr); case: hs => s1 s2; split=> //; rewrite ?nr_mk ?nc_mk /= ?nr_mk ?nc_mk ?q1 ?q2 ?s1 ?s2 //.
    rewrite (@mxof_block _ _ _ p m p m) ?nr_mk ?nc_mk // /weight_mx !amxE (@mxof_T _ _ _ p m) //.
  exists (adiag2 Q Rr); split=> //; rewrite ?nr_mk ?nc_mk /= ?q1 ?q2 ?r1 ?r2 //.
  by rewrite (@mxof_diag2 _ _ _ p m p m) // /weight_mx !amxE trmx0.
case: hf => F [eF f1 f2 mF].
have mm : mx (p + m) (n + m) mat = out_mx G.
  by rewrite (@mxof_block _ _ _ p m n m) ?nr_mk ?nc_mk // mxof_zeros mxof_eye /out_mx /Cmx /Dmx !amxE.
have [m1 m2] : nr mat = (p + m)%N /\ nc mat = (n + m)%N.
  by rewrite /mat /ablock /avcat /ahcat /= ?nr_mk ?nc_mk /= c2 c1.
set fact := amul (amul (aT mat) F) mat.
have sfact : shp fact = (n + m, n + m)%N by rewrite -m2.
have mfact : mx (n + m) (n + m) fact = (out_mx G)^T *m weight_mx p m Q Rr Sw *m out_mx G.
  by rewrite /fact !(@mxof_mul _ _ _ (n + m) (p + m)) ?nr_mk ?nc_mk // (@mxof_T _ _ _ (p + m) (n + m)) // mm mF.
have wfact : wfa fact by apply: wfa_mk.
have [q [s [t [r [es ws ss [mq ms mr]]]]]] := slice_block wfact sfact.
exists q, r, s; split=> //; last first.
- rewrite -mfact /weight_mx !amxE mq ms mr -[RHS]submxK; congr block_mx; rewrite trmx_ursub; congr dlsubmx.
  rewrite mfact !trM trmxK mulmxA; congr (_ *m _ *m _).
  by rewrite /weight_mx tr_block_mx trmxK sQ sR.
- by case: ss.
- by case: ws.
have okE S T (a : S) (f : S -> res T) : bind (Ok a) f = f a by [].
rewrite /ModelCtrl.lqr g; set sb := substring_of _ _; set sb' := substring_of _ _.
have -> : sb = true by []; have -> : sb' = true by [].
have -> : String.eqb "state" "output" = false by [].
have -> : String.eqb "output" "output" = true by [].
cbv zeta; rewrite -/Rr -/n -/m -/p -/mat eF q1 q2 r1 r2 !eqxx /= -/fact.
by move: es => /= -[<- <- _ <-].
Qed.

End Lqr.
