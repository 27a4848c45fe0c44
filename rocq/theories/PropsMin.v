(* C62: minimal_realization of State models.
   npsvd, spac, cdist and balance stand for numpy's svd, np.spacing(1.), the number computed by cancellation_distance and
   scipy's matrix_balance; bal_ok, cdist_ok, min_exact (SpecMin.v) say that they are exact.  Amx, Bmx, Cmx, Dmx are the
   matrices of a model and mpow A j is A^j (SpecSim.v). *)
From mathcomp Require Import all_ssreflect all_algebra zify.
From Coq Require Import String.
From Verif Require Import Base BaseTheory Spec ModelState Denote StateTheory StateProps ModelAux AuxTheory SpecSim KalmanTheory ModelFreq FreqTheory ModelLyap LyapTheory TransferTheory
  ModelMin SpecMin StairTheory PropsStair MinTheory.

Set Implicit Arguments.
Unset Strict Implicit.
Unset Printing Implicit Defensive.

Import Order.TTheory GRing.Theory Num.Theory.
Local Open Scope ring_scope.
Local Open Scope string_scope.

(* K has the transfer matrix of G: the same feedthrough and the same Markov parameters C A^j B *)
Definition same_response (R : realFieldType) (G K : state R) : Prop :=
  sd K = sd G /\ forall j,
    amx (spn G) (snn K) (sc K) *m mpow (Amx K) j *m amx (snn K) (smn G) (sb K) = Cmx G *m mpow (Amx G) j *m Bmx G.

Lemma mul_dim0 (R : ringType) p r m (X : 'M[R]_(p, r)) (Y : 'M[R]_(r, m)) : r = 0%N -> X *m Y = 0.
Proof. by move=> e; apply/matrixP => i j; rewrite !mxE big1 // => -[k hk]; exfalso; move: hk; rewrite e. Qed.

Lemma wfS_sys (R : realFieldType) (G : state R) : wfS G -> sgain G = false ->
  sys (snn G) (smn G) (spn G) (sa G) (sb G) (sc G).
Proof. by move=> w g; have [_ [e1 e2 e3 e4 e5]] := wfS_dyn w g; split; rewrite /shp ?e1 ?e2 ?e3 ?e4 ?e5. Qed.

Lemma of_reduced (R : realFieldType) npsvd (spac : R) cdist balance tol (G : state R) A1 B1 C1 r : wfS G -> sgain G = false ->
  min_state npsvd spac cdist balance tol (sa G) (sb G) (sc G) = Ok (A1, B1, C1) ->
  reduced (snn G) (smn G) (spn G) (sa G) (sb G) (sc G) r A1 B1 C1 ->
  exists K, [/\ minimal_realization npsvd spac cdist balance tol G = Ok K, wfS K, [/\ sdt K = sdt G, (snn K <= snn G)%N & snn K = r],
    same_response G K &
    controllable (Amx K) (Bmx K) /\ (unobs_line (Amx G) (Bmx G) (Cmx G) -> observable (Amx K) (Cmx K))].
Proof.
move=> w g e [[[sA sB sC] [wA wB wC]] hr hc hm ho].
rewrite /minimal_realization g e; cbn [bind].
have [[rA cA] [rB cB] [rC cC]] : [/\ nr A1 = r /\ nc A1 = r, nr B1 = r /\ nc B1 = smn G & nr C1 = spn G /\ nc C1 = r].
  by case: sA sB sC => -> -> [-> ->] [-> ->].
have dtG : dt_ok (sdt G) by apply: wfS_dt w.
have wd : wfa (sd G) by have [[]] := wfS_dyn w g.
rewrite /asize rA cA muln_gt0 andbb; case: posnP => r0.
  rewrite mkGain_ok //; eexists; split; [by [] | by rewrite /wfS /= wd -/(dt_ok (sdt G)) dtG | by [] | |
    by split=> [|_] x _; apply/matrixP; [move=> i [] | case]].
  by split=> // j; rewrite -[RHS]hm /markov3 !mul_dim0 //; apply: mul_dim0.
rewrite mkS_ok ?rA ?rB ?cA ?cC ?rC ?cB //; eexists; split; first by [].
- by rewrite /wfS /= wA wB wC wd rA rB cA cC rC cB !eqxx -/(dt_ok (sdt G)) dtG.
- by rewrite /snn /= rA.
- by split=> // j; rewrite -[RHS]hm /Amx /snn /= rA.
by rewrite /Amx /Bmx /Cmx /snn /smn /spn /= rA.
Qed.

(* With exact numerics, a model with at least one state reached by the input, and an output matrix without full column
   rank, the result exists, has the transfer matrix and the sampling period of G, has no more states, and is controllable.
   If the reachable unobservable states of G are on one line it is observable too, hence minimal.  Missing: observability in the
   other cases, false by C62_observable_refuted. *)
Theorem C62_exact_partial (R : realFieldType) npsvd (spac : R) cdist balance tol (G : state R) : 0 <= spac -> wfS G -> sgain G = false ->
  (0 < snn G)%N -> bal_ok balance (snn G) (sa G) -> cdist_ok cdist tol -> min_exact npsvd spac cdist balance tol (sa G) (sb G) (sc G) ->
  Bmx G <> 0 -> (\rank (Cmx G) < snn G)%N ->
  exists K, [/\ minimal_realization npsvd spac cdist balance tol G = Ok K, wfS K, sdt K = sdt G /\ (snn K <= snn G)%N,
    same_response G K &
    controllable (Amx K) (Bmx K) /\ (unobs_line (Amx G) (Bmx G) (Cmx G) -> observable (Amx K) (Cmx K))].
Proof.
move=> sp0 w g n0 hb cd hx B0 rk; have [A1 [B1 [C1 [r [e h]]]]] := min_stateP sp0 cd (wfS_sys w g) n0 hb hx B0 rk.
by have [K [e1 e2 [e3 e4 _] e5 e6]] := of_reduced w g e h; exists K.
Qed.
Print Assumptions C62_exact_partial.

(* ... and if B and C both have full rank, with as many inputs as states: nothing is removed and the model is minimal *)
Theorem C62_full_rank (R : realFieldType) npsvd (spac : R) cdist balance tol (G : state R) : 0 <= spac -> wfS G -> sgain G = false ->
  (0 < snn G)%N -> bal_ok balance (snn G) (sa G) -> cdist_ok cdist tol -> min_exact npsvd spac cdist balance tol (sa G) (sb G) (sc G) ->
  smn G = snn G -> \rank (Bmx G) = snn G -> \rank (Cmx G) = snn G ->
  exists K, [/\ minimal_realization npsvd spac cdist balance tol G = Ok K, wfS K, sdt K = sdt G /\ snn K = snn G,
    same_response G K & controllable (Amx K) (Bmx K) /\ observable (Amx K) (Cmx K)].
Proof.
move=> sp0 w g n0 hb cd hx mn rB rC.
have [A1 [B1 [C1 [e h]]]] : exists A1 B1 C1, min_state npsvd spac cdist balance tol (sa G) (sb G) (sc G) = Ok (A1, B1, C1) /\
  reduced (snn G) (smn G) (spn G) (sa G) (sb G) (sc G) (snn G) A1 B1 C1.
  have := wfS_sys w g; move: rB rC; rewrite /Bmx /Cmx mn => rB rC sy; exact: min_state_full.
have [K [e1 e2 [e3 _ e4] e5 [e6 e7]]] := of_reduced w g e h; exists K; split=> //; split=> //.
apply: e7 => x y _ _ ux uy.
have z (v : 'cV[R]_(snn G)) : unobs (Amx G) (Cmx G) v -> v = 0.
  move/(_ 0%N); rewrite /= mulmx1 => cv.
  have : row_free (Cmx G)^T by rewrite /row_free mxrank_tr rC.
  by move/row_free_inj/(_ v^T 0); rewrite -trmx_mul cv trmx0 mul0mx => /(_ erefl) /(congr1 trmx); rewrite trmxK trmx0.
by exists 1, 0; split; [case=> /eqP; rewrite oner_eq0 | rewrite (z _ ux) (z _ uy) !scaler0 addr0].
Qed.
Print Assumptions C62_full_rank.

(* Whatever the numerics return, a result has no more states than G; a dynamic G keeps its sampling period. *)
Section Shrinks.
Variable R : realFieldType.
Variable npsvd : arr R -> arr R * seq R * arr R.
Variable spac : R.
Hypothesis svd_shape : forall M, nc (npsvd M).1.1 = nr M.

Lemma svd_u M t u s v k : haroldsvd npsvd spac M t = Ok (u, s, v, k) -> nc u = nr M.
Proof.
rewrite /haroldsvd -svd_shape; case: (npsvd M) => [[u' s'] v'] /=.
by case: t => [t|]; [|case: eqP => _]; cbn [bind] => // -[<-].
Qed.

Lemma loop_shape f tol st st' : st_loop npsvd spac f tol st = Ok st' -> shp (stA st') = shp (stA st).
Proof.
elim: f st => [|f IH] st; first by case=> <-.
rewrite [st_loop _ _ _ _ _]/= -/st_loop => E; have [o eo {}E] := bindOk E.
case: o eo E => [st1|] eo E; last by case: E => <-.
rewrite (IH _ E); move: eo; rewrite /st_step; case: st => A C T nx sz; case: ifP => // _ {}E.
have [[[[u s] v] k] _ {}E] := bindOk E; by move: E; case: ifP => // _ [<-].
Qed.

Lemma stair_shape A B C form inv A0 B0 C0 T : staircase npsvd spac A B C form inv = Ok (A0, B0, C0, T) -> nr A0 = nr A.
Proof.
rewrite /staircase; case: ifP => // _; case: ifP => // /and3P[/eqP e1 /eqP e2 /eqP e3].
case: (String.eqb form "o"); case: ifP => _; try by case=> <-.
all: rewrite /st_core; case E: (st_start _ _ _ _ _) => [[st B1]|] //; cbn [bind].
all: have [eA eC] : nr (stA st) = nr A /\ nc (stA st) = nr A;
  first by move: E; rewrite /st_start => E; have [[[[u s] v] k] /svd_u eu {}E] := bindOk E;
    case: E => <- _ /=; rewrite eu /= ?e2 ?e3.
all: case: ifP => _; last case El: (st_loop _ _ _ _ _) => [st'|] //; cbn [bind]; case: inv => -[<- _ _ _] //=.
all: by have [e4 e5] := loop_shape El; rewrite ?e4 ?e5.
Qed.

Variable cdist : arr R -> arr R -> R.
Lemma trimc_shape tol k A B C A1 B1 C1 : nr A = k -> trim_c cdist tol k A B C = Ok (A1, B1, C1) -> (nr A1 <= k)%N.
Proof.
elim: k A B C => [|k IH] A B C h; first by case=> <-; rewrite h.
rewrite [trim_c _ _ _ _ _ _]/= -/trim_c; case: ifP => [_ [<- _ _] /=|_ E]; first by rewrite subn0.
have [kc _ {}E] := bindOk E; move: E; case: ifP => _; last by case=> <- _ _ /=; rewrite subn0.
by move/IH; rewrite /= subn0 => /(_ erefl) /leq_trans; apply.
Qed.
Lemma trimo_shape tol k A B C A1 B1 C1 : nr A = k -> trim_o cdist tol k A B C = Ok (A1, B1, C1) -> (nr A1 <= k)%N.
Proof.
elim: k A B C => [|k IH] A B C h; first by case=> <-; rewrite h.
rewrite [trim_o _ _ _ _ _ _]/= -/trim_o; case: ifP => [_ [<- _ _] /=|_ E]; first by rewrite subn1.
have [kc _ {}E] := bindOk E; move: E; case: ifP => _; last by case=> <- _ _ /=; rewrite subn1.
by move/IH; rewrite /= subn1 => /(_ erefl) /leq_trans; apply.
Qed.

Lemma min_shape balance tol A B C A1 B1 C1 : (forall M, nr (balance M).1 = nr M) ->
  min_state npsvd spac cdist balance tol A B C = Ok (A1, B1, C1) -> (nr A1 <= nr A)%N.
Proof.
move=> hb; rewrite /min_state; case: ifP => _; first by case=> <-.
move: (hb A); case: (balance A) => A' T /= <- E.
have [B' _ {}E] := bindOk E; have [[[[Ac Bc] Cc] Tc] ec {}E] := bindOk E.
have [[[[Ao Bo] Co] To] eo {}E] := bindOk E; have [kc _ {}E] := bindOk E; have [ko _ {}E] := bindOk E.
move: E; case: ifP => [_ [<-] //|_ E]; have [[[[A2 B2] C2] ko'] e2 {}E] := bindOk E.
have h2 : (nr A2 <= nr A')%N.
  move: e2; case: ifP => _; last by case=> <-.
  move=> E2; have [[[A3 B3] C3] e3 {}E2] := bindOk E2; have [k3 _ {}E2] := bindOk E2.
  by case: E2 => <- _ _ _; rewrite -(stair_shape ec); apply: trimc_shape e3.
move: E; case: ifP => _ E; last by case: E => <-.
have [[[[A3 B3] C3] T3] e3 {}E] := bindOk E.
by apply: leq_trans (trimo_shape erefl E) _; rewrite (stair_shape e3).
Qed.
End Shrinks.

Theorem C62_shrinks (R : realFieldType) npsvd (spac : R) cdist balance tol (G K : state R) :
  (forall M, nc (npsvd M).1.1 = nr M) -> (forall M, nr (balance M).1 = nr M) ->
  minimal_realization npsvd spac cdist balance tol G = Ok K ->
  [/\ (snn K <= snn G)%N, sgain G = false -> sdt K = sdt G & sgain G -> K = St (e00 R) (e00 R) (e00 R) (sd G) true None].
Proof.
move=> h1 h2; rewrite /minimal_realization; case: ifP => g; first by rewrite mkGain_ok //= => -[<-].
move=> E; have [[[A B] C] e {}E] := bindOk E; have le := min_shape h1 h2 e.
move: E; case: ifP => _ E; last by have [-> _] := mkGain_inv E.
split=> //; last by move=> _; apply: mkS_dt E.
suff -> : snn K = nr A by [].
rewrite /mkS /mk_state in E; have [[[[[a' b'] c'] d'] g'] ev {}E] := bindOk E.
have -> : snn K = nr a' by have [dt' _ {}E] := bindOk E; case: E => <-.
move: ev; rewrite /st_validate /=; case: ifP => // _ E1; have [b1 _ {}E1] := bindOk E1.
move: E1; case: ifP => // _ E1; have [d1 _ {}E1] := bindOk E1; by case: E1 => <-.
Qed.
Print Assumptions C62_shrinks.

(* A static gain loses its sampling period (line 339). *)
Theorem C62_gain_refuted (R : realFieldType) npsvd (spac : R) cdist balance tol (G : state R) : sgain G -> sdt G <> None ->
  exists K, minimal_realization npsvd spac cdist balance tol G = Ok K /\ sdt K <> sdt G.
Proof. by move=> g h; rewrite /minimal_realization g mkGain_ok //; eexists; split; [by []|]; move=> /= e; apply: h. Qed.
Print Assumptions C62_gain_refuted.

Section Uncontrollable.
Variable R : realFieldType.
Variable cdist : arr R -> arr R -> R.

Lemma aany_0 n m (B : arr R) : shp B = (n, m) -> amx n m B = 0 -> aany B = false.
Proof.
case=> rB cB /matrixP h; apply/negP => /hasP[i]; rewrite mem_iota rB => /= hi /hasP[j]; rewrite mem_iota cB => /= hj.
by have := h (Ordinal hi) (Ordinal hj); rewrite !mxE /= => ->; rewrite eqxx.
Qed.

Lemma unctrb0 r m (A : 'M[R]_r) : (0 < r)%N -> ~ controllable A (0 : 'M[R]_(r, m)).
Proof.
case: r A => // r A _ h; have /matrixP/(_ 0 0) : const_mx 1 = 0 :> 'rV[R]_r.+1 by apply: h => j; rewrite mulmx0.
by rewrite !mxE => /eqP; rewrite oner_eq0.
Qed.

Lemma trim_c0 tol r m p (A B C : arr R) : cdist_ok cdist tol -> sys r m p A B C -> amx r m B = 0 -> (0 < r)%N ->
  exists A1 B1 C1, trim_c cdist tol r A B C = Ok (A1, B1, C1) /\ sys 0 m p A1 B1 C1.
Proof.
move=> cd; elim: r A B C => // r IH A B C [[rA cA] [rB cB] [rC cC]] B0 _.
rewrite [trim_c _ _ _ _ _ _]/= -/trim_c cB rC; set A1 := asubm A _ _ _ _; set B1 := asubm B _ _ _ _; set C1 := asubm C _ _ _ _.
have s1 : sys r m p A1 B1 C1 by split; rewrite /shp /= ?subn0.
case: posnP => r0; first by exists A1, B1, C1; rewrite r0 in s1.
have B10 : amx r m B1 = 0.
  apply/matrixP => i j; rewrite !mxE get_asubm ?subn0 // !add0n.
  by move/matrixP/(_ (widen_ord (leqnSn r) i) j): B0; rewrite !mxE.
have [sA1 sB1 _] := s1; have [c1 c2] := cd r m A1 B1 sA1 sB1 r0.
rewrite /cancellation_distance /= !subn0 !eqxx (gtn_eqF r0); cbn [negb bind].
case: ifP => h; first exact: IH.
by exfalso; apply: (@unctrb0 r m (amx r r A1) r0); rewrite -B10; apply: c2; rewrite ltNge h.
Qed.
End Uncontrollable.

Lemma min_state_B0 (R : realFieldType) npsvd (spac : R) cdist balance tol (G : state R) : 0 <= spac -> wfS G -> sgain G = false ->
  (0 < snn G)%N -> bal_ok balance (snn G) (sa G) -> cdist_ok cdist tol -> min_exact npsvd spac cdist balance tol (sa G) (sb G) (sc G) ->
  Bmx G = 0 -> (\rank (Cmx G) < snn G)%N ->
  min_state npsvd spac cdist balance tol (sa G) (sb G) (sc G) = Err IndexError.
Proof.
move=> sp0 w g n0 hb cd hx B0 rk; have [sA sB sC] := wfS_sys w g.
rewrite /min_state; move: hb hx; rewrite /bal_ok /min_exact.
set n := snn G in n0 rk sA sB sC B0 *; set m := smn G in sA sB sC B0 *; set p := spn G in sC rk *.
have [[rA cA] [rB cB] [rC cC]] : [/\ nr (sa G) = n /\ nc (sa G) = n, nr (sb G) = n /\ nc (sb G) = m & nr (sc G) = p /\ nc (sc G) = n].
  by rewrite -[nr (sa G)]/(shp (sa G)).1 -[nc (sa G)]/(shp (sa G)).2 -[nr (sb G)]/(shp (sb G)).1 -[nc (sb G)]/(shp (sb G)).2
    -[nr (sc G)]/(shp (sc G)).1 -[nc (sc G)]/(shp (sc G)).2 sA sB sC.
have -> : asize (sa G) == 0%N = false by rewrite /asize rA cA muln_eq0 (gtn_eqF n0).
case: (balance (sa G)) => A' T [wA' sA' sT uT eT] hx.
have [rT cT] : nr T = n /\ nc T = n by case: sT.
have dT : adet T != 0 by move: uT; rewrite amxE unit_adet.
have eB' := @np_solveP _ n m T (sb G) rT cT rB cB; rewrite (negbTE dT) in eB'.
have [wB' rB' cB' _ vB'] := @np_solve_ok _ _ [rmorphism of idfun] n m T (sb G) _ rT cB eB'.
rewrite eB'; cbn [bind]; set B' := amul (ainv T) (sb G) in eB' wB' rB' cB' vB' *; set C' := amul (sc G) T.
have sB' : shp B' = (n, m) by rewrite /shp rB' cB'.
have sC' : shp C' = (p, n) by rewrite /shp /= rC cT.
have B'0 : amx n m B' = 0 by rewrite /Bmx amxE -/n -/m in B0; rewrite amxE vB' B0 mulmx0.
have tC : amx p n C' = amx p n (sc G) *m amx n n T by rewrite !amxE (@mxof_mul _ _ _ _ n) ?rC ?cT ?cC ?rT.
have rk' : (\rank (amx p n C') < n)%N by rewrite tC mxrankMfree // row_free_unit.
have [_ hx2 _] := hx _ _ eB' erefl.
have [Ao [Bo [Co [To [ko' [eo so _]]]]]] := stairo true sp0 sA' sB' sC' hx2.
have [rA' cA'] : nr A' = n /\ nc A' = n by case: sA'.
have cC' : nc C' = n by case: sC'.
rewrite {1}/staircase /= rA' cA' rB' cT !eqxx; cbn [andb]; rewrite (aany_0 sB' B'0) /=; cbn [bind]; rewrite eo (ltn_eqF rk'); cbn [andb bind].
have [[sAo sBo sCo _] _ _ _ _] := so.
have [[rAo cAo] [rCo cCo]] : [/\ nr Ao = n /\ nc Ao = n & nr Co = p /\ nc Co = n] by case: sAo sCo => -> -> [-> ->].
rewrite /cancellation_distance rA' cA' rB' /= rAo cAo cCo !eqxx (gtn_eqF n0); cbn [negb bind].
have [c1 c2] := cd n m A' B' sA' sB' n0.
have kc : cdist A' B' <= tol by rewrite leNgt; apply/negP => /c2; rewrite B'0; apply: unctrb0.
rewrite lt_minr [tol < cdist A' B']ltNge kc; cbn [andb negb].
have [|A1 [B1 [C1 [e1 [sA1 _ sC1]]]]] := @trim_c0 _ cdist tol n m p A' B' C' cd _ B'0 n0; first by split.
rewrite -/C' e1; cbn [bind]; case: sA1 sC1 => rA1 cA1 [_ cC1].
by rewrite /= rA1 cA1 cC1.
Qed.

(* With exact numerics, a model whose input reaches no state raises IndexError: all the states are removed and
   cancellation_distance is asked for the empty pair (line 398). *)
Theorem C62_uncontrollable_refuted (R : realFieldType) npsvd (spac : R) cdist balance tol (G : state R) : 0 <= spac -> wfS G -> sgain G = false ->
  (0 < snn G)%N -> bal_ok balance (snn G) (sa G) -> cdist_ok cdist tol -> min_exact npsvd spac cdist balance tol (sa G) (sb G) (sc G) ->
  Bmx G = 0 -> (\rank (Cmx G) < snn G)%N ->
  minimal_realization npsvd spac cdist balance tol G = Err IndexError.
Proof. by move=> sp0 w g n0 hb cd hx B0 rk; rewrite /minimal_realization g min_state_B0. Qed.
Print Assumptions C62_uncontrollable_refuted.

Lemma min_state_Cfull (R : realFieldType) npsvd (spac : R) cdist balance tol (G : state R) : 0 <= spac -> wfS G -> sgain G = false ->
  (0 < snn G)%N -> bal_ok balance (snn G) (sa G) -> min_exact npsvd spac cdist balance tol (sa G) (sb G) (sc G) ->
  \rank (Cmx G) = snn G -> smn G <> snn G ->
  min_state npsvd spac cdist balance tol (sa G) (sb G) (sc G) = Err ValueError.
Proof.
move=> sp0 w g n0 hb hx rk mn; have [sA sB sC] := wfS_sys w g.
rewrite /min_state; move: hb hx; rewrite /bal_ok /min_exact.
set n := snn G in n0 rk sA sB sC mn *; set m := smn G in sA sB sC mn *; set p := spn G in sC rk *.
have [[rA cA] [rB cB] [rC cC]] : [/\ nr (sa G) = n /\ nc (sa G) = n, nr (sb G) = n /\ nc (sb G) = m & nr (sc G) = p /\ nc (sc G) = n].
  by rewrite -[nr (sa G)]/(shp (sa G)).1 -[nc (sa G)]/(shp (sa G)).2 -[nr (sb G)]/(shp (sb G)).1 -[nc (sb G)]/(shp (sb G)).2
    -[nr (sc G)]/(shp (sc G)).1 -[nc (sc G)]/(shp (sc G)).2 sA sB sC.
have -> : asize (sa G) == 0%N = false by rewrite /asize rA cA muln_eq0 (gtn_eqF n0).
case: (balance (sa G)) => A' T [wA' sA' sT uT eT] hx.
have [rT cT] : nr T = n /\ nc T = n by case: sT.
have dT : adet T != 0 by move: uT; rewrite amxE unit_adet.
have eB' := @np_solveP _ n m T (sb G) rT cT rB cB; rewrite (negbTE dT) in eB'.
have [wB' rB' cB' _ vB'] := @np_solve_ok _ _ [rmorphism of idfun] n m T (sb G) _ rT cB eB'.
rewrite eB'; cbn [bind]; set B' := amul (ainv T) (sb G) in eB' wB' rB' cB' vB' *; set C' := amul (sc G) T.
have sB' : shp B' = (n, m) by rewrite /shp rB' cB'.
have sC' : shp C' = (p, n) by rewrite /shp /= rC cT.
have tC : amx p n C' = amx p n (sc G) *m amx n n T by rewrite !amxE (@mxof_mul _ _ _ _ n) ?rC ?cT ?cC ?rT.
have rk' : (\rank (amx p n C') = n)%N by rewrite tC mxrankMfree // row_free_unit.
have [hx1 hx2 _] := hx _ _ eB' erefl.
have [Ac [Bc [Cc [Tc [ec sc [k hk]]]]]] := stairc false sp0 wB' sA' sB' sC' hx1.
have [Ao [Bo [Co [To [ko' [eo so _]]]]]] := stairo true sp0 sA' sB' sC' hx2.
rewrite ec; cbn [bind]; rewrite eo rk' eqxx n0; cbn [andb bind].
have [[sAc sBc sCc _] _ _ eBc _] := sc; have [[sAo sBo sCo _] _ _ _ _] := so.
have [[rAc cAc] [rBc cBc]] : [/\ nr Ac = n /\ nc Ac = n & nr Bc = n /\ nc Bc = m] by case: sAc sBc => -> -> [-> ->].
have [[rAo cAo] [rBo cBo]] : [/\ nr Ao = n /\ nc Ao = n & nr Bo = n /\ nc Bo = m] by case: sAo sBo => -> -> [-> ->].
rewrite /cancellation_distance rAc cAc rBc /= rAo cAo cBo !eqxx (gtn_eqF n0); cbn [negb bind].
by case: eqP => // e; case: mn.
Qed.

(* With an output matrix of full column rank, and not as many inputs as states, a ValueError: staircase returns B and C
   exchanged (C48_staircase_o_refuted) and cancellation_distance rejects the pair. *)
Theorem C62_full_output_refuted (R : realFieldType) npsvd (spac : R) cdist balance tol (G : state R) : 0 <= spac -> wfS G -> sgain G = false ->
  (0 < snn G)%N -> bal_ok balance (snn G) (sa G) -> min_exact npsvd spac cdist balance tol (sa G) (sb G) (sc G) ->
  \rank (Cmx G) = snn G -> smn G <> snn G ->
  minimal_realization npsvd spac cdist balance tol G = Err ValueError.
Proof. by move=> sp0 w g n0 hb hx rk mn; rewrite /minimal_realization g min_state_Cfull. Qed.
Print Assumptions C62_full_output_refuted.
