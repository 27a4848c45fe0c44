(* Examples for C62 over the rationals, with exact numerics. *)
From mathcomp Require Import all_ssreflect all_algebra zify.
From Coq Require Import String.
From Verif Require Import Base BaseTheory Spec ModelState Denote StateTheory ModelAux ModelKalman AuxTheory SpecSim KalmanTheory ModelFreq FreqTheory ModelLyap LyapTheory TransferTheory
  ModelMin SpecMin StairTheory PropsStair MinTheory PropsMin.

Set Implicit Arguments.
Unset Strict Implicit.
Unset Printing Implicit Defensive.

Import Order.TTheory GRing.Theory Num.Theory.
Local Open Scope ring_scope.
Local Open Scope string_scope.

(* a number that decides controllability: 0 or 1, from the determinant of W W^T, W the controllability matrix *)
Section Gram.
Variable R : realFieldType.
Definition gdist (F G : arr R) : R := if adet (amul (ctrb F G) (aT (ctrb F G))) == 0 then 0 else 1.

Lemma sq0 n (y : 'rV[R]_n) : y *m y^T = 0 -> y = 0.
Proof.
move=> /matrixP/(_ 0 0); rewrite !mxE => h; apply/matrixP => i j; rewrite ord1 mxE.
have h0 : \sum_k y 0 k ^+ 2 = 0 by rewrite -[RHS]h; apply: eq_bigr => k _; rewrite mxE expr2.
have /eqP : y 0 j ^+ 2 = 0 by apply: (psumr_eq0P _ h0) => // k _; exact: sqr_ge0.
by rewrite sqrf_eq0 => /eqP.
Qed.

Lemma gdist_ok tol : 0 <= tol -> tol < 1 -> cdist_ok gdist tol.
Proof.
move=> t0 t1 n m F G [rF cF] [rG cG] n0; rewrite /gdist; set W := ctrb F G.
have [rW cW] := @ctrb_shape R n m F G rF rG cG n0; have hW := @ctrb_cmx R n m F G rF cF rG cG n0.
rewrite -/W in rW cW hW; set Km := mxof _ _ _ W in hW; rewrite -!amxE in hW.
set A := amx n n F in hW *; set B := amx n m G in hW *.
have eM : mxof [rmorphism of @idfun R] n n (amul W (aT W)) = Km *m Km^T.
  by rewrite (@mxof_mul _ _ _ _ (n * m)) ?mxof_T //= rW.
have ud : (Km *m Km^T \in unitmx) = (adet (amul W (aT W)) != 0).
  by rewrite -eM unit_adet.
have hcol x : x *m Km = 0 -> forall j, x *m mpow A j *m B = 0.
  have [X eX] := cmx_inv hW => hx j.
  have hj : x *m mpow A j *m Km = 0.
    rewrite -mulmxA; suff -> : mpow A j *m Km = Km *m mpow X j by rewrite mulmxA hx mul0mx.
    by elim: j => [|j IH] /=; rewrite ?mul1mx ?mulmx1 // -mulmxA IH !mulmxA eX.
  apply/matrixP => i l; have /matrixP/(_ i) := hj.
  have lt : (0 * m + l < n * m)%N by apply: idx_lt.
  move/(_ (Ordinal lt)) => e; transitivity ((x *m mpow A j *m Km) i (Ordinal lt)); last by rewrite e !mxE.
  rewrite mxE [RHS]mxE; apply: eq_bigr => a _; congr (_ * _); by rewrite (hW 0%N a l (Ordinal lt)) // mul1mx.
have hrow x : (forall j, x *m mpow A j *m B = 0) -> x *m Km = 0.
  move=> hx; apply/matrixP => i j.
  have m0 : (0 < m)%N by case: m {B hW Km eM ud hcol hx cG cW} j => // - []; rewrite muln0.
  have hk : (j %/ m < n)%N by rewrite ltn_divLR.
  pose l := Ordinal (ltn_pmod j m0).
  have /matrixP/(_ i l) := hx (j %/ m)%N; rewrite -mulmxA => e; transitivity ((x *m (mpow A (j %/ m) *m B)) i l); last by rewrite e !mxE.
  rewrite mxE [RHS]mxE; apply: eq_bigr => a _; congr (_ * _); by rewrite (hW (j %/ m)%N a l j) //= -divn_eq.
split.
  case: ifP => [/eqP d0 _|_]; last by rewrite leNgt t1.
  move=> hc; have : Km *m Km^T \in unitmx.
    rewrite -row_free_unit -kermx_eq0; apply/eqP/row_matrixP => i; rewrite row0.
    have k0 : row i (kermx (Km *m Km^T)) *m (Km *m Km^T) = 0 by rewrite -row_mul mulmx_ker row0.
    move: (row i _) k0 => x hx; apply: hc; apply: hcol; apply: sq0.
    by rewrite trmx_mul mulmxA -(mulmxA x) hx mul0mx.
  by rewrite ud d0 eqxx.
case: ifP => [_|/negbT d0 _]; first by rewrite ltNge t0.
by move=> x /hrow hx; rewrite -ud in d0; rewrite -[x](mulmxK d0) mulmxA hx !mul0mx.
Qed.
End Gram.

Section Chk.
Variable R : realFieldType.
Variables (npsvd : arr R -> arr R * seq R * arr R) (spac : R) (cdist : arr R -> arr R -> R) (balance : arr R -> arr R * arr R).
Definition schk A B C := ~~ aany B || stair_chk npsvd spac A B C.
Lemma schkP A B C : schk A B C -> stair_exact npsvd spac A B C.
Proof. by case/orP => [/negP h /h //|]; apply: stair_chkP. Qed.
Definition min_chk tol (A B C : arr R) : bool := let: (A', T) := balance A in
  if np_solve T B is Ok B' then let C' := amul C T in
    [&& schk A' B' C', schk (aT A') (aT C') (aT B') &
      if staircase npsvd spac A' B' C' "c" false is Ok (A0, B0, C0, _) then
        (tol < cdist A0 B0) ||
        if trim_c cdist tol (nr A0) A0 B0 C0 is Ok (A1, B1, C1) then schk (aT A1) (aT C1) (aT B1) else false
      else false]
  else false.
Lemma min_chkP tol A B C : min_chk tol A B C -> min_exact npsvd spac cdist balance tol A B C.
Proof.
rewrite /min_chk /min_exact; case: (balance A) => A' T h B' C' e ->; move: h; rewrite e => /and3P[/schkP h1 /schkP h2 h3].
by split=> // A0 B0 C0 T0 A1 B1 C1 e1 e3 e2; move: h3; rewrite e1 e2 ltNge e3 => /schkP.
Qed.
End Chk.

Local Notation Q := rat_realFieldType.
(* exact svds of the unit columns [1; 0; ...], [0; 1], [0; 0; 1], of the identity and of [0 0; 1 0] *)
Definition qsvd (M : arr Q) : arr Q * seq Q * arr Q :=
  if nc M == 1%N then
    (if get M 0 0 == 1 then aeye (nr M) else if nr M == 2%N then zq [:: [:: 0; 1]; [:: 1; 0]] else zq [:: [:: 0; 0; 1]; [:: 0; 1; 0]; [:: 1; 0; 0]],
     [:: 1], aeye 1)
  else if get M 0 0 == 0 then (zq [:: [:: 0; 1]; [:: 1; 0]], [:: 1; 0], aeye 2)
  else (aeye (nr M), [seq get M i i | i <- iota 0 (minn (nr M) (nc M))], aeye (nc M)).
Definition qbal (A : arr Q) : arr Q * arr Q := (A, aeye (nr A)).
Lemma qbal_ok n (A : arr Q) : wfa A -> shp A = (n, n) -> bal_ok qbal n A.
Proof.
move=> w s; have [r c] := s; rewrite /bal_ok /qbal r !amxE mxof_eye; split=> //; first exact: unitmx1.
by rewrite mulmx1 mul1mx.
Qed.
Definition qtol : Q := Eval vm_compute in 1 / 2%:~R.
Lemma qcd : cdist_ok (@gdist Q) qtol. Proof. by apply: gdist_ok; vm_compute. Qed.

(* three states: the third is not reached by the input, the second is not seen in the output *)
Definition g1 : state Q := Eval vm_compute in
  St (zq [:: [:: 1; 0; 1]; [:: 1; 2; 0]; [:: 0; 0; 3]]) (zq [:: [:: 1]; [:: 0]; [:: 0]]) (zq [:: [:: 1; 0; 0]]) (zq [:: [:: 7]]) false (Some (1 / 2%:~R)).
Lemma rank_lt (G : state Q) : (spn G < snn G)%N -> (\rank (Cmx G) < snn G)%N. Proof. exact: rank_col. Qed.
Definition o3 k (h : (k < 3)%N) : 'I_3 := Ordinal h.
Lemma big3 (R : ringType) (F : 'I_3 -> R) : \sum_i F i = F (o3 (isT : 0 < 3)%N) + (F (o3 (isT : 1 < 3)%N) + F (o3 (isT : 2 < 3)%N)).
Proof. rewrite !big_ord_recl big_ord0 addr0; congr (F _ + (F _ + F _)); exact: val_inj. Qed.
Lemma c1_line : unobs_line (Amx g1) (Bmx g1) (Cmx g1).
Proof.
have un (x : 'cV[Q]_3) : unobs (Amx g1) (Cmx g1) x -> x (o3 (isT : 0 < 3)%N) 0 = 0 /\ x (o3 (isT : 2 < 3)%N) 0 = 0.
  move=> h; have := h 1%N; have := h 0%N; rewrite /= !mulmx1.
  rewrite /Amx /Cmx !amxE -(@mxof_mul _ _ [rmorphism of @idfun Q] (spn g1) (snn g1) (snn g1)) // => /matrixP/(_ 0 0) h0 /matrixP/(_ 0 0) h1.
  have e (b : bool) i : (i < 3)%N -> get (if b then amul (sc g1) (sa g1) else sc g1) 0 i = (nth 0%N [:: 1; 0; nat_of_bool b]%N i)%:R.
    by case: b; case: i => [|[|[|//]]] _; apply/eqP; vm_compute.
  move: h0 h1; rewrite [X in X = _ -> _]mxE [X in _ -> X = _ -> _]mxE !big3 ![(0 : 'M_(_, _)) _ _]mxE.
  do 6!rewrite [mxof _ _ _ _ _ _]mxE /=.
  rewrite !(e false) // !(e true) //= !mul0r !mul1r !add0r !addr0 => -> ; by rewrite add0r.
move=> x y _ _ /un[x0 x2] /un[y0 y2]; pose o1 := o3 (isT : 1 < 3)%N.
have all0 (z : 'cV[Q]_3) : z (o3 (isT : 0 < 3)%N) 0 = 0 -> z (o3 (isT : 2 < 3)%N) 0 = 0 -> z o1 0 = 0 -> z = 0.
  move=> z0 z2 z1; apply/matrixP => -[[|[|[|//]]] hi] l; rewrite ord1 [RHS]mxE.
  - by rewrite -z0; congr (z _ _); apply: val_inj.
  - by rewrite -z1; congr (z _ _); apply: val_inj.
  by rewrite -z2; congr (z _ _); apply: val_inj.
have [x1|x1] := eqVneq (x o1 0) 0.
  by exists 1, 0; split=> //; rewrite scale1r scale0r addr0; apply: all0.
exists (y o1 0), (- x o1 0); split; first by case=> _ /eqP; rewrite oppr_eq0 (negbTE x1).
by apply: all0; rewrite !mxE ?x0 ?y0 ?x2 ?y2 ?mulr0 ?addr0 // mulNr mulrC subrr.
Qed.
Example C62_exact_ex : [/\ 0 <= teps, wfS g1, (0 < snn g1)%N & bal_ok qbal (snn g1) (sa g1)] /\ cdist_ok (@gdist Q) qtol /\
  min_exact qsvd teps (@gdist Q) qbal qtol (sa g1) (sb g1) (sc g1) /\ (\rank (Cmx g1) < snn g1)%N /\
  [/\ Bmx g1 <> 0, unobs_line (Amx g1) (Bmx g1) (Cmx g1) &
  if minimal_realization qsvd teps (@gdist Q) qbal qtol g1 is Ok K then
    [&& aeq (sa K) (zq [:: [:: 1]]), aeq (sb K) (zq [:: [:: 1]]), aeq (sc K) (zq [:: [:: 1]]) & aeq (sd K) (zq [:: [:: 7]])] else false].
Proof.
split; [split=> //; exact: qbal_ok | split; [exact: qcd | split; [by apply: min_chkP; vm_compute | split; [exact: rank_lt | split]]]].
- by move/matrixP/(_ 0 0); rewrite !mxE => /eqP; apply/negP; vm_compute.
- exact: c1_line.
by vm_compute.
Qed.

Definition eqS (G K : state Q) : bool :=
  [&& [&& wfa (sa G), wfa (sb G), wfa (sc G) & wfa (sd G)], [&& wfa (sa K), wfa (sb K), wfa (sc K) & wfa (sd K)],
    [&& aeq (sa G) (sa K), aeq (sb G) (sb K), aeq (sc G) (sc K) & aeq (sd G) (sd K)], sgain G == sgain K & sdt G == sdt K].
Lemma okS (r : res (state Q)) (K : state Q) : (if r is Ok G then eqS G K else false) -> r = Ok K.
Proof.
case: r => // G; case: G K => a b c d g t [a' b' c' d' g' t'] /and5P[/= /and4P[? ? ? ?] /and4P[? ? ? ?] /and4P[? ? ? ?] /eqP-> /eqP->].
by congr (Ok (St _ _ _ _ _ _)); apply/aeqP.
Qed.

(* two unobservable states, one of which stays *)
Definition g2 : state Q := Eval vm_compute in
  St (zq [:: [:: 0; 0; 0]; [:: 0; 1; 0]; [:: 0; 0; 2]]) (zq [:: [:: 1; 0; 0]; [:: 0; 1; 0]; [:: 0; 0; 1]]) (zq [:: [:: 0; 0; 1]])
    (zq [:: [:: 0; 0; 0]]) false None.
Definition k2 : state Q := Eval vm_compute in
  St (zq [:: [:: 1; 0]; [:: 0; 2]]) (zq [:: [:: 0; 1; 0]; [:: 0; 0; 1]]) (zq [:: [:: 0; 1]]) (zq [:: [:: 0; 0; 0]]) false None.
Theorem C62_observable_refuted : exists npsvd (spac : Q) cdist balance tol (G K : state Q),
  [/\ 0 <= spac, wfS G, sgain G = false & bal_ok balance (snn G) (sa G)] /\ cdist_ok cdist tol /\
  min_exact npsvd spac cdist balance tol (sa G) (sb G) (sc G) /\ (\rank (Cmx G) < snn G)%N /\
  [/\ Bmx G <> 0, minimal_realization npsvd spac cdist balance tol G = Ok K & ~ observable (Amx K) (Cmx K)].
Proof.
exists qsvd, teps, (@gdist Q), qbal, qtol, g2, k2.
split; [split=> //; exact: qbal_ok | split; [exact: qcd | split; [by apply: min_chkP; vm_compute | split; [exact: rank_lt | split]]]].
- by move/matrixP/(_ 0 0); rewrite !mxE => /eqP; apply/negP; vm_compute.
- by apply: okS; vm_compute.
move=> h; pose e : arr Q := zq [:: [:: 1]; [:: 0]]; have /matrixP/(_ 0 0) : amx 2 1 e = 0.
  apply: h => j; rewrite -mulmxA; have -> : mpow (Amx k2) j *m amx 2 1 e = amx 2 1 e.
    elim: j => [|j IH]; first by rewrite mul1mx.
    rewrite /= -mulmxA IH /Amx !amxE -(@mxof_mul _ _ [rmorphism of @idfun Q] (snn k2) (snn k2) 1) //.
  rewrite /Cmx !amxE -(@mxof_mul _ _ [rmorphism of @idfun Q] (spn k2) (snn k2) 1) //.
  have -> : amul (sc k2) e = azeros 1 1 by apply/aeqP; vm_compute.
  by rewrite mxof_zeros.
by rewrite !mxE => /eqP; apply/negP; vm_compute.
Qed.
Print Assumptions C62_observable_refuted.

(* C = 1 and two inputs: B and C are exchanged, a state is removed that is needed, and the result is the zero model *)
Definition g3 : state Q := Eval vm_compute in
  St (zq [:: [:: 0; 1]; [:: 0; 0]]) (zq [:: [:: 0; 0]; [:: 1; 0]]) (zq [:: [:: 1; 0]; [:: 0; 1]]) (zq [:: [:: 0; 0]; [:: 0; 0]]) false None.
Definition k3 : state Q := Eval vm_compute in
  St (zq [:: [:: 0]]) (zq [:: [:: 1; 0]]) (zq [:: [:: 0]; [:: 0]]) (zq [:: [:: 0; 0]; [:: 0; 0]]) false None.
Theorem C62_transfer_refuted : exists npsvd (spac : Q) cdist balance tol (G K : state Q),
  [/\ 0 <= spac, wfS G, sgain G = false & bal_ok balance (snn G) (sa G)] /\ cdist_ok cdist tol /\
  min_exact npsvd spac cdist balance tol (sa G) (sb G) (sc G) /\
  [/\ Bmx G <> 0, minimal_realization npsvd spac cdist balance tol G = Ok K & ~ same_response G K].
Proof.
exists qsvd, teps, (@gdist Q), qbal, qtol, g3, k3.
split; [split=> //; exact: qbal_ok | split; [exact: qcd | split; [by apply: min_chkP; vm_compute | split]]].
- by move/matrixP/(_ (Ordinal (isT : 1 < 2)%N) 0); rewrite !mxE => /eqP; apply/negP; vm_compute.
- by apply: okS; vm_compute.
case=> _ /(_ 0%N); rewrite /= !mulmx1 /Cmx /Bmx !amxE.
rewrite -(@mxof_mul _ _ [rmorphism of @idfun Q] (spn g3) (snn g3) (smn g3)) // -(@mxof_mul _ _ [rmorphism of @idfun Q] (spn g3) (snn k3) (smn g3)) //.
by move/matrixP/(_ (Ordinal (isT : 1 < 2)%N) 0); rewrite !mxE => /eqP; apply/negP; vm_compute.
Qed.
Print Assumptions C62_transfer_refuted.

(* the hypotheses of C62_uncontrollable_refuted and C62_full_output_refuted *)
Definition g4 : state Q := Eval vm_compute in
  St (zq [:: [:: 1; 0]; [:: 0; 2]]) (zq [:: [:: 0]; [:: 0]]) (zq [:: [:: 1; 0]]) (zq [:: [:: 7]]) false None.
Definition g5 : state Q := Eval vm_compute in
  St (zq [:: [:: 1; 0]; [:: 1; 2]]) (zq [:: [:: 1]; [:: 0]]) (zq [:: [:: 1; 0]; [:: 0; 1]]) (zq [:: [:: 7]; [:: 7]]) false None.
Example C62_uncontrollable_ex : [/\ wfS g4, bal_ok qbal (snn g4) (sa g4) & min_exact qsvd teps (@gdist Q) qbal qtol (sa g4) (sb g4) (sc g4)] /\
  [/\ Bmx g4 = 0, (\rank (Cmx g4) < snn g4)%N & is_ok (minimal_realization qsvd teps (@gdist Q) qbal qtol g4) = false].
Proof.
split; first by split; [| exact: qbal_ok | apply: min_chkP; vm_compute].
split; [| exact: rank_lt | by vm_compute].
by apply/matrixP => -[[|[|//]] hi] [[|//] hj]; rewrite !mxE; apply/eqP; vm_compute.
Qed.
Example C62_full_output_ex : [/\ wfS g5, bal_ok qbal (snn g5) (sa g5) & min_exact qsvd teps (@gdist Q) qbal qtol (sa g5) (sb g5) (sc g5)] /\
  [/\ \rank (Cmx g5) = snn g5, smn g5 <> snn g5 & is_ok (minimal_realization qsvd teps (@gdist Q) qbal qtol g5) = false].
Proof.
split; first by split; [| exact: qbal_ok | apply: min_chkP; vm_compute].
split; [| by [] | by vm_compute].
have -> : Cmx g5 = 1%:M; last by rewrite mxrank1.
by apply/matrixP => -[[|[|//]] hi] [[|[|//]] hj]; rewrite !mxE; apply/eqP; vm_compute.
Qed.

(* the hypotheses of C62_full_rank *)
Definition g6 : state Q := Eval vm_compute in
  St (zq [:: [:: 1; 3]; [:: 1; 2]]) (zq [:: [:: 1; 0]; [:: 0; 1]]) (zq [:: [:: 1; 0]; [:: 0; 1]]) (zq [:: [:: 7; 0]; [:: 7; 0]]) false None.
Example C62_full_rank_ex : [/\ wfS g6, bal_ok qbal (snn g6) (sa g6) & min_exact qsvd teps (@gdist Q) qbal qtol (sa g6) (sb g6) (sc g6)] /\
  [/\ smn g6 = snn g6, \rank (Bmx g6) = snn g6, \rank (Cmx g6) = snn g6 &
    if minimal_realization qsvd teps (@gdist Q) qbal qtol g6 is Ok K then eqS K g6 else false].
Proof.
split; first by split; [| exact: qbal_ok | apply: min_chkP; vm_compute].
have eB : Bmx g6 = 1%:M by apply/matrixP => -[[|[|//]] hi] [[|[|//]] hj]; rewrite !mxE; apply/eqP; vm_compute.
have eC : Cmx g6 = 1%:M by apply/matrixP => -[[|[|//]] hi] [[|[|//]] hj]; rewrite !mxE; apply/eqP; vm_compute.
by split; [| exact: etrans (congr1 mxrank eB) (mxrank1 _ _) | exact: etrans (congr1 mxrank eC) (mxrank1 _ _) | vm_compute].
Qed.
