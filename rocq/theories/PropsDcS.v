(* Property C76: State.dcgain.  dc_of, up_to_big and lowfreq are in SpecDcS.v; npsvd, cdist, balance and the hypotheses
   bal_ok, cdist_ok, min_exact on them are those of C62 (SpecMin.v). *)
From mathcomp Require Import all_ssreflect all_algebra zify.
From Coq Require Import String.
From Verif Require Import Base BaseTheory Spec ModelState Denote StateTheory ModelAux AuxTheory SpecSim SimTheory KalmanTheory TransferTheory ModelTransfer DenoteT SpecReach ReachTheory
  ModelMin SpecMin StairTheory PropsStair MinTheory PropsMin ModelDc PropsDc ModelDcS SpecDcS DcSTheory.

Set Implicit Arguments.
Unset Strict Implicit.
Unset Printing Implicit Defensive.

Import Order.TTheory GRing.Theory Num.Theory.
Local Open Scope ring_scope.

(* the inputs act, and either C has not full column rank, or B and C both have full rank with as many inputs as states *)
Definition min_good (R : realFieldType) n m p (A B C : arr R) : Prop :=
  (amx n m B <> 0 /\ (\rank (amx p n C) < n)%N) \/ [/\ m = n, \rank (amx n m B) = n & \rank (amx p n C) = n].

Lemma row_col_mul (R : ringType) p n m (X : 'M[R]_(p, n)) (Y : 'M[R]_(n, n)) (Z : 'M[R]_(n, m)) i j :
  (matrix.row i X *m Y *m col j Z) 0 0 = (X *m Y *m Z) i j.
Proof. by rewrite -row_mul !mxE; apply: eq_bigr => q _; rewrite [matrix.row _ _ _ _]mxE [col _ _ _ _]mxE. Qed.

Section Dc.
Variable R : realFieldType.
Variables (npsvd : arr R -> arr R * seq R * arr R) (spac : R) (cdist : arr R -> arr R -> R) (balance : arr R -> arr R * arr R).
Hypothesis sp0 : 0 <= spac.
Variables (tol big : R).
Hypothesis cd : cdist_ok cdist tol.

Lemma min_any n m p A B C : sys n m p A B C -> (0 < n)%N -> bal_ok balance n A ->
  min_exact npsvd spac cdist balance tol A B C -> min_good n m p A B C ->
  exists A1 B1 C1 r, min_state npsvd spac cdist balance tol A B C = Ok (A1, B1, C1) /\ reduced n m p A B C r A1 B1 C1.
Proof.
move=> sy n0 hb hx [[B0 rk]|[e rB rC]]; first exact: min_stateP.
subst m; have [A1 [B1 [C1 h]]] := min_state_full sp0 cd sy n0 hb hx rB rC; by exists A1, B1, C1, n.
Qed.

Lemma shiftedP r dt (A : arr R) : shp A = (r, r) ->
  shp (shifted dt A) = (r, r) /\ amx r r (shifted dt A) = (if dt is Some _ then 1 else 0)%:M - amx r r A.
Proof.
case=> rA cA; case: dt => [h|] /=; rewrite /shp /= ?rA ?cA; split=> //; apply/matrixP => i j; rewrite !mxE get_mk ?rA ?cA //.
  by rewrite get_mk //; case: (i == j).
by rewrite mul0rn add0r.
Qed.

Lemma dc_solveP r m p dt (A B C : arr R) : sys r m p A B C -> let M := (if dt is Some _ then 1 else 0)%:M - amx r r A in
  if M \in unitmx then exists V, [/\ dc_solve dt A B C = Ok V, shp V = (p, m) & amx p m V = amx p r C *m invmx M *m amx r m B]
  else dc_solve dt A B C = Err LinAlgError.
Proof.
move=> [sA [rB cB] [rC cC]] M; have [[r1 c1] e] := shiftedP dt sA.
rewrite /dc_solve (np_solveP r1 c1 rB cB).
have -> : (adet (shifted dt A) == 0) = (M \notin unitmx) by rewrite /M -e amxE unit_adet // negbK.
case u: (M \in unitmx) => //=.
have E := np_solveP r1 c1 rB cB.
have dA : adet (shifted dt A) == 0 = false by apply/negbTE; rewrite -(@unit_adet _ _ [rmorphism of @idfun R] r) // -amxE e.
rewrite dA in E; have [_ rX cX _ vX] := @np_solve_ok _ _ [rmorphism of @idfun R] r m _ _ _ r1 cB E.
exists (amul C (amul (ainv (shifted dt A)) B)); split=> //; first by rewrite /shp /= rC cB.
rewrite !amxE (@mxof_mul _ _ _ _ r) //.
by rewrite vX -!amxE e mulmxA.
Qed.

(* one channel of G and a single-input single-output realization of it *)
Lemma dc_entryP (G : state R) i j r (A1 : 'M[R]_r) (b1 : 'cV[R]_r) (c1 : 'rV[R]_r) :
  (forall k, c1 *m mpow A1 k *m b1 = matrix.row i (Cmx G) *m mpow (Amx G) k *m col j (Bmx G)) ->
  let M := (lowfreq G)%:M - A1 in
  M \in unitmx \/ (controllable A1 b1 /\ observable A1 c1) ->
  dc_of i j (if M \in unitmx then Fin (Dmx G i j + (c1 *m invmx M *m b1) 0 0) else Inf R true).
Proof.
move=> mk M hM.
have ent s : s%:M - Amx G \in unitmx ->
  (tfnum (Amx G) (col j (Bmx G)) (matrix.row i (Cmx G)) (Dmx G i j)).[s] / (char_poly (Amx G)).[s] =
  (Dmx G + Cmx G *m invmx (s%:M - Amx G) *m Bmx G) i j.
  move=> u; rewrite tfnumP // [RHS]mxE; congr (_ + _).
  exact: row_col_mul.
split.
  exists (tfnum (Amx G) (col j (Bmx G)) (matrix.row i (Cmx G)) (Dmx G i j)), (char_poly (Amx G)).
  by split; [rewrite monic_neq0 // char_poly_monic | move=> s u _; apply: ent].
move=> num den [d0 hn].
have x1 : char_poly A1 != 0 by rewrite monic_neq0 // char_poly_monic.
have x0 : char_poly (Amx G) != 0 by rewrite monic_neq0 // char_poly_monic.
have e : num * char_poly A1 = tfnum A1 b1 c1 (Dmx G i j) * den.
  apply: (ratl_eq x0 d0 x1) => s xs ds x1s.
  have u : s%:M - Amx G \in unitmx by rewrite unitmxE unitfE det_char.
  have u1 : s%:M - A1 \in unitmx by rewrite unitmxE unitfE det_char.
  by rewrite hn // -ent // !tfnumP // (markov_tf mk).
have uE : (M \in unitmx) = ((char_poly A1).[lowfreq G] != 0) by rewrite unitmxE unitfE det_char.
have nz : ((tfnum A1 b1 c1 (Dmx G i j)).[lowfreq G] != 0) || ((char_poly A1).[lowfreq G] != 0).
  rewrite -uE; case: hM => [-> |[hc ho]]; first by rewrite orbT.
  by case: (boolP (M \in unitmx)) => u; rewrite ?orbT // tfnum_pole.
have := value_cross d0 e nz; rewrite -uE; case: ifP => // u.
by rewrite tfnumP.
Qed.


(* the numerics are exact on one channel and its reachable unobservable states are on one line *)
Definition channel_good (G : state R) (i : 'I_(spn G)) (j : 'I_(smn G)) : Prop :=
  let b := acols (sb G) [:: nat_of_ord j] in let c := arows (sc G) [:: nat_of_ord i] in
  [/\ min_exact npsvd spac cdist balance tol (sa G) b c, min_good (snn G) 1 1 (sa G) b c &
    unobs_line (Amx G) (col j (Bmx G)) (matrix.row i (Cmx G))].

Lemma chan_sys (G : state R) i j : wfS G -> sgain G = false -> (i < spn G)%N -> (j < smn G)%N ->
  sys (snn G) 1 1 (sa G) (acols (sb G) [:: j]) (arows (sc G) [:: i]).
Proof. by move=> w g hi hj; have [_ [e1 e2 e3 e4 e5]] := wfS_dyn w g; split; rewrite /shp /= ?e1 ?e2 ?e3. Qed.

Lemma chan_mx (G : state R) (i : 'I_(spn G)) (j : 'I_(smn G)) : wfS G -> sgain G = false ->
  amx (snn G) 1 (acols (sb G) [:: nat_of_ord j]) = col j (Bmx G) /\ amx 1 (snn G) (arows (sc G) [:: nat_of_ord i]) = matrix.row i (Cmx G).
Proof.
move=> w g; have [_ [e1 e2 e3 e4 e5]] := wfS_dyn w g.
by split; apply/matrixP => a b; rewrite !mxE get_mk ?e2 ?e3 ?(ord1 b) ?(ord1 a).
Qed.

Lemma dc_channelP (G : state R) (i : 'I_(spn G)) (j : 'I_(smn G)) : wfS G -> sgain G = false -> (0 < snn G)%N ->
  bal_ok balance (snn G) (sa G) -> channel_good i j ->
  exists v w, [/\ dc_channel npsvd spac cdist balance tol big G i j = Ok v, dc_of i j w & up_to_big big (get (sd G) i j) w (fplus v (get (sd G) i j))].
Proof.
move=> w g n0 hb [hx hg hl]; have [eb ec] := chan_mx i j w g.
have [A1 [B1 [C1 [r [e [[sy w3] rn hc hm ho]]]]]] := min_any (chan_sys w g (ltn_ord i) (ltn_ord j)) n0 hb hx hg.
rewrite eb ec in ho.
have mk k : amx 1 r C1 *m mpow (amx r r A1) k *m amx r 1 B1 = matrix.row i (Cmx G) *m mpow (Amx G) k *m col j (Bmx G).
  by have := hm k; rewrite /markov3 eb ec.
have D := dc_entryP mk (or_intror (conj hc (ho hl))).
rewrite /dc_channel e; cbn [bind].
have := dc_solveP (sdt G) sy; cbv zeta in D |- *; rewrite -/(lowfreq G); move: D; case: ifP => u D.
  case=> V [eV [rV cV] vV]; rewrite eV; do 2 eexists; split; [reflexivity | exact: D |].
  have -> : get V 0 0 = (amx 1 r C1 *m invmx ((lowfreq G)%:M - amx r r A1) *m amx r 1 B1) 0 0 by rewrite -vV mxE.
  have -> : Dmx G i j = get (sd G) i j by rewrite mxE.
  case: ifP => h; last by left; rewrite /= addrC.
  by right; eexists; split; [reflexivity | rewrite addrC addKr |].
by move=> ->; do 2 eexists; split; [reflexivity | exact: D | left].
Qed.

(* the entry (i, j) of the answer *)
Definition dc_ent (x : dcres R) (i j : nat) : fval R := if x is DcArr V then nth (Fin 0) (nth [::] V i) j else Inf R true.

(* Every entry of the answer is the value of the entry of the transfer matrix at s = 0 (z = 1), or inf at a pole; a value
   that differs from D by more than big may be reported as inf.  Missing: models outside min_good, where the code raises
   or can be wrong (C76_zero_input_refuted, C76_full_output_refuted), and channels with more than a line of
   reachable unobservable states, which minimal_realization does not reduce completely (C62_observable_refuted). *)
Theorem C76_value_partial (G : state R) : wfS G -> sgain G = false -> (0 < snn G)%N -> bal_ok balance (snn G) (sa G) ->
  min_exact npsvd spac cdist balance tol (sa G) (sb G) (sc G) -> min_good (snn G) (smn G) (spn G) (sa G) (sb G) (sc G) ->
  (forall i j, channel_good (G := G) i j) ->
  exists V, state_dcgain npsvd spac cdist balance tol big G = Ok V /\
    forall i j, exists v, dc_of (G := G) i j v /\ up_to_big big (get (sd G) i j) v (dc_ent V i j).
Proof.
move=> w g n0 hb hx hg hch.
have [A1 [B1 [C1 [r [e [[sy w3] rn hc hm ho]]]]]] := min_any (wfS_sys w g) n0 hb hx hg.
have mk k : amx (spn G) r C1 *m mpow (amx r r A1) k *m amx r (smn G) B1 = Cmx G *m mpow (Amx G) k *m Bmx G by exact: hm.
have mkij i j k : matrix.row i (amx (spn G) r C1) *m mpow (amx r r A1) k *m col j (amx r (smn G) B1) = matrix.row i (Cmx G) *m mpow (Amx G) k *m col j (Bmx G).
  by apply/matrixP => a b; rewrite (ord1 a) (ord1 b) !row_col_mul mk.
rewrite /state_dcgain g e; cbn [bind].
have := dc_solveP (sdt G) sy; cbv zeta; rewrite -/(lowfreq G); case: ifP => u.
  case=> V [eV [rV cV] vV]; rewrite eV; eexists; split; [reflexivity|] => i j.
  have := dc_entryP (mkij i j) (or_introl u); rewrite u => D; eexists; split; [exact: D|].
  rewrite /dc_ent nth_mkseq // nth_mkseq //.
  have -> : get V i j = (matrix.row i (amx (spn G) r C1) *m invmx ((lowfreq G)%:M - amx r r A1) *m col j (amx r (smn G) B1)) 0 0.
    have -> : get V i j = amx (spn G) (smn G) V i j by rewrite mxE.
    by rewrite vV row_col_mul.
  have -> : Dmx G i j = get (sd G) i j by rewrite mxE.
  case: ifP => h; last by left; rewrite /= addrC.
  by right; eexists; split; [reflexivity | rewrite addrC addKr; apply: lt_le_trans h (ler_norm _) |].
move=> ->; case: ifP => [/andP[/eqP p1 /eqP m1]|_].
  exists (DcInf R); split=> // i j.
  have [[_ wB wC _] [e1 e2 e3 e4 e5]] := wfS_dyn w g.
  have eb : acols (sb G) [:: nat_of_ord j] = sb G.
    have j0 : nat_of_ord j = 0%N by move: (ltn_ord j) m1; clear; lia.
    apply: arr_eqP; rewrite ?wfa_mk //= ?e5 ?m1 // => a b' ha hb'; rewrite get_mk //.
    by rewrite j0; move: hb'; case: b'.
  have ec : arows (sc G) [:: nat_of_ord i] = sc G.
    have i0 : nat_of_ord i = 0%N by move: (ltn_ord i) p1; clear; lia.
    apply: arr_eqP; rewrite ?wfa_mk //= ?e4 ?p1 // => a b' ha hb'; rewrite get_mk //.
    by rewrite i0; move: ha; case: a.
  have [hx' hg' hl] := hch i j; have [ebm ecm] := chan_mx i j w g.
  have [A2 [B2 [C2 [r' [e' [[sy' _] _ hc' hm' ho']]]]]] := min_any (chan_sys w g (ltn_ord i) (ltn_ord j)) n0 hb hx' hg'.
  rewrite eb ec e in e'; case: e' => ? ? ?; subst A2 B2 C2.
  have er : r' = r by have [[<- _] _ _] := sy; have [[<- _] _ _] := sy'.
  subst r'; rewrite ebm ecm in ho'.
  have mk' k : amx 1 r C1 *m mpow (amx r r A1) k *m amx r 1 B1 = matrix.row i (Cmx G) *m mpow (Amx G) k *m col j (Bmx G).
    by have := hm' k; rewrite /markov3 ebm ecm.
  have := dc_entryP mk' (or_intror (conj hc' (ho' hl))); rewrite u => D.
  by eexists; split; [exact: D | left].
have H i j : (i < smn G)%N -> (j < spn G)%N -> exists v, dc_channel npsvd spac cdist balance tol big G j i = Ok v /\
   (forall (hj : (j < spn G)%N) (hi : (i < smn G)%N), exists x, dc_of (Ordinal hj) (Ordinal hi) x /\ up_to_big big (get (sd G) j i) x (fplus v (get (sd G) j i))).
  move=> hi hj; have [v [x [h1 h2 h3]]] := dc_channelP w g n0 hb (hch (Ordinal hj) (Ordinal hi)); exists v; split=> // hj' hi'.
  by exists x; rewrite (bool_irrelevance hj' hj) (bool_irrelevance hi' hi).
have [V [-> _ hV]] := gridR_all (Fin 0) H; cbn [bind]; eexists; split; [reflexivity|] => i j.
have := hV j i (ltn_ord j) (ltn_ord i) (ltn_ord i) (ltn_ord j).
have -> : Ordinal (ltn_ord i) = i by apply: val_inj.
have -> : Ordinal (ltn_ord j) = j by apply: val_inj.
by rewrite /dc_ent nth_mkseq // nth_mkseq.
Qed.


(* no pole at the low frequency: the gain is D + C (x I - A)^-1 B *)
Theorem C76_regular_partial (G : state R) : wfS G -> sgain G = false -> (0 < snn G)%N -> bal_ok balance (snn G) (sa G) ->
  min_exact npsvd spac cdist balance tol (sa G) (sb G) (sc G) -> min_good (snn G) (smn G) (spn G) (sa G) (sb G) (sc G) ->
  (forall i j, channel_good (G := G) i j) -> (lowfreq G)%:M - Amx G \in unitmx ->
  exists V, state_dcgain npsvd spac cdist balance tol big G = Ok V /\
    forall i j, let x := (Dmx G + Cmx G *m invmx ((lowfreq G)%:M - Amx G) *m Bmx G) i j in
      dc_ent V i j = Fin x \/ (big < `|x - Dmx G i j| /\ dc_ent V i j = Inf R true).
Proof.
move=> w g n0 hb hx hg hch u; have [V [e h]] := C76_value_partial w g n0 hb hx hg hch; exists V; split=> // i j x.
have [v [[_ D] U]] := h i j.
have u0 : (char_poly (Amx G)).[lowfreq G] != 0 by rewrite -det_char -unitfE -unitmxE.
have en : entry_of i j (tfnum (Amx G) (col j (Bmx G)) (matrix.row i (Cmx G)) (Dmx G i j)) (char_poly (Amx G)).
  split; first by rewrite monic_neq0 // char_poly_monic.
  by move=> s us _; rewrite tfnumP // [RHS]mxE row_col_mul.
have [k [a [b [ea eb nz ev]]]] := D _ _ en.
have k0 : k = 0%N by case: k ea eb => // k _ eb; move: u0; rewrite eb exprS -mulrA hornerM hornerXsubC subrr mul0r eqxx.
subst k; rewrite expr0 mul1r in ea; rewrite expr0 mul1r in eb.
have vx : v = Fin x by rewrite ev -eb u0 -ea tfnumP // /x [in RHS]mxE row_col_mul.
case: U => [->|[y [ey by_ ew]]]; first by left.
by right; split=> //; move: ey; rewrite vx => -[->]; rewrite [Dmx G i j]mxE.
Qed.

(* a gain returns its matrix *)
Theorem C76_gain (G : state R) : sgain G = true -> exists V, state_dcgain npsvd spac cdist balance tol big G = Ok V /\
  forall i j, (i < spn G)%N -> (j < smn G)%N -> dc_ent V i j = Fin (get (sd G) i j).
Proof. by move=> g; rewrite /state_dcgain g; eexists; split; [reflexivity|] => i j hi hj; rewrite /dc_ent !nth_mkseq. Qed.

(* a model whose input matrix is zero has the gain D, but the call raises IndexError *)
Theorem C76_zero_input_refuted (G : state R) : wfS G -> sgain G = false -> (0 < snn G)%N -> bal_ok balance (snn G) (sa G) ->
  min_exact npsvd spac cdist balance tol (sa G) (sb G) (sc G) -> Bmx G = 0 -> (\rank (Cmx G) < snn G)%N ->
  state_dcgain npsvd spac cdist balance tol big G = Err IndexError.
Proof. by move=> w g n0 hb hx B0 rk; rewrite /state_dcgain g (min_state_B0 sp0 w g n0 hb cd hx B0 rk). Qed.

(* so does, with ValueError, a model that measures all its states and has not as many inputs *)
Theorem C76_full_output_refuted (G : state R) : wfS G -> sgain G = false -> (0 < snn G)%N -> bal_ok balance (snn G) (sa G) ->
  min_exact npsvd spac cdist balance tol (sa G) (sb G) (sc G) -> \rank (Cmx G) = snn G -> smn G <> snn G ->
  state_dcgain npsvd spac cdist balance tol big G = Err ValueError.
Proof. by move=> w g n0 hb hx rk mn; rewrite /state_dcgain g (min_state_Cfull sp0 w g n0 hb hx rk mn). Qed.

End Dc.
Print Assumptions C76_value_partial.
Print Assumptions C76_regular_partial.
Print Assumptions C76_gain.
Print Assumptions C76_zero_input_refuted.
Print Assumptions C76_full_output_refuted.
