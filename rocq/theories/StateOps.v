(* Transfer matrices of the results of the State operators. *)
From mathcomp Require Import all_ssreflect all_algebra.
From mathcomp.real_closed Require Import mxtens.
From Verif Require Import Base BaseTheory Spec TfTheory KronTheory ModelState Denote StateTheory.

Set Implicit Arguments.
Unset Strict Implicit.
Unset Printing Implicit Defensive.

Import Order.TTheory GRing.Theory Num.Theory.
Local Open Scope ring_scope.

Section EvLemmas.
Variables (R : realFieldType) (L : fieldType) (f : {rmorphism R -> L}).
Implicit Types (G H K : state R).

(* K has the state matrix of G, B and C rows taken from G, and D shifted by x *)
Lemma ev_shift G K s i j i' j' x : sa K = sa G ->
  get (sd K) i j = get (sd G) i' j' + x ->
  (forall k, (k < snn G)%N -> get (sc K) i k = get (sc G) i' k) ->
  (forall k, (k < snn G)%N -> get (sb K) k j = get (sb G) k j') ->
  ev f K s i j = ev f G s i' j' + f x.
Proof.
move=> ea ed ec eb; rewrite /ev /snn in ec eb *; rewrite ea ed rmorphD -!addrA; congr (_ + _).
rewrite [RHS]addrC; congr (_ + _); congr ((_ *m _ *m _) 0 0).
- by apply/rowP => k; rewrite !mxE ec.
- by apply/colP => k; rewrite !mxE eb.
Qed.

Lemma ev_copy G K s i j i' j' : sa K = sa G ->
  get (sd K) i j = get (sd G) i' j' ->
  (forall k, (k < snn G)%N -> get (sc K) i k = get (sc G) i' k) ->
  (forall k, (k < snn G)%N -> get (sb K) k j = get (sb G) k j') ->
  ev f K s i j = ev f G s i' j'.
Proof.
move=> ea ed ec eb; rewrite -[RHS]addr0 -(rmorph0 f); apply: ev_shift => //.
by rewrite addr0.
Qed.

(* entrywise facts from a matrix identity *)
Lemma ev_matrix p m G s (M : 'M[L]_(p, m)) i j (hi : (i < p)%N) (hj : (j < m)%N) :
  evalS f p m G s = M -> ev f G s i j = M (Ordinal hi) (Ordinal hj).
Proof. by move=> <-; rewrite evalSE. Qed.

(* multiplication of C and D by x *)
Lemma ev_scalec G K s i j i' j' x : sa K = sa G ->
  get (sd K) i j = get (sd G) i' j' * x ->
  (forall k, (k < snn G)%N -> get (sc K) i k = get (sc G) i' k * x) ->
  (forall k, (k < snn G)%N -> get (sb K) k j = get (sb G) k j') ->
  ev f K s i j = ev f G s i' j' * f x.
Proof.
move=> ea ed ec eb; rewrite /ev /snn in ec eb *; rewrite ea ed rmorphM mulrDl; congr (_ + _).
have -> : (\row_(k < nr (sa G)) f (get (sc K) i k)) = f x *: \row_(k < nr (sa G)) f (get (sc G) i' k).
  by apply/rowP => k; rewrite !mxE ec // rmorphM mulrC.
have -> : (\col_(k < nr (sa G)) f (get (sb K) k j)) = \col_(k < nr (sa G)) f (get (sb G) k j').
  by apply/colP => k; rewrite !mxE eb.
by rewrite -!scalemxAl mxE mulrC.
Qed.

Lemma ev_scaleb G K s i j i' j' x : sa K = sa G ->
  get (sd K) i j = get (sd G) i' j' * x ->
  (forall k, (k < snn G)%N -> get (sc K) i k = get (sc G) i' k) ->
  (forall k, (k < snn G)%N -> get (sb K) k j = get (sb G) k j' * x) ->
  ev f K s i j = ev f G s i' j' * f x.
Proof.
move=> ea ed ec eb; rewrite /ev /snn in ec eb *; rewrite ea ed rmorphM mulrDl; congr (_ + _).
have -> : (\row_(k < nr (sa G)) f (get (sc K) i k)) = \row_(k < nr (sa G)) f (get (sc G) i' k).
  by apply/rowP => k; rewrite !mxE ec.
have -> : (\col_(k < nr (sa G)) f (get (sb K) k j)) = f x *: \col_(k < nr (sa G)) f (get (sb G) k j').
  by apply/colP => k; rewrite !mxE eb // rmorphM mulrC.
by rewrite -scalemxAr mxE mulrC.
Qed.

End EvLemmas.

Section Ops.
Variable R : realFieldType.
Implicit Types (G H K : state R) (A : arr R).

Lemma sSISOP G : reflect (spn G = 1%N /\ smn G = 1%N) (sSISO G).
Proof. by apply: (iffP andP) => [[/eqP -> /eqP ->]|[-> ->]]. Qed.

(* ---------------- negation ---------------- *)
Lemma st_negP G : wfS G ->
  exists K, [/\ st_neg G = Ok K, wfS K, sshape K = sshape G, sgain K = sgain G & sdt K = sdt G] /\
   [/\ snn K = snn G, (forall (L : fieldType) (f : {rmorphism R -> L}) s, regS f K s = regS f G s) &
    forall (L : fieldType) (f : {rmorphism R -> L}) s i j, (i < spn G)%N -> (j < smn G)%N ->
      ev f K s i j = - ev f G s i j].
Proof.
move=> w; rewrite /st_neg; case g: (sgain G).
  rewrite mkGain_ok; last exact: wfS_dt w.
  eexists; split; first split; first reflexivity; rewrite ?wfS_mkgain ?wfa_map ?(wfS_dt w) //.
  have [n0 _ _ _ _] := wfS_gain w g.
  split; first by rewrite n0.
    by move=> L f s; rewrite !regS_n0.
  by move=> L f s i j hi hj; rewrite (ev_gain _ _ _ _ w g) ev_n0 //= get_mk // rmorphN.
have [[wa wb wc wd] [e1 e2 e3 e4 e5]] := wfS_dyn w g.
rewrite mkS_ok /= ?e1 ?e2 ?e3 ?e4 ?e5 ?(wfS_dt w) //.
eexists; split; first split; first reflexivity; rewrite ?wfS_mk /= ?wfa_map ?e1 ?e2 ?e3 ?e4 ?e5 ?(wfS_dt w) //.
split => // L f s i j hi hj; rewrite -[RHS]mulr1 mulNr -mulrN -(rmorph1 f) -rmorphN.
apply: ev_scalec => //=; first by rewrite get_mk // mulrN1.
by move=> k hk; rewrite get_mk ?e3 ?e4 // mulrN1.
Qed.

(* ---------------- broadcasting ---------------- *)
Lemma st_bcastP G p m dt : wfS G -> sgain G = false -> sSISO G -> dt_ok dt ->
  exists K, [/\ st_bcast G p m dt = Ok K, wfS K, spn K = p, smn K = m & sdt K = dt] /\
   [/\ sgain K = false, snn K = snn G,
     (forall (L : fieldType) (f : {rmorphism R -> L}) s, regS f K s = regS f G s) &
     forall (L : fieldType) (f : {rmorphism R -> L}) s i j, (i < p)%N -> (j < m)%N ->
      ev f K s i j = ev f G s 0 0].
Proof.
move=> w g /sSISOP[p1 m1] dtk.
have [[wa wb wc wd] [e1 e2 e3 e4 e5]] := wfS_dyn w g.
rewrite /st_bcast /np_mul /np_op2 [nr (aones _ _)]/= [nc (aones _ _)]/=.
rewrite /spn /smn in p1 m1; rewrite p1 m1 !bdim1 /=.
rewrite /spn /smn p1 m1 in e4 e5.
rewrite mkS_ok /= ?e1 ?e2 ?e3 ?e4 ?e5 ?mul1n ?muln1 //.
eexists; split; first (split; [by reflexivity| |by []|by []|by []]).
  by apply: wfS_mk => //; rewrite /= ?wfa_mk ?mul1n ?e1 ?e2 ?e3 ?e4 ?e5 ?muln1.
split => // L f s i j hi hj; apply: ev_copy => //=.
- rewrite get_mk // get_mk ?mul1r /bidx //; last 2 first.
    by case: eqP hi => // ->.
    by case: eqP hj => // ->.
- move=> k hk; rewrite get_mk ?e4 ?muln1 // ?mul1n ?e3 // !divn1 !modn1 divn_small //.
  by rewrite get_mk // mul1r modn_small.
- move=> k hk; rewrite get_mk ?e5 ?muln1 // ?mul1n ?e2 // !divn1 !modn1 divn_small //.
  by rewrite get_mk // mul1r modn_small.
Qed.

(* ---------------- addition ---------------- *)

(* a scalar *)
Lemma st_add_scal lim G x K : wfS G -> st_add lim G (OScal x) = Ok K ->
  [/\ wfS K, sgain K = sgain G, sshape K = sshape G, snn K = snn G & sdt K = sdt G] /\
  [/\ (forall (L : fieldType) (f : {rmorphism R -> L}) s, regS f K s = regS f G s) &
   forall (L : fieldType) (f : {rmorphism R -> L}) s i j, (i < spn G)%N -> (j < smn G)%N ->
     ev f K s i j = ev f G s i j + f x].
Proof.
case: lim => // lim w /=; case g: (sgain G).
  case/mkGain_inv => -> dtk /=; have [n0 _ _ _ _] := wfS_gain w g.
  split; first by split; rewrite ?wfS_mkgain ?wfa_map ?n0.
  split; first by move=> L f s; rewrite !regS_n0.
  move=> L f s i j hi hj; rewrite (ev_gain _ _ _ _ w g) ev_n0 //= get_mk //.
  by rewrite rmorphD.
have [[wa wb wc wd] [e1 e2 e3 e4 e5]] := wfS_dyn w g.
rewrite (_ : (if sSISO G then _ else _) = mkS (sa G) (sb G) (sc G) (aadds (sd G) x) (sdt G)); last by case: ifP.
rewrite mkS_ok ?e1 ?e3 ?(wfS_dt w) // => -[<-] /=.
split; first by split; rewrite ?wfS_mk ?wfa_map ?(wfS_dt w) ?e1 ?e3.
split => // L f s i j hi hj; apply: ev_shift => //=.
by rewrite get_mk.
Qed.

(* a 2-D array *)
Lemma st_add_arr lim G A K : wfS G -> st_add lim G (OArr2 A) = Ok K ->
  [/\ wfS K, sgain K = sgain G, bdim (spn G) (nr A) = Some (spn K),
      bdim (smn G) (nc A) = Some (smn K) & sdt K = sdt G] /\
  [/\ (forall (L : fieldType) (f : {rmorphism R -> L}) s, regS f K s = regS f G s) &
   forall (L : fieldType) (f : {rmorphism R -> L}) s i j, (i < spn K)%N -> (j < smn K)%N ->
     ev f K s i j = ev f G s (bidx (spn G) i) (bidx (smn G) j)
                    + f (get A (bidx (nr A) i) (bidx (nc A) j))].
Proof.
elim: lim G => // lim IH G w /=; case g: (sgain G).
  case E: (np_add _ _) => [d|] //= /mkGain_inv[-> dtk].
  have [wd b1 b2 h] := np_op2_ok E; have [n0 _ _ _ _] := wfS_gain w g.
  split; first by split; rewrite ?wfS_mkgain.
  split; first by move=> L f s; rewrite !regS_n0.
  move=> L f s i j hi hj; rewrite (ev_gain _ _ _ _ w g) ev_n0 //= h //.
  by rewrite rmorphD.
case si: (sSISO G).
  have [K' [[-> w' ep em et] [g' _ hr he]]] := st_bcastP (nr A) (nc A) w g si (wfS_dt w).
  move=> /= /(IH _ w')[[wK gK bp bm tK] [rK eK]].
  rewrite ep /bdim eqxx in bp; rewrite em /bdim eqxx in bm; case: bp bm => bp [bm].
  have [p1 m1] := sSISOP _ si.
  split; first by split; rewrite ?gK ?g' ?p1 ?m1 1?bdimC ?bdim1 ?bp ?bm // tK et.
  split; first by move=> L f s; rewrite rK hr.
  move=> L f s i j hi hj; rewrite p1 m1 !bidx1E eK // he ?ep ?em ?bidx_small ?bp ?bm //.
have [[wa wb wc wd] [e1 e2 e3 e4 e5]] := wfS_dyn w g.
case E: (np_add _ _) => [d|] //=; have [wd' b1 b2 h] := np_op2_ok E.
case/(mkS_inv e2) => _ _ dtk [[-> [h1 h2]]|[_ [h1 h2 h3]]]; last first.
  exfalso; move: si => /sSISOP; apply; split; last by rewrite -e5.
  move: b1; rewrite h1 /bdim -/(spn G); case: eqP => [_ [->] //|_].
  by case: eqP => [-> //|_]; case: eqP => // _ [].
split; first split; rewrite //=.
  by rewrite wfS_mk // ?e1 ?e3.
split => // L f s i j hi hj; apply: ev_shift => //=; first by rewrite h.
- by move=> k hk; rewrite bidx_small // -e4 h1.
- by move=> k hk; rewrite bidx_small // -e5 h2.
Qed.

(* SISO dynamic plus a 1-by-1 array never returns *)
Lemma st_add_arr11 lim G A : wfS G -> sgain G = false -> sSISO G -> shp A = (1, 1)%N ->
  st_add lim G (OArr2 A) = Err RecursionError.
Proof.
move=> + + + [a1 a2]; elim: lim G => // lim IH G w g si /=; rewrite g si.
have [K' [[-> w' ep em et] [g' _ hr he]]] := st_bcastP (nr A) (nc A) w g si (wfS_dt w).
by rewrite /= IH //; apply/sSISOP; rewrite ep em.
Qed.

(* two dynamic models of the same shape *)
Lemma par_dyn G H K : wfS G -> wfS H -> sgain G = false -> sgain H = false ->
  sshape G = sshape H ->
  (do d <- np_add (sd G) (sd H);
   do b <- np_vstack (sb G) (sb H);
   do c <- np_hstack (sc G) (sc H);
   mkS (adiag2 (sa G) (sa H)) b c d None) = Ok K ->
  [/\ wfS K, sgain K = false, sshape K = sshape G, snn K = (snn G + snn H)%N & sdt K = None] /\
  [/\ (forall (L : fieldType) (f : {rmorphism R -> L}) s, regS f K s = regS f G s && regS f H s) &
   forall (L : fieldType) (f : {rmorphism R -> L}) s i j, (i < spn G)%N -> (j < smn G)%N ->
     regS f G s -> regS f H s ->
     ev f K s i j = ev f G s i j + ev f H s i j].
Proof.
move=> w w' g g' [ep em].
have [[wa wb wc wd] [e1 e2 e3 e4 e5]] := wfS_dyn w g.
have [[wa' wb' wc' wd'] [e1' e2' e3' e4' e5']] := wfS_dyn w' g'.
have eb : nc (sb G) = nc (sb H) by rewrite e5 e5'.
have ec : nr (sc G) = nr (sc H) by rewrite e4 e4'.
rewrite /np_add np_op2_same //= /np_vstack eb eqxx /= /np_hstack ec eqxx /=.
rewrite mkS_ok /= ?e1 ?e1' ?e2 ?e2' ?e3 ?e3' ?ec ?eb ?e4' ?e5' //.
case=> <-; split; first split => //.
  by rewrite wfS_mk //= ?wfa_mk ?e1 ?e1' ?e2 ?e2' ?e3 ?e3' // ?eb ?ec ?e4' ?e5'.
set K0 := St _ _ _ _ _ _.
have Amx (L : fieldType) (f : {rmorphism R -> L}) : mxof f (snn G + snn H) (snn G + snn H) (sa K0) =
   block_mx (mxof f (snn G) (snn G) (sa G)) 0 0 (mxof f (snn H) (snn H) (sa H)).
  by rewrite mxof_diag2.
split; first by move=> L f s; rewrite /regS Amx regular_ublock.
move=> L f s i j hi hj r1 r2.
have EM : evalS f (spn G) (smn G) K0 s =
          evalS f (spn G) (smn G) G s + evalS f (spn G) (smn G) H s.
  rewrite /evalS [snn K0]/= -/(snn G + snn H)%N Amx.
  rewrite (_ : mxof f _ _ (sd K0) = mxof f (spn G) (smn G) (sd G) + mxof f (spn G) (smn G) (sd H)); last exact: mxof_add.
  by rewrite mxof_vcat // mxof_hcat // ?e4 //; apply: tf_parallel.
by rewrite (ev_matrix hi hj EM) mxE !evalSE.
Qed.

(* State + State *)
Lemma st_add_state lim G H K : wfS G -> wfS H -> st_add lim G (OState H) = Ok K ->
  [/\ sdt G = sdt H, wfS K, bdim (spn G) (spn H) = Some (spn K) &
      bdim (smn G) (smn H) = Some (smn K)] /\
  [/\ (forall (L : fieldType) (f : {rmorphism R -> L}) s, regS f K s = regS f G s && regS f H s) &
   forall (L : fieldType) (f : {rmorphism R -> L}) s i j, (i < spn K)%N -> (j < smn K)%N ->
     regS f G s -> regS f H s ->
     ev f K s i j = ev f G s (bidx (spn G) i) (bidx (smn G) j)
                    + ev f H s (bidx (spn H) i) (bidx (smn H) j)].
Proof.
elim: lim G H => // lim IH G H w w' /=; case: ifP => // /eqP dtE.
case: ifP => [/andP[g g']|gg].
  case E: (np_add _ _) => [d|] //= /mkGain_inv[-> dtk].
  have [wd b1 b2 h] := np_op2_ok E.
  split; first by split; rewrite ?wfS_mkgain.
  split; first by move=> L f s; rewrite !regS_gain ?wfS_mkgain.
  move=> L f s i j hi hj _ _; rewrite (ev_gain _ _ _ _ w g) (ev_gain _ _ _ _ w' g').
  by rewrite ev_n0 //= h // rmorphD.
case: ifP => g.
  rewrite /to_array g /= => /(st_add_arr w')[[wK gK bp bm tK] [rK eK]].
  split; first by split => //; rewrite bdimC.
  split; first by move=> L f s; rewrite rK (regS_gain _ _ w g).
  by move=> L f s i j hi hj _ _; rewrite eK // addrC (ev_gain _ _ _ _ w g).
case: ifP => g'.
  rewrite /to_array g' /= => /(st_add_arr w)[[wK gK bp bm tK] [rK eK]].
  split => //; split; first by move=> L f s; rewrite rK (regS_gain _ _ w' g') andbT.
  by move=> L f s i j hi hj _ _; rewrite eK // (ev_gain _ _ _ _ w' g').
case: ifP => [/eqP es|].
  case: ifP => // sh /(par_dyn w w' g g') [].
    case/orP: sh => [si|/eqP -> //].
    by have [? ?] := sSISOP _ si; rewrite es in si; have [? ?] := sSISOP _ si;
       congr pair; rewrite -/(spn G) -/(spn H) -/(smn G) -/(smn H); congruence.
  move=> [wK gK sK nK tK] [rK eK].
  have [sp sm] : spn G = spn H /\ smn G = smn H.
    case/orP: sh => [si|/eqP [] //].
    by have [-> ->] := sSISOP _ si; rewrite es in si; have [-> ->] := sSISOP _ si.
  have [-> ->] : spn K = spn G /\ smn K = smn G by case: sK.
  split; first by split; rewrite // -?sp -?sm /bdim eqxx.
  split => // L f s i j hi hj r1 r2; rewrite eK // -sp -sm !bidx_small //.
move=> ne; case: ifP => si.
  have [K' [[-> wK' ep em et] [gK' _ hr he]]] := st_bcastP (spn H) (smn H) w g si (wfS_dt w).
  move=> /= /(IH _ _ wK' w')[[_ wK bp bm] [rK eK]].
  rewrite ep /bdim eqxx in bp; rewrite em /bdim eqxx in bm; case: bp bm => bp [bm].
  have [p1 m1] := sSISOP _ si.
  split; first by split; rewrite // ?p1 ?m1 bdimC bdim1 ?bp ?bm.
  split; first by move=> L f s; rewrite rK hr.
  move=> L f s i j hi hj r1 r2; rewrite p1 m1 !bidx1E eK ?hr // he ?ep ?em ?bidx_small ?bp ?bm //.
have si' : sSISO H by move: ne; rewrite si; case: (sSISO H).
have [K' [[-> wK' ep em et] [gK' _ hr he]]] := st_bcastP (spn G) (smn G) w' g' si' (wfS_dt w).
move=> /= /(IH _ _ w wK')[[_ wK bp bm] [rK eK]].
rewrite ep /bdim eqxx in bp; rewrite em /bdim eqxx in bm; case: bp bm => bp [bm].
have [p1 m1] := sSISOP _ si'.
split; first by split; rewrite // ?p1 ?m1 bdim1 ?bp ?bm.
split; first by move=> L f s; rewrite rK hr.
by move=> L f s i j hi hj r1 r2; rewrite p1 m1 !bidx1E eK ?hr // he ?ep ?em ?bidx_small ?bp ?bm.
Qed.

End Ops.
