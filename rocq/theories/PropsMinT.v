(* Properties C63 and C74: minimal_realization of Transfer models.
   rts stands for np.roots and sq for the square root inside np.abs; rts_ok, sep and reduced are in SpecMinT.v;
   cpl R are the complex numbers over R (Cplx.v); wfT, evT, dfT: consistent Transfer objects, their values and where
   these are defined (DenoteT.v).  sca, svd stand for the computations inside haroldlcm, as in C08. *)
From mathcomp Require Import all_ssreflect all_algebra zify.
From Verif Require Import Base BaseTheory Spec ModelPoly PolyTheory PolyOps LcmTheory ModelState StateProps ModelTransfer DenoteT
  TransferTheory TransferOps TransferProps ConvertTf PropsDc RingTac Cplx ModelMinT SpecMinT MinTTheory.

Set Implicit Arguments.
Unset Strict Implicit.
Unset Printing Implicit Defensive.

Import Order.TTheory GRing.Theory Num.Theory.
Local Open Scope ring_scope.

Local Notation Q := rat_realFieldType.

(* what the result K of a reduction of G must satisfy: same shape and sampling period, every entry the reduced form of
   the entry of G, hence the same value wherever the entry of G has one, over every extension field *)
Definition reduction (R : realFieldType) (G K : tf R) : Prop :=
  [/\ wfT K, tshape K = tshape G, tdt K = tdt G,
      forall i j, (i < tp G)%N -> (j < tm G)%N ->
        reduced (ent (tn G) i j) (ent (td G) i j) (ent (tn K) i j) (ent (td K) i j) &
      forall (L : fieldType) (f : {rmorphism R -> L}) (s : L) i j, (i < tp G)%N -> (j < tm G)%N ->
        dfT f G s i j -> dfT f K s i j /\ evT f K s i j = evT f G s i j].

Section Reduce.
Variable R : realFieldType.
Variable rts : row R -> seq (cpl R).
Variable sq : R -> R.
Variable lcmf : seq (row R) -> res (row R * seq (row R)).
Variable eps : R.

Lemma reduced_value (num den num' den' : row R) (L : fieldType) (f : {rmorphism R -> L}) (s : L) :
  reduced num den num' den' -> pev f den s != 0 ->
  pev f den' s != 0 /\ pev f num' s / pev f den' s = pev f num s / pev f den s.
Proof.
case=> e dv _ _ _ h0.
have h1 : pev f den' s != 0.
  apply/negP => /eqP z; move: h0; case/dvdpP: dv => q; rewrite /pev => ->.
  by move: z; rewrite /pev rmorphM hornerM => ->; rewrite mulr0 eqxx.
split=> //; apply/eqP; rewrite eqr_div //; apply/eqP; rewrite /pev -!hornerM -!rmorphM e.
by [].
Qed.

Lemma entries tol (G : tf R) : wfT G ->
  (forall i j, (i < tp G)%N -> (j < tm G)%N -> tidy (ent (tn G) i j)) ->
  (forall i j, (i < tp G)%N -> (j < tm G)%N -> size (ent (tn G) i j) != 1%N ->
     rts_ok rts (ent (tn G) i j) /\ rts_ok rts (ent (td G) i j) /\ sep rts sq tol (ent (tn G) i j) (ent (td G) i j)) ->
  exists V, [/\ gridR (tp G) (tm G) (fun i j => mt_simplify rts sq tol (ent (tn G) i j) (ent (td G) i j)) = Ok V,
    rect (tp G) (tm G) V & forall i j, (i < tp G)%N -> (j < tm G)%N ->
      let e := gnt ([::], [::]) V i j in reduced (ent (tn G) i j) (ent (td G) i j) e.1 e.2 /\ tidy e.1].
Proof.
move=> w ht hr; case: (wfTP w) => _ hd hc _ _.
apply: (@gridR_all _ ([::], [::]) _ _ _ (fun i j (e : row R * row R) =>
  reduced (ent (tn G) i j) (ent (td G) i j) e.1 e.2 /\ tidy e.1)) => i j hi hj.
have hsz : (size (ent (tn G) i j) <= size (ent (td G) i j))%N.
  have := hc i j hi hj; have d0 := hd i j hi hj; case/orP: (ht i j hi hj) => [/eqP ->|n0].
    by case: (ent (td G) i j) d0 => //=; rewrite eqxx.
  by rewrite size_polyhi_trim //; case: (ent (tn G) i j) n0 => //=; rewrite eqxx.
have [n' [d' [E H]]] := @mt_simplifyP _ rts sq tol _ _ (hd i j hi hj) (ht i j hi hj) hsz (hr i j hi hj).
by exists (n', d').
Qed.

Lemma reduction_of tol (G : tf R) : wfT G -> tgain G = false ->
  (forall i j, (i < tp G)%N -> (j < tm G)%N -> tidy (ent (tn G) i j)) ->
  (forall i j, (i < tp G)%N -> (j < tm G)%N -> size (ent (tn G) i j) != 1%N ->
     rts_ok rts (ent (tn G) i j) /\ rts_ok rts (ent (td G) i j) /\ sep rts sq tol (ent (tn G) i j) (ent (td G) i j)) ->
  tSISO G \/ lcm_okf lcmf ->
  exists2 K, minimal_transfer rts sq lcmf eps tol G = Ok K & reduction G K.
Proof.
move=> w hg ht hr hl; have [V [EV rV HV]] := entries w ht hr.
case: (wfTP w) => -[hp hm rN rD] hd hc _ hdt.
rewrite /minimal_transfer hg EV [bind _ _]/=; set N := grid _ _ _; set D := grid _ _ _.
have eN i j : (i < tp G)%N -> (j < tm G)%N -> ent N i j = (gnt ([::], [::]) V i j).1.
  by move=> hi hj; rewrite ent_grid.
have eD i j : (i < tp G)%N -> (j < tm G)%N -> ent D i j = (gnt ([::], [::]) V i j).2.
  by move=> hi hj; rewrite ent_grid.
have red i j : (i < tp G)%N -> (j < tm G)%N -> reduced (ent (tn G) i j) (ent (td G) i j) (ent N i j) (ent D i j) /\ tidy (ent N i j).
  by move=> hi hj; rewrite eN // eD //; exact: HV.
have hD i j : (i < tp G)%N -> (j < tm G)%N -> head 0 (ent D i j) != 0.
  by move=> hi hj; have [[_ _ -> _ _] _] := red i j hi hj; rewrite oner_eq0.
have hs i j : (i < tp G)%N -> (j < tm G)%N -> (size (ent N i j) <= size (ent D i j))%N.
  move=> hi hj; have [[_ _ _ e _] _] := red i j hi hj.
  have : (size (ent (tn G) i j) <= size (ent (td G) i j))%N.
    have := hc i j hi hj; have d0 := hd i j hi hj; case/orP: (ht i j hi hj) => [/eqP ->|n0].
      by case: (ent (td G) i j) d0 => //=; rewrite eqxx.
    by rewrite size_polyhi_trim //; case: (ent (tn G) i j) n0 => //=; rewrite eqxx.
  by move: e; clear; lia.
have fin K : wfT K -> tshape K = (tp G, tm G) -> tn K = N -> td K = D -> tdt K = tdt G -> reduction G K.
  move=> w1 w2 w3 w4 w5; split=> //.
  - by move=> i j hi hj; rewrite w3 w4; have [] := red i j hi hj.
  move=> L f s i j hi hj h0; rewrite /dfT /evT w3 w4; have [h _] := red i j hi hj.
  exact: (reduced_value h h0).
have rN1 : rect (tp G) (tm G) N by exact: rect_grid.
have rD1 : rect (tp G) (tm G) D by exact: rect_grid.
case: hl => [hS|hl]; last first.
  have [|K [EK w1 w2 w3 [w4 w5]]] := @accept_ok _ lcmf eps (tp G) (tm G) N D (tdt G) hl hp hm rN1 rD1 hdt.
    move=> i j hi hj; split; [exact: hD | by have [] := red i j hi hj |].
    exact: leq_trans (size_polyhi_le _) (hs i j hi hj).
  exists K; last exact: fin.
  by rewrite (wfT_siso w); move: EK; rewrite xpair_eqE.
rewrite hS /pm_arg.
have [e1 e2] := siso_idx w hS.
have hi : (0 < tp G)%N by []. have hj : (0 < tm G)%N by [].
case E: (mk_tf _ _ _ _ _) => [K|e].
  exists K => //.
  have aN : argis (tp G) (tm G) (trow (ent N 0 0)) N by have := argis_pm hp rN1; rewrite e1 e2.
  have aD : argis (tp G) (tm G) (trow (ent D 0 0)) D by have := argis_pm hp rD1; rewrite e1 e2.
  by have [w1 w2 w3 w4 w5] := mk_tf_wf hp hm aN aD hD E; apply: fin.
have : is_ok (mk_tf lcmf eps (trow (ent N 0 0)) (trow (ent D 0 0)) (tdt G)); last by rewrite E.
rewrite mk_trow ?hs // recalc_siso //= /ent /= -!/(ent _ _ _).
have [_ tN] := red 0%N 0%N hi hj; have d0 := hD 0%N 0%N hi hj.
rewrite [size (polyhi (ent D 0 0))]size_polyhi_trim; last by case: (ent D 0 0) d0 => //=; rewrite eqxx.
case: eqP => //= s1; apply/andP; split.
  by case: (ent D 0 0) d0 s1 => [|? []] //=; rewrite eqxx.
case/orP: tN => [/eqP ->//|n0]; rewrite size_polyhi_trim; last by case: (ent N 0 0) n0 => //=; rewrite eqxx.
by case: (ent N 0 0) n0 => [|? []] //=; rewrite ?eqxx.
Qed.
End Reduce.

(* ------------------------------------------------------------------ C63 *)
(* A numerator is listed from its nonzero leading coefficient, or is the single coefficient 0. *)
(* one input and one output: nothing about haroldlcm is needed *)
Theorem C63_siso (R : realFieldType) rts (sq : R -> R) lcmf eps tol (G : tf R) :
  wfT G -> tshape G = (1, 1)%N -> tgain G = false ->
  let num := ent (tn G) 0 0 in let den := ent (td G) 0 0 in
  (num == [:: 0]) || (head 0 num != 0) -> rts_ok rts num -> rts_ok rts den -> sep rts sq tol num den ->
  exists2 K, minimal_transfer rts sq lcmf eps tol G = Ok K & reduction G K.
Proof.
move=> w sh hg num den ht h1 h2 h3; have hS : tSISO G by exact/eqP.
apply: reduction_of => //; last by left.
  by rewrite /tp /tm sh => -[|i] // [|j].
by rewrite /tp /tm sh => -[|i] // [|j].
Qed.
Print Assumptions C63_siso.

(* any shape *)
Theorem C63_entries (R : realFieldType) (sca : arr R -> seq R) svd rts (sq : R -> R) eps tol (G : tf R) :
  (forall a, sca_ok a (sca a)) -> (forall C, wfa C -> svd_ok C (svd C)) ->
  wfT G -> tgain G = false ->
  (forall i j, (i < tp G)%N -> (j < tm G)%N ->
     let num := ent (tn G) i j in let den := ent (td G) i j in
     [/\ (num == [:: 0]) || (head 0 num != 0), rts_ok rts num, rts_ok rts den & sep rts sq tol num den]) ->
  exists2 K, minimal_transfer rts sq (haroldlcm sca svd 0) eps tol G = Ok K & reduction G K.
Proof.
move=> h1 h2 w hg H; apply: reduction_of => //; last by right; exact: haroldlcm_okf.
  by move=> i j hi hj; have [] := H i j hi hj.
by move=> i j hi hj _; have [] := H i j hi hj.
Qed.
Print Assumptions C63_entries.

(* s(s-6)(s^2-6s+25) / s(s-3)(s^2-6s+25): two real and two complex zeros, three of them cancel *)
Definition mn : row Q := [:: 1; -12%:Q; 61%:Q; -150%:Q; 0].
Definition md : row Q := [:: 1; -9%:Q; 43%:Q; -75%:Q; 0].
Definition mG : tf Q := Tf [:: [:: mn]] [:: [:: md]] false (Some 1).
Definition zc : cpl Q := Cpl 3%:Q 4%:Q.
Definition mrts (p : row Q) : seq (cpl Q) :=
  if p == mn then [:: c_of 6%:Q; zc; conj zc; c_of 0] else if p == md then [:: zc; conj zc; c_of 3%:Q; c_of 0] else [::].
(* the square root, on the squares that occur *)
Definition msq (x : Q) : Q := head 0 [seq y <- [seq (i : nat)%:R | i <- iota 0 9] | y ^+ 2 == x].
Lemma rts_by (s : seq (cpl Q)) (rts : row Q -> seq (cpl Q)) (p : row Q) :
  rts p = s -> map (@c_of Q) p == [seq c_of (head 0 p) * x | x <- haroldpoly s] -> rts_ok rts p.
Proof.
move=> e /eqP h; rewrite /rts_ok e -(polyhi_map (c_of_rmorphism Q)) /= h polyhi_scale.
by have [_ ->] := haroldpolyP s.
Qed.
Example C63_ex : [/\ wfT mG, rts_ok mrts mn, rts_ok mrts md, sep mrts msq 10%:Q^-1 mn md &
  (if minimal_transfer mrts msq (fun _ => Err ValueError) 0 10%:Q^-1 mG is Ok K then
    (ent (tn K) 0 0 == [:: 1; -6%:Q]) && (ent (td K) 0 0 == [:: 1; -3%:Q]) && (tdt K == Some 1) else false)].
Proof.
split; last by vm_compute.
- by rewrite wfTE; vm_compute.
- by apply: (@rts_by (mrts mn)) => //; vm_compute.
- by apply: (@rts_by (mrts md)) => //; vm_compute.
have h : all (fun z => all (fun p => (cabs msq (p - z) < 10%:Q^-1 + 10%:Q^-1 * cabs msq z) == (p == z)) (mrts md)) (mrts mn) by vm_compute.
by move=> z p hz hp; move/allP: h => /(_ z hz)/allP/(_ p hp)/eqP.
Qed.

(* ------------------------------------------------------------------ C74 *)
(* static gains of one input and output, or of several of both: the value is kept *)
Theorem C74_gain_partial (R : realFieldType) rts (sq : R -> R) lcmf eps tol (G : tf R) :
  wfT G -> tgain G -> (forall i j, (i < tp G)%N -> (j < tm G)%N -> size (ent (tn G) i j) = 1%N) ->
  (tp G == 1%N) = (tm G == 1%N) ->
  exists K, [/\ minimal_transfer rts sq lcmf eps tol G = Ok K, wfT K && tgain K, tshape K = tshape G &
    forall (L : fieldType) (f : {rmorphism R -> L}) s i j, (i < tp G)%N -> (j < tm G)%N ->
      evT f K s i j = evT f G s i j].
Proof.
move=> w hg h1 e; case: (wfTP w) => -[hp hm rN rD] hd hc hgain hdt.
have hs i j : (i < tp G)%N -> (j < tm G)%N -> size (ent (td G) i j) = 1%N.
  move=> hi hj; move: hgain; rewrite hg => /esym/allP/(_ i); rewrite mem_iota => /(_ hi)/allP/(_ j).
  by rewrite mem_iota => /(_ hj)/eqP.
have [A EA] : exists A, tf_array G = Ok A.
  rewrite /tf_array hg /arrR (gridR_tot (g := fun i j => head 0 (ent (tn G) i j) / head 0 (ent (td G) i j))).
    by eexists.
  by move=> i j hi hj; rewrite /div11 h1 // hs // eqxx /= hd.
have [a1 a2 wA hA] := tf_arrayP w EA.
rewrite /minimal_transfer hg EA [bind _ _]/= mk_arr_ok ?a1 ?a2 //.
have -> : ((tp G == 1%N) && (tm G == 1%N) || (1 < tp G)%N && (1 < tm G)%N).
  by move: hp hm e; case: (tp G) => [|[|p]]; case: (tm G) => [|[|m]].
set K := Tf _ _ _ _; exists K.
have rNK : rect (tp G) (tm G) (tn K) by exact: rect_grid.
have shK : tshape K = (tp G, tm G) by rewrite /tshape /pshape (rect_pshape hp rNK).
split=> //.
- have r1 : rect (tp G) (tm G) (td K) by exact: rect_grid.
  rewrite andbT /wfT /tp /tm shK /= -/(tp G) -/(tm G) hp hm rNK r1 /=.
  rewrite !(rect_flatten [::] _ r1) andbT; apply/and3P; split.
  + by apply/all2P => i j hi hj; rewrite gnt_grid //= oner_eq0.
  + by apply/all2P => i j hi hj; rewrite !ent_grid //= polyhi1 size_polyC; case: eqP.
  by apply/eqP/esym/all2P => i j hi hj; rewrite gnt_grid.
move=> L f s i j hi hj; rewrite (hA L f s i j hi hj) /evT /= !ent_grid // /pev !polyhi1 !map_polyC !hornerC.
by rewrite /= rmorph1 divr1.
Qed.
Print Assumptions C74_gain_partial.
(* 2x2 gain *)
Definition gG : tf Q := Tf [:: [:: [:: 1]; [:: 2%:Q]]; [:: [:: 3%:Q]; [:: 4%:Q]]]
  [:: [:: [:: 1]; [:: 2%:Q]]; [:: [:: 1]; [:: 1]]] true (Some 1).
Example C74_gain_ex : wfT gG && tgain gG && ((tp gG == 1%N) == (tm gG == 1%N)).
Proof. by rewrite wfTE; vm_compute. Qed.

(* but the sampling period is lost, for every such discrete gain *)
Theorem C74_gain_dt_refuted (R : realFieldType) rts (sq : R -> R) lcmf eps tol (G K : tf R) :
  wfT G -> tgain G -> minimal_transfer rts sq lcmf eps tol G = Ok K -> tdt K = None.
Proof.
move=> w hg; rewrite /minimal_transfer hg => E; have [A EA {}E] := bindOk E.
case: (wfTP w) => -[hp hm _ _] _ _ _ _; have [a1 a2 _ _] := tf_arrayP w EA.
by move: E; rewrite mk_arr_ok ?a1 ?a2 //; case: ifP => // _ [<-].
Qed.
Print Assumptions C74_gain_dt_refuted.
Example C74_gain_dt_ex rts sq lcmf : is_ok (minimal_transfer rts sq lcmf 0 1 gG).
Proof. by []. Qed.

(* and static gains with one input and several outputs, or the other way round, are refused *)
Theorem C74_vector_gain_refuted (R : realFieldType) rts (sq : R -> R) lcmf eps tol (G : tf R) :
  wfT G -> tgain G -> (forall i j, (i < tp G)%N -> (j < tm G)%N -> size (ent (tn G) i j) = 1%N) ->
  (tp G == 1%N) != (tm G == 1%N) -> minimal_transfer rts sq lcmf eps tol G = Err ValueError.
Proof.
move=> w hg h1 e; case: (wfTP w) => -[hp hm rN rD] hd hc hgain hdt.
have hs i j : (i < tp G)%N -> (j < tm G)%N -> size (ent (td G) i j) = 1%N.
  move=> hi hj; move: hgain; rewrite hg => /esym/allP/(_ i); rewrite mem_iota => /(_ hi)/allP/(_ j).
  by rewrite mem_iota => /(_ hj)/eqP.
have [A EA] : exists A, tf_array G = Ok A.
  rewrite /tf_array hg /arrR (gridR_tot (g := fun i j => head 0 (ent (tn G) i j) / head 0 (ent (td G) i j))).
    by eexists.
  by move=> i j hi hj; rewrite /div11 h1 // hs // eqxx /= hd.
have [a1 a2 wA hA] := tf_arrayP w EA.
rewrite /minimal_transfer hg EA [bind _ _]/= mk_arr_ok ?a1 ?a2 //.
by move: hp hm e; case: (tp G) => [|[|p]]; case: (tm G) => [|[|m]].
Qed.
Print Assumptions C74_vector_gain_refuted.
Definition gV : tf Q := Tf [:: [:: [:: 1]; [:: 2%:Q]]] [:: [:: [:: 1]; [:: 2%:Q]]] true None.
Example C74_vector_gain_ex : wfT gV && tgain gV && ((tp gV == 1%N) != (tm gV == 1%N)).
Proof. by rewrite wfTE; vm_compute. Qed.

(* a numerator stored with a leading zero, as the constructor keeps it from a 2-D array, is replaced by 0: the gain is
   taken from the leading entry *)
Theorem C74_leading_zero_refuted (R : realFieldType) rts (sq : R -> R) lcmf eps tol (G K : tf R) :
  wfT G -> tshape G = (1, 1)%N -> tgain G = false ->
  head 0 (ent (tn G) 0 0) = 0 -> size (ent (tn G) 0 0) != 1%N ->
  minimal_transfer rts sq lcmf eps tol G = Ok K -> polyhi (ent (tn K) 0 0) = 0.
Proof.
move=> w sh hg h0 s1; rewrite /minimal_transfer hg => E; have [V EV {}E] := bindOk E.
case: (wfTP w) => -[hp hm _ _] _ _ _ _.
have [rV hV] := gridR_ok ([::], [::]) EV; have := hV 0%N 0%N hp hm.
move: E; set N := grid _ _ _; set D := grid _ _ _ => E.
have rN1 : rect (tp G) (tm G) N by exact: rect_grid.
have rD1 : rect (tp G) (tm G) D by exact: rect_grid.
have [EK _ _] := mk_tf_pm hp hm (argis_grid _ w erefl) (argis_grid _ w erefl) E.
have -> : ent (tn K) 0 0 = (gnt ([::], [::]) V 0 0).1 by rewrite EK /= ent_grid.
rewrite /mt_simplify; case: ifP => // _; case: ifP => // _; rewrite (negbTE s1) => F.
have [[plz safe] _ {}F] := bindOk F; have [n _ {}F] := bindOk F; have [d _ {}F] := bindOk F.
by case: F => <-; rewrite /= h0 mul0r polyhi_scale scale0r.
Qed.
Print Assumptions C74_leading_zero_refuted.
(* (s + 1)/(s^2 + 3s + 2) with the numerator [0 1 1] *)
Definition lG : tf Q := Tf [:: [:: [:: 0; 1; 1]]] [:: [:: [:: 1; 3%:Q; 2%:Q]]] false None.
Definition lrts (p : row Q) : seq (cpl Q) :=
  if p == [:: 0; 1; 1] then [:: c_of (- 1)] else if p == [:: 1; 3%:Q; 2%:Q] then [:: c_of (- 1); c_of (- 2%:Q)] else [::].
Example C74_leading_zero_ex : wfT lG /\
  (if minimal_transfer lrts msq (fun _ => Err ValueError) 0 10%:Q^-1 lG is Ok K then
    (tn K == [:: [:: [:: 0]]]) && (td K == [:: [:: [:: 1; 2%:Q]]]) else false).
Proof. by split; [rewrite wfTE; vm_compute | vm_compute]. Qed.

(* the zero numerator is not reduced: 0/den keeps its denominator *)
Theorem C74_zero_refuted (R : realFieldType) rts (sq : R -> R) tol (den : row R) : head 0 den != 0 -> (1 < size den)%N ->
  exists num' den', mt_simplify rts sq tol [:: 0] den = Ok (num', den') /\ ~~ coprimep (polyhi num') (polyhi den').
Proof.
move=> h0 hs; exists [:: 0], [seq x / head 0 den | x <- den]; split.
  by rewrite /mt_simplify; case: (den) h0 hs => [|c d] //= h0 _; rewrite h0 mul0r.
have sc : polyhi [seq x / head 0 den | x <- den] = (head 0 den)^-1 *: polyhi den.
  by rewrite -polyhi_scale; congr polyhi; apply: eq_map => x; rewrite mulrC.
rewrite polyhi1 coprime0p sc -size_poly_eq1 size_scale ?invr_eq0 // size_polyhi_trim.
  by rewrite neq_ltn hs orbT.
by case: (den) h0 => //=; rewrite eqxx.
Qed.
Print Assumptions C74_zero_refuted.
Example C74_zero_ex : let den : row Q := [:: 1; 1; 0] in head 0 den != 0 /\ leq 2 (size den). Proof. by []. Qed.

Lemma pair_id1 (P : comRingType) (x i : P) :
  1 * x ^+ 2 + (2%:R * x + ((1 - i * i) * 1 + 0)) = 1 * ((x - (i - 1)) * ((x - (- i - 1)) * 1)).
Proof. by mc_ring P. Qed.
Lemma pair_id2 (P : comRingType) (x : P) :
  1 * x ^+ 2 + (6%:R * x + (5%:R * 1 + 0)) = 1 * ((x - -1) * ((x - - 5%:R) * 1)).
Proof. by mc_ring P. Qed.

(* a pair of zeros -1 +- e i next to a single pole at -1, e below the tolerance: TypeError *)
Theorem C74_pair_refuted (R : rcfType) rts lcmf (eps tol e : R) :
  0 < e -> e < tol -> tol <= 1 ->
  let num := [:: 1; 2%:R; 1 + e ^+ 2] in let den := [:: 1; 6%:R; 5%:R] in
  rts num = [:: Cpl (- 1) e; Cpl (- 1) (- e)] -> rts den = [:: c_of (- 1); c_of (- 5%:R)] ->
  let G := Tf [:: [:: num]] [:: [:: den]] false None in
  [/\ wfT G, rts_ok rts num, rts_ok rts den &
      minimal_transfer rts Num.sqrt lcmf eps tol G = Err TypeError].
Proof.
move=> e0 et t1 num den en ed G.
set z : cpl R := Cpl (- 1) e.
set t := tol + tol * cabs Num.sqrt z.
have t0 : 0 < tol by exact: lt_trans e0 et.
have A : cabs Num.sqrt (c_of (- 1) - z) = e.
  rewrite /cabs /cnorm2 /= subrr expr0n /= !add0r sqrtr_sqr normrN ger0_norm //; exact: ltW.
have B : 4%:R <= cabs Num.sqrt (c_of (- 5%:R) - z).
  rewrite -[X in X <= _](ger0_norm (ler0n R 4)) -sqrtr_sqr /cabs; apply: ler_wsqrtr.
  rewrite /cnorm2 /= -[X in X <= _]addr0 (_ : - 5%:R - - 1 = - 4%:R) ?sqrrN ?ler_add2l ?sqr_ge0 //.
  by rewrite opprK (_ : 5%:R = 4%:R + 1 :> R) ?opprD ?addrNK // -(natrD _ 4 1).
have C : cabs Num.sqrt z <= 2%:R.
  rewrite -[X in _ <= X](ger0_norm (ler0n R 2)) -sqrtr_sqr /cabs; apply: ler_wsqrtr.
  rewrite /cnorm2 /= sqrrN expr1n (_ : 2%:R ^+ 2 = 1 + 3%:R :> R) ?ler_add2l; last by rewrite -natrX -(natrD _ 1 3).
  apply: (@le_trans _ _ 1); last by rewrite ler1n.
  by rewrite expr_le1 // ?(ltW e0) // (le_trans (ltW et)).
have T1 : e < t.
  by apply: (lt_le_trans et); rewrite /t ler_addl mulr_ge0 ?(ltW t0) // /cabs sqrtr_ge0.
have T2 : t <= 4%:R.
  rewrite (_ : 4%:R = 2%:R + 2%:R :> R); last by rewrite -natrD.
  apply: ler_add; first by apply: (le_trans t1); rewrite ler1n.
  by rewrite -[X in _ <= X]mul1r ler_pmul // ?(ltW t0) // /cabs sqrtr_ge0.
pose im : cpl R := Cpl 0 e.
have cn k : c_of k%:R = k%:R :> cpl R by exact: (rmorph_nat (c_of_rmorphism R)).
have r1 : rts_ok rts num.
  rewrite /rts_ok -(polyhi_map (c_of_rmorphism R)) en !big_cons big_nil /= !polyhi_cons polyhi_nil /=.
  have -> : Cpl (-1) e = im - 1 by congr Cpl; rewrite /= ?add0r ?oppr0 ?addr0.
  have -> : Cpl (-1) (- e) = - im - 1 by congr Cpl; rewrite /= ?oppr0 ?add0r ?addr0.
  have -> : c_of (1 + e ^+ 2) = 1 - im * im.
    by congr Cpl; rewrite /= ?mul0r ?mulr0 ?sub0r ?addr0 ?oppr0 ?opprK ?expr2.
  rewrite cn (cn 1%N) -!mul_polyC !(polyCB, polyCN, polyCM, polyCMn, polyC1) expr0 expr1.
  exact: pair_id1.
have r2 : rts_ok rts den.
  rewrite /rts_ok -(polyhi_map (c_of_rmorphism R)) ed !big_cons big_nil /= !polyhi_cons polyhi_nil /=.
  rewrite !cn (cn 1%N) !(rmorphN (c_of_rmorphism R)) /= !cn (cn 1%N) -!mul_polyC !(polyCB, polyCN, polyCM, polyCMn, polyC1) expr0 expr1.
  exact: pair_id2.
have Es : mt_simplify rts Num.sqrt tol num den = Err TypeError.
  rewrite /mt_simplify /= oner_eq0 /= en ed /= (gt_eqF e0) oppr_eq0 (gt_eqF e0) e0 oppr_gt0 (lt_gtF e0) /= -/z -/t.
  rewrite A (_ : Num.min e _ = e); last by apply/min_idPl; apply: (le_trans (ltW T1)); exact: le_trans T2 B.
  rewrite T1 /argmin /= (_ : Num.min e _ = e); last by apply/min_idPl; apply: (le_trans (ltW T1)); exact: le_trans T2 B.
  by rewrite eqxx /= ltxx e0 /= ltNge (le_trans T2 B).
split=> //.
  by rewrite wfTE /wfTc /tp /tm /= ?eqxx /= oner_eq0 /=.
by rewrite /minimal_transfer /= /gridR /= /ent /= Es.
Qed.
Print Assumptions C74_pair_refuted.
