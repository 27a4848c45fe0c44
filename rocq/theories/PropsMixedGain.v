(* C87, continued: sums and products of a State and a Transfer when one of them, or both, is a static gain. *)
From mathcomp Require Import all_ssreflect all_algebra.
From Verif Require Import Base BaseTheory Spec ModelPoly PolyTheory PolyOps LcmTheory ModelState Denote StateTheory StateMul StateOps StateProps PropsState
  ModelTransfer DenoteT TransferTheory TransferOps TransferProps PropsTransfer ConvertOps ConvertMimo ConvertState SpecConvert PropsConvert
  ModelFeedbackT SpecFeedbackT FeedbackTheory FeedbackTTheory ModelMixed SpecDiscT DiscTTheory PropsMixed.

Set Implicit Arguments.
Unset Strict Implicit.
Unset Printing Implicit Defensive.

Import Order.TTheory GRing.Theory Num.Theory.
Local Open Scope ring_scope.

Section C87g.
Variable R : realFieldType.
Variables (sca : arr R -> seq R) (svd : arr R -> arr R * arr R * arr R) (eps : R).
Hypotheses (hsca : forall a, sca_ok a (sca a)) (hsvd : forall C, wfa C -> svd_ok C (svd C)).
Variable lim : nat.
Local Notation lcmf := (haroldlcm sca svd 0).
Local Notation hl := (haroldlcm_okf hsca hsvd).
Implicit Types (G : state R) (H : tf R).

Lemma gain_state (d : arr R) dt K : wfa d -> mkGain d dt = Ok K -> [/\ wfS K, sgain K, sshape K = shp d, sd K = d & sdt K = dt].
Proof.
move=> wd /mkGain_inv[-> hd]; split=> //; rewrite /wfS /= wd.
by move: hd; rewrite /dt_ok; case: dt => //= v ->.
Qed.

(* two static gains of the same shape: a static gain State, the sum of the matrices, with the sampling period *)
Theorem C87_add_gains G H X : wfS G -> wfT H -> sgain G -> tgain H -> sshape G = tshape H ->
  add_st lcmf eps lim G H = Ok X \/ add_ts lcmf eps lim H G = Ok X ->
  exists K, [/\ X = XS K, wfS K, sgain K, sshape K = sshape G & sdt K = sdt G] /\
  forall (L : fieldType) (f : {rmorphism R -> L}) (s : L) i j, (i < spn G)%N -> (j < smn G)%N ->
    ev f K s i j = ev f G s i j + evT f H s i j.
Proof.
move=> wG wH gG gH sh; have [e1 e2] : spn G = tp H /\ smn G = tm H by rewrite /tp /tm -sh.
rewrite /add_st /add_ts gG gH /= /to_array gG /=.
case EA: (tf_array H) => [A|] /=; last by case; case: ifP.
have [r c wA hA] := tf_arrayP wH EA.
rewrite !np_add_same /= ?r ?c //.
case; case: ifP => // /eqP ed.
  case EK: (mkGain _ _) => [K|] //= [<-]; have [wK gK sK dK tK] := gain_state (wfa_add _ _) EK.
  exists K; split; first by [].
  by move=> L f s i j hi hj; rewrite !ev_gain // dK get_mk // rmorphD hA -?e1 -?e2.
case EK: (mkGain _ _) => [K|] //= [<-]; have [wK gK sK dK tK] := gain_state (wfa_add _ _) EK.
exists K; split; first by split=> //; rewrite ?sK ?tK // /shp /= r c sh /tp /tm; case: (tshape H).
by move=> L f s i j hi hj; rewrite !ev_gain // dK get_mk ?r ?c -?e1 -?e2 // rmorphD addrC hA -?e1 -?e2.
Qed.

(* a static gain Transfer and a dynamic State, in both orders *)
Theorem C87_add_gainT G H X : wfS G -> wfT H -> sgain G = false -> tgain H -> sshape G = tshape H ->
  add_st lcmf eps lim G H = Ok X \/ add_ts lcmf eps lim H G = Ok X ->
  exists K, [/\ X = XS K, wfS K, sshape K = sshape G & sdt K = sdt G] /\
  forall (L : fieldType) (f : {rmorphism R -> L}) (s : L), regS f K s = regS f G s /\
    forall i j, (i < spn G)%N -> (j < smn G)%N -> ev f K s i j = ev f G s i j + evT f H s i j.
Proof.
move=> wG wH gG gH sh hX; have [e1 e2] : spn G = tp H /\ smn G = tm H by rewrite /tp /tm -sh.
have [A [K [EA E ->]]] : exists A K, [/\ tf_array H = Ok A, st_add lim G (OArr2 A) = Ok K & X = XS K].
  case: hX; rewrite /add_st /add_ts gG gH /=; case: ifP => // _; case EA: (tf_array H) => [A|] //=;
  by case E: (st_add _ _ _) => [K|] //= [<-]; exists A, K.
have [r c wA hA] := tf_arrayP wH EA.
have sA : shp A = sshape G by rewrite /shp r c -e1 -e2.
have [[wK sK dK] h] := C14_add_array wG wA sA E; exists K; split=> // L f s.
by have [-> v] := h _ f s; split=> // i j hi hj; rewrite v // hA -?e1 -?e2.
Qed.

(* a static gain State plus a dynamic Transfer is a Transfer *)
Theorem C87_add_gainS G H X : wfS G -> wfT H -> sgain G -> tgain H = false -> sshape G = tshape H ->
  add_st lcmf eps lim G H = Ok X ->
  exists K, [/\ X = XT K, wfT K, tshape K = tshape H & tdt K = tdt H] /\
  forall (L : fieldType) (f : {rmorphism R -> L}) (s : L), all_def f H s -> all_def f K s /\
    forall i j, (i < spn G)%N -> (j < smn G)%N -> evT f K s i j = ev f G s i j + evT f H s i j.
Proof.
move=> wG wH gG gH sh; have [e1 e2] : spn G = tp H /\ smn G = tm H by rewrite /tp /tm -sh.
have [[hp hm _ _] _ _ _ _] := wfTP wH.
rewrite /add_st gG gH /= /to_array gG /=; case: ifP => // _.
case E: (tf_add_num _ _ _ _ _) => [K|] //= [<-]; exists K.
have h0 : (0 < nr (sd G))%N by rewrite -/(spn G) e1.
have h1 : (0 < nc (sd G))%N by rewrite -/(smn G) e2.
have [[wK sK dK] h] := C26_add_array_partial hsca hsvd wH h0 h1 (or_intror (esym sh)) E.
split; first by split=> //; rewrite sK.
have hh (L : fieldType) (f : {rmorphism R -> L}) s i j : (i < spn G)%N -> (j < smn G)%N -> all_def f H s ->
  dfT f K s i j /\ evT f K s i j = evT f H s i j + f (get (sd G) i j).
  move=> hi hj ad; have := h L f s i j hi hj.
  case: ifP => [/eqP e11|_] /=; last by apply; apply: ad; rewrite -?e1 -?e2.
  have [i0 j0] : i = 0%N /\ j = 0%N.
    by move: hi hj; rewrite e1 e2 /tp /tm e11 !ltnS !leqn0 => /eqP -> /eqP ->.
  by rewrite i0 j0; apply; exact: ad.
move=> L f s ad; split=> i j.
  rewrite /tp /tm sK => hi hj; exact: (hh _ _ _ _ _ hi hj ad).1.
by move=> hi hj; rewrite (hh _ _ _ _ _ hi hj ad).2 ev_gain // addrC.
Qed.

(* a dynamic Transfer plus a static gain State is a State *)
Theorem C87_add_ts_gainS G H X : wfS G -> convertible eps H -> sgain G -> tgain H = false -> sshape G = tshape H ->
  add_ts lcmf eps lim H G = Ok X ->
  exists K, [/\ X = XS K, wfS K, sshape K = tshape H & sdt K = tdt H] /\
  forall (L : fieldType) (f : {rmorphism R -> L}) (s : L), all_def f H s -> regS f K s /\
    forall i j, (i < tp H)%N -> (j < tm H)%N -> ev f K s i j = evT f H s i j + ev f G s i j.
Proof.
move=> wG hc gG gH sh; have [K0 eK gc] := tts_anyP hl hc; have [wK ep em ed] := shapeE gc.
rewrite /add_ts gG gH /= eK /= /to_array gG /=; case: ifP => // _.
case E: (st_add _ _ _) => [K|] //= [<-]; exists K.
have eS : sshape K0 = tshape H by case: gc.
have sA : shp (sd G) = sshape K0 by rewrite eS -sh.
have [[w s d] h] := C14_add_array wK (wfS_d wG) sA E; split; first by rewrite -eS -ed.
move=> L f s0 ad; case: gc => _ _ _ _ /(_ L f s0 ad) [rK e].
have [rE v] := h _ f s0; split; first by rewrite rE.
by move=> i j hi hj; rewrite v ?ep ?em // e // ev_gain.
Qed.

(* two conforming static gains: the product in the order written *)
Theorem C87_matmul_gains G H X : wfS G -> wfT H -> sgain G -> tgain H -> smn G = tp H ->
  matmul_st lcmf eps lim G H = Ok X ->
  exists K, [/\ X = XS K, wfS K && sgain K, spn K = spn G, smn K = tm H & sdt K = sdt G] /\
  forall (L : fieldType) (f : {rmorphism R -> L}) (s : L) i j, (i < spn G)%N -> (j < tm H)%N ->
    ev f K s i j = \sum_(l < smn G) ev f G s i l * evT f H s l j.
Proof.
move=> wG wH gG gH sh; rewrite /matmul_st gG gH /= /to_array gG /=; case: ifP => // _.
case EA: (tf_array H) => [A|] //=; have [r c wA hA] := tf_arrayP wH EA.
rewrite np_matmul_same /= ?r //; case EK: (mkGain _ _) => [K|] //= [<-].
have [wK gK sK dK tK] := gain_state (wfa_mul _ _) EK; exists K; split.
  by split=> //; [rewrite wK | rewrite /spn dK | rewrite /smn dK /= c].
move=> L f s i j hi hj; rewrite ev_gain // dK get_mulE ?c //; apply: eq_bigr => l _.
by rewrite ev_gain // hA // -sh.
Qed.

(* a dynamic State times a static gain Transfer *)
Theorem C87_matmul_gainT G H X : wfS G -> wfT H -> sgain G = false -> tgain H -> smn G = tp H ->
  matmul_st lcmf eps lim.+1 G H = Ok X ->
  exists K, [/\ X = XS K, wfS K, spn K = spn G, smn K = tm H & sdt K = sdt G] /\
  forall (L : fieldType) (f : {rmorphism R -> L}) (s : L), regS f G s -> regS f K s /\
    forall i j, (i < spn G)%N -> (j < tm H)%N -> ev f K s i j = \sum_(l < smn G) ev f G s i l * evT f H s l j.
Proof.
move=> wG wH gG gH sh; have [n nE] : exists n, n = lim.+1 by eexists.
rewrite -nE /matmul_st gG gH /=; case: ifP => // _.
case EA: (tf_array H) => [A|] //=; have [r c wA hA] := tf_arrayP wH EA.
have [K [[E wK dK pK mK] h]] := C14_matrix_right lim wG wA (etrans sh (esym r)).
rewrite nE E => -[<-]; exists K; split; first by rewrite -c.
move=> L f s rG; have [rK v] := h _ f s rG; split=> // i j hi hj.
by rewrite v ?c //; apply: eq_bigr => l _; rewrite hA // -sh.
Qed.

(* a static gain State times a dynamic Transfer is a Transfer; continuous time only *)
Theorem C87_matmul_gainS_partial G H X : wfS G -> wfT H -> sgain G -> tgain H = false -> smn G = tp H -> (0 < spn G)%N ->
  sdt G = None -> matmul_st lcmf eps lim G H = Ok X ->
  exists K, [/\ X = XT K, wfT K, tshape K = (spn G, tm H) & tdt K = None] /\
  forall (L : fieldType) (f : {rmorphism R -> L}) (s : L), all_def f H s ->
    forall i j, (i < spn G)%N -> (j < tm H)%N ->
      dfT f K s i j /\ evT f K s i j = \sum_(l < smn G) ev f G s i l * evT f H s l j.
Proof.
move=> wG wH gG gH sh p0 dG; rewrite /matmul_st gG gH /= /to_array gG /=; case: ifP => // /eqP ed.
rewrite -[X in as_transfer X]/(tf_rmatmul lcmf eps H (PArr2 (sd G))).
case E: (tf_rmatmul lcmf eps H (PArr2 (sd G))) => [K|] //= [<-]; exists K.
have dH : tdt H = None by rewrite -ed.
have [hK h] := C28_array_matmul_partial hsca hsvd wH dH sh p0 E; split; first by case: hK.
move=> L f s ad i j hi hj; have [|d v] := h L f s i j hi hj; first by move=> k hk; exact: ad.
by split=> //; rewrite v -sh; apply: eq_bigr => l _; rewrite ev_gain.
Qed.

(* False of the code: in discrete time it raises, unless the gain is 1-by-1 *)
Theorem C87_matmul_gainS_refuted G H h : sgain G -> tgain H = false -> sSISO G = false -> (0 < spn G)%N -> sdt G = Some h ->
  matmul_st lcmf eps lim G H = Err ValueError.
Proof.
move=> gG gH sG p0 dG; rewrite /matmul_st gG gH /= /to_array gG /=; case: ifP => // /eqP ed.
rewrite -[X in as_transfer X]/(tf_rmatmul lcmf eps H (PArr2 (sd G))).
rewrite (@C28_array_matmul_discrete_refuted _ _ _ _ _ h) //; first by rewrite -ed.
by rewrite /asize muln_eq1; move: sG; rewrite /sSISO /spn /smn => ->.
Qed.

(* a SISO dynamic Transfer is added to every entry of a dynamic State *)
Theorem C87_add_sisoT G H X : wfS G -> convertible eps H -> sgain G = false -> tgain H = false -> tSISO H ->
  add_st lcmf eps lim G H = Ok X \/ add_ts lcmf eps lim H G = Ok X ->
  exists K, [/\ X = XS K, wfS K & sshape K = sshape G] /\
  forall (L : fieldType) (f : {rmorphism R -> L}) (s : L), regS f G s -> all_def f H s ->
    regS f K s /\ forall i j, (i < spn G)%N -> (j < smn G)%N -> ev f K s i j = ev f G s i j + evT f H s 0%N 0%N.
Proof.
move=> wG hc gG gH sH hX; have [K0 eK gc] := tts_anyP hl hc; have [wK ep em ed] := shapeE gc.
have {hX} [K [-> eA]] : exists K, X = XS K /\ st_add lim G (OState K0) = Ok K.
  case: hX; rewrite /add_st /add_ts gG gH sH ?andbF eK /=; case: ifP => // _.
    by case E: (st_add _ _ _) => [K|] //= [<-]; exists K.
  by case E: (st_add _ _ _) => [K|] //= [<-]; exists K.
have [wH _ _ _] := hc; move: sH; rewrite wfT_siso // => /andP[/eqP p1 /eqP m1].
have [[dtE w bp bm] [rK vK]] := st_add_state wG wK eA.
rewrite ep p1 bdim1 in bp; rewrite em m1 bdim1 in bm; case: bp bm => bp [bm].
exists K; split; first by split=> //; rewrite /sshape -/(spn K) -/(smn K) -bp -bm.
move=> L f s rG ad; case: gc => _ _ _ _ /(_ L f s ad) [rK0 e].
split; first by rewrite rK rG.
by move=> i j hi hj; rewrite vK -?bp -?bm // ep em p1 m1 !bidx1E !bidx_small // e ?p1 ?m1.
Qed.
End C87g.
Print Assumptions C87_add_sisoT.
Print Assumptions C87_add_gains.
Print Assumptions C87_add_gainT.
Print Assumptions C87_add_gainS.
Print Assumptions C87_add_ts_gainS.
Print Assumptions C87_matmul_gains.
Print Assumptions C87_matmul_gainT.
Print Assumptions C87_matmul_gainS_partial.
Print Assumptions C87_matmul_gainS_refuted.

(* the hypotheses met: the gains of C87_mul_refuted, exK = 7 and exG = 1/(s+1) as States, 5 and 1/(s+2) as Transfers *)
Definition mx5 : tf Q := Tf [:: [:: [:: 5%:Q]]] [:: [:: [:: 1]]] true None.
Example C87_ex_gains : wfS mxG && sgain mxG && wfT mxH && tgain mxH && (sshape mxG == tshape mxH) &&
  (wfS exK && sgain exK && wfT mx5 && tgain mx5 && wfT mxT && ~~ tgain mxT) && (sshape exK == tshape mxT).
Proof. by rewrite !wfTE; vm_compute. Qed.
(* the State gain mxG with sampling period 1 against a dynamic discrete Transfer is refused by @ *)
Definition mxGd : state Q := St (e00 Q) (e00 Q) (e00 Q) (qa [:: [:: 0; 0]; [:: 1; 0]]) true (Some 1).
Example C87_ex_gain_discrete : wfS mxGd && sgain mxGd && ~~ sSISO mxGd && (0 < spn mxGd)%N.
Proof. by vm_compute. Qed.
