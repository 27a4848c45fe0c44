(* C87: sums and products of a State and a Transfer. *)
From mathcomp Require Import all_ssreflect all_algebra zify.
From Verif Require Import Base BaseTheory Spec ModelPoly PolyTheory PolyOps LcmTheory ModelState Denote StateTheory StateProps PropsState
  ModelTransfer DenoteT TransferTheory TransferOps TransferProps ConvertOps ConvertMimo ConvertState SpecConvert PropsConvert
  ModelFeedbackT SpecFeedbackT FeedbackTTheory ModelMixed SpecDiscT DiscTTheory PropsDiscT.

Set Implicit Arguments.
Unset Strict Implicit.
Unset Printing Implicit Defensive.

Import Order.TTheory GRing.Theory Num.Theory.
Local Open Scope ring_scope.

Section C87.
Variable R : realFieldType.
Variables (sca : arr R -> seq R) (svd : arr R -> arr R * arr R * arr R) (eps : R).
Hypotheses (hsca : forall a, sca_ok a (sca a)) (hsvd : forall C, wfa C -> svd_ok C (svd C)).
Variable lim : nat.
Local Notation lcmf := (haroldlcm sca svd 0).
Local Notation hl := (haroldlcm_okf hsca hsvd).
Implicit Types (G : state R) (H : tf R).

Lemma shapeE H K : good_conv H K -> [/\ wfS K, spn K = tp H, smn K = tm H & sdt K = tdt H].
Proof. by case=> w e d _ _; split=> //; rewrite /tp /tm -e. Qed.

(* State + Transfer and Transfer + State of the same shape, neither a static gain: the result is a State model and its
   transfer matrix is the sum *)
Theorem C87_add G H X : wfS G -> convertible eps H -> sgain G = false -> tgain H = false -> sshape G = tshape H ->
  add_st lcmf eps lim G H = Ok X \/ add_ts lcmf eps lim H G = Ok X ->
  exists K, [/\ X = XS K, wfS K & sshape K = sshape G] /\
  forall (L : fieldType) (f : {rmorphism R -> L}) (s : L), regS f G s -> all_def f H s ->
    regS f K s /\ forall i j, (i < spn G)%N -> (j < smn G)%N -> ev f K s i j = ev f G s i j + evT f H s i j.
Proof.
move=> wG hc gG gH sh hX; have [K0 eK gc] := tts_anyP hl hc; have [wK ep em ed] := shapeE gc.
have {hX} [K [-> eA]] : exists K, X = XS K /\ st_add lim G (OState K0) = Ok K.
  case: hX; rewrite /add_st /add_ts gG gH sh eqxx !andbF eK /=; case: ifP => // _; rewrite ?eqxx ?andbF /=.
    by case E: (st_add _ _ _) => [K|] //= [<-]; exists K.
  by case E: (st_add _ _ _) => [K|] //= [<-]; exists K.
have sK : sshape G = sshape K0 by case: gc => _ e _ _ _; rewrite sh e.
have [[w s _] h] := C09_state_add wG wK sK eA.
exists K; split=> // L f s0 rG ad; case: gc => _ _ _ _ /(_ L f s0 ad) [rK e].
have [r v] := h _ _ _ rG rK; split=> // i j hi hj; rewrite v // e // /tp /tm -?sh //.
Qed.

Lemma sisoS G : sSISO G = (spn G == 1%N) && (smn G == 1%N).
Proof. by []. Qed.

(* one operand SISO: it is added to every entry of the other *)
Theorem C87_add_siso G H X : wfS G -> convertible eps H -> sgain G = false -> tgain H = false -> sSISO G ->
  add_st lcmf eps lim G H = Ok X \/ add_ts lcmf eps lim H G = Ok X ->
  exists K, [/\ X = XS K, wfS K & sshape K = tshape H] /\
  forall (L : fieldType) (f : {rmorphism R -> L}) (s : L), regS f G s -> all_def f H s ->
    regS f K s /\ forall i j, (i < tp H)%N -> (j < tm H)%N -> ev f K s i j = ev f G s 0%N 0%N + evT f H s i j.
Proof.
move=> wG hc gG gH sG hX; have [K0 eK gc] := tts_anyP hl hc; have [wK ep em ed] := shapeE gc.
have {hX} [K [-> eA]] : exists K, X = XS K /\ st_add lim G (OState K0) = Ok K.
  case: hX; rewrite /add_st /add_ts gG gH sG ?andbF eK /=; case: ifP => // _.
    by case E: (st_add _ _ _) => [K|] //= [<-]; exists K.
  by case E: (st_add _ _ _) => [K|] //= [<-]; exists K.
have /andP[/eqP p1 /eqP m1] : (spn G == 1%N) && (smn G == 1%N) by rewrite -sisoS.
have [w [s h]] := C09_state_add_siso wG wK p1 m1 eA.
exists K; split; first by split=> //; rewrite s; case: gc.
move=> L f s0 rG ad; case: gc => _ _ _ _ /(_ L f s0 ad) [rK e].
have [r v] := h _ _ _ rG rK; split=> // i j hi hj; rewrite v ?ep ?em // e //.
Qed.

(* the sum exists whenever the sampling periods and the shapes agree or one operand is SISO *)
Theorem C87_add_ok G H : wfS G -> convertible eps H -> sgain G = false -> dynamic (XT H) -> sdt G = tdt H ->
  [\/ sshape G = tshape H, sSISO G | tSISO H] ->
  exists K, add_st lcmf eps lim.+3 G H = Ok (XS K) /\ add_ts lcmf eps lim.+3 H G = Ok (XS K).
Proof.
move=> wG hc gG hd ed hs; have [K0 [eK gc n0 gK gH]] := tts_dyn hsca hsvd hc hd.
have [wK ep em edK] := shapeE gc; have eS : sshape K0 = tshape H by case: gc.
have sK : sSISO K0 = tSISO H by have [w _ _ _] := hc; rewrite sisoS ep em wfT_siso.
have [K eA] : exists K, st_add lim.+3 G (OState K0) = Ok K.
  by apply: C11_add_terminates_partial; rewrite ?eS ?sK ?edK ?gG ?gK ?andbF.
have c1 : ~~ [&& ~~ sSISO G, ~~ tSISO H & sshape G != tshape H].
  by case: hs => [->|->|->]; rewrite ?eqxx ?andbF.
have c2 : ~~ [&& ~~ tSISO H, ~~ sSISO G & tshape H != sshape G].
  by case: hs => [->|->|->]; rewrite ?eqxx ?andbF.
move: eA; move: lim.+3 => n eA.
by exists K; rewrite /add_st /add_ts gG gH ed eqxx /= c1 c2 /= eK /= eA.
Qed.

(* False of the code: a sum of dynamic models has no sampling period, whatever that of its terms *)
Theorem C87_add_dt_refuted G H X : wfS G -> convertible eps H -> sgain G = false -> dynamic (XT H) ->
  add_st lcmf eps lim G H = Ok X \/ add_ts lcmf eps lim H G = Ok X -> xdt X = Some None.
Proof.
move=> wG hc gG hd; have [K0 [eK gc n0 gK gH]] := tts_dyn hsca hsvd hc hd; have [wK _ _ _] := shapeE gc.
have aux : (do K <- transfer_to_state lcmf eps H; as_state (st_add lim G (OState K))) = Ok X -> xdt X = Some None.
  rewrite eK /=; case E: (st_add _ _ _) => [K|] //= [<-] /=.
  by rewrite (C10_add_drops_dt_dynamic wG wK gG gK E).
by rewrite /add_st /add_ts gG gH /=; case; case: ifP => // _; case: ifP.
Qed.

(* State @ Transfer and State * Transfer of conforming models: the product in the order written, with the sampling period *)
Theorem C87_matmul_st G H X : wfS G -> convertible eps H -> sgain G = false -> tgain H = false -> smn G = tp H ->
  sSISO G = tSISO H -> matmul_st lcmf eps lim G H = Ok X ->
  exists K, [/\ X = XS K, wfS K, spn K = spn G, smn K = tm H & sdt K = sdt G] /\
  forall (L : fieldType) (f : {rmorphism R -> L}) (s : L), regS f G s -> all_def f H s ->
    regS f K s /\ forall i j, (i < spn G)%N -> (j < tm H)%N ->
      ev f K s i j = \sum_(l < smn G) ev f G s i l * evT f H s l j.
Proof.
move=> wG hc gG gH sh sS; have [K0 eK gc] := tts_anyP hl hc; have [wK ep em ed] := shapeE gc.
have c : (smn G != tp H) = false by rewrite sh eqxx.
rewrite /matmul_st gG gH /= sS eqxx eK /= c andbF /=; case: ifP => // _.
case E: (st_matmul _ _ _) => [K|] //= [<-]; exists K.
have [[w d p m] h] := C12_state_matmul wG wK (etrans sh (esym ep)) E.
split; first by rewrite -em.
move=> L f s rG ad; case: gc => _ _ _ _ /(_ L f s ad) [rK e].
have [r v] := h _ _ _ rG rK; split=> // i j hi hj; rewrite v ?em //; apply: eq_bigr => l _.
by rewrite e // -sh.
Qed.

Theorem C87_matmul_st_ok G H : wfS G -> convertible eps H -> sgain G = false -> tgain H = false -> smn G = tp H ->
  sSISO G = tSISO H -> sdt G = tdt H -> exists K, matmul_st lcmf eps lim.+2 G H = Ok (XS K).
Proof.
move=> wG hc gG gH sh sS edt; have [K0 eK gc] := tts_anyP hl hc; have [wK ep em ed] := shapeE gc.
have [K E] := C12_state_matmul_ok lim wG wK (etrans edt (esym ed)) (etrans sh (esym ep)).
move: E; move: lim.+2 => n E.
by exists K; rewrite /matmul_st gG gH /= sS eqxx eK /= sh eqxx andbF edt eqxx /= E.
Qed.

(* a SISO State times a Transfer matrix: every entry is multiplied *)
Theorem C87_matmul_st_siso G H : wfS G -> convertible eps H -> sgain G = false -> tgain H = false -> sSISO G ->
  tSISO H = false -> sdt G = tdt H ->
  exists K, [/\ matmul_st lcmf eps lim.+2 G H = Ok (XS K), wfS K, spn K = tp H, smn K = tm H & sdt K = sdt G] /\
  forall (L : fieldType) (f : {rmorphism R -> L}) (s : L), regS f G s -> all_def f H s ->
    regS f K s /\ forall i j, (i < tp H)%N -> (j < tm H)%N -> ev f K s i j = ev f G s 0%N 0%N * evT f H s i j.
Proof.
move=> wG hc gG gH sG sH edt; have [K0 eK gc] := tts_anyP hl hc; have [wK ep em ed] := shapeE gc.
have /andP[/eqP p1 /eqP m1] : (spn G == 1%N) && (smn G == 1%N) by rewrite -sisoS.
have [n nE] : exists n, n = lim.+2 by eexists.
rewrite -nE /matmul_st edt eqxx gG gH /= sG sH eK /=.
have [k kE] : exists k, k = minn (tp H) (tm H) by eexists.
have wE : wfa (@aeye R k) by exact: wfa_mk.
rewrite -kE; have [G' [[eG _ wG' sG' dG'] hG']] := C13_siso_times_matrix lim.+1 wG gG p1 m1 wE.
rewrite -nE in eG; rewrite eG /=; have [pk mk] : spn G' = k /\ smn G' = k by case: sG'.
case: ifP => hm.
  have kk : k = tm H by rewrite kE; apply/minn_idPr.
  have [K E] := @C12_state_matmul_ok R lim K0 G' wK wG' (etrans ed (etrans (esym edt) (esym dG'))) (etrans em (etrans (esym kk) (esym pk))).
  have [[w d p m] h] := C12_state_matmul wK wG' (etrans em (etrans (esym kk) (esym pk))) E.
  exists K; rewrite nE E; split; first by split=> //; rewrite ?p ?m ?mk ?d ?ed ?kk.
  move=> L f s rG ad; case: gc => _ _ _ _ /(_ L f s ad) [rK e].
  have [rG' eG'] := hG' _ f s rG; have [r v] := h _ _ _ rK rG'; split=> // i j hi hj.
  rewrite v ?ep ?mk ?kk // em (bigD1 (Ordinal hj)) //= big1 ?addr0 => [|l nl].
    by rewrite e // eG' /= ?kk // get_mk ?kk // eqxx rmorph1 mul1r mulrC.
  rewrite eG' /= ?kk // get_mk ?kk // (negbTE (nl : (l : nat) != j)) rmorph0 mul0r mulr0 //.
have kk : k = tp H by rewrite kE; apply/minn_idPl; rewrite ltnW // ltnNge hm.
have [K E] := @C12_state_matmul_ok R lim G' K0 wG' wK (etrans dG' (etrans edt (esym ed))) (etrans mk (etrans kk (esym ep))).
have [[w d p m] h] := C12_state_matmul wG' wK (etrans mk (etrans kk (esym ep))) E.
exists K; rewrite nE E; split; first by split=> //; rewrite ?p ?m ?pk ?d ?dG' ?kk.
move=> L f s rG ad; case: gc => _ _ _ _ /(_ L f s ad) [rK e].
have [rG' eG'] := hG' _ f s rG; have [r v] := h _ _ _ rG' rK; split=> // i j hi hj.
rewrite v ?pk ?em ?kk // mk kk (bigD1 (Ordinal hi)) //= big1 ?addr0 => [|l nl].
  by rewrite e // eG' /= ?kk // get_mk ?kk // eqxx rmorph1 mul1r.
rewrite eG' /= ?kk // get_mk ?kk // eq_sym (negbTE (nl : (l : nat) != i)) rmorph0 !mul0r //.
Qed.

(* a State matrix times a SISO Transfer *)
Theorem C87_matmul_st_sisoT G H : wfS G -> convertible eps H -> sgain G = false -> dynamic (XT H) -> sSISO G = false ->
  tSISO H -> sdt G = tdt H ->
  exists K, [/\ matmul_st lcmf eps lim.+2 G H = Ok (XS K), wfS K, spn K = spn G, smn K = smn G & sdt K = sdt G] /\
  forall (L : fieldType) (f : {rmorphism R -> L}) (s : L), regS f G s -> all_def f H s ->
    regS f K s /\ forall i j, (i < spn G)%N -> (j < smn G)%N -> ev f K s i j = ev f G s i j * evT f H s 0%N 0%N.
Proof.
move=> wG hc gG hd sG sH edt; have [K0 [eK gc _ gK gH]] := tts_dyn hsca hsvd hc hd; have [wK ep em ed] := shapeE gc.
have [wH _ _ _] := hc; move: (sH); rewrite wfT_siso // => /andP[/eqP p1 /eqP m1].
have [n nE] : exists n, n = lim.+2 by eexists.
rewrite -nE /matmul_st edt eqxx gG gH /= sG sH eK /=.
have [k kE] : exists k, k = minn (spn G) (smn G) by eexists.
have wE : wfa (@aeye R k) by exact: wfa_mk.
rewrite -kE; have [K' [[eG _ wK' sK' dK'] hK']] := C13_siso_times_matrix lim.+1 wK gK (etrans ep p1) (etrans em m1) wE.
rewrite -nE in eG; rewrite eG /=; have [pk mk] : spn K' = k /\ smn K' = k by case: sK'.
have dd : sdt G = sdt K' by rewrite dK' ed.
case: ifP => hm.
  have kk : k = smn G by rewrite kE; apply/minn_idPr.
  have [K E] := C12_state_matmul_ok lim wG wK' dd (etrans (esym kk) (esym pk)).
  have [[w d p m] h] := C12_state_matmul wG wK' (etrans (esym kk) (esym pk)) E.
  exists K; rewrite nE E; split; first by split=> //; rewrite ?m ?mk ?d ?kk.
  move=> L f s rG ad; case: gc => _ _ _ _ /(_ L f s ad) [rK e].
  have [rK' eK'] := hK' _ f s rK; have [r v] := h _ _ _ rG rK'; split=> // i j hi hj.
  rewrite v ?mk ?kk // (bigD1 (Ordinal hj)) //= big1 ?addr0 => [|l nl].
    by rewrite eK' /= ?kk // get_mk ?kk // eqxx rmorph1 mul1r e ?p1 ?m1.
  by rewrite eK' /= ?kk // get_mk ?kk // (negbTE (nl : (l : nat) != j)) rmorph0 mul0r mulr0.
have kk : k = spn G by rewrite kE; apply/minn_idPl; rewrite ltnW // ltnNge hm.
have [K E] := C12_state_matmul_ok lim wK' wG (esym dd) (etrans mk kk).
have [[w d p m] h] := C12_state_matmul wK' wG (etrans mk kk) E.
exists K; rewrite nE E; split; first by split=> //; rewrite ?p ?pk ?d -?dd ?kk.
move=> L f s rG ad; case: gc => _ _ _ _ /(_ L f s ad) [rK e].
have [rK' eK'] := hK' _ f s rK; have [r v] := h _ _ _ rK' rG; split=> // i j hi hj.
rewrite v ?pk ?kk // mk kk (bigD1 (Ordinal hi)) //= big1 ?addr0 => [|l nl].
  by rewrite eK' /= ?kk // get_mk ?kk // eqxx rmorph1 mul1r e ?p1 ?m1 // mulrC.
by rewrite eK' /= ?kk // get_mk ?kk // eq_sym (negbTE (nl : (l : nat) != i)) rmorph0 !mul0r.
Qed.

(* Transfer * State multiplies in the other order: what it returns for conforming models is State times Transfer *)
Theorem C87_mul_order G H X : wfS G -> convertible eps H -> smn G = tp H -> mul_ts lcmf eps lim H G = Ok X ->
  exists K, [/\ X = XS K, wfS K, spn K = spn G & smn K = tm H] /\
  forall (L : fieldType) (f : {rmorphism R -> L}) (s : L), regS f G s -> all_def f H s ->
    regS f K s /\ forall i j, (i < spn G)%N -> (j < tm H)%N ->
      ev f K s i j = \sum_(l < smn G) ev f G s i l * evT f H s l j.
Proof.
move=> wG hc sh; have [K0 eK gc] := tts_anyP hl hc; have [wK ep em ed] := shapeE gc.
rewrite /mul_ts eK /=; case: ifP => // _.
case E: (st_matmul _ _ _) => [K|] //= [<-]; exists K.
have [[w d p m] h] := C12_state_matmul wG wK (etrans sh (esym ep)) E.
split; first by rewrite -em.
move=> L f s rG ad; case: gc => _ _ _ _ /(_ L f s ad) [rK e].
have [r v] := h _ _ _ rG rK; split=> // i j hi hj; rewrite v ?em //; apply: eq_bigr => l _.
by rewrite e // -sh.
Qed.

(* it is the product the user wrote when one of the two is SISO; @ is * when the Transfer is SISO *)
Theorem C87_mul_siso G H X : wfS G -> convertible eps H ->
  mul_ts lcmf eps lim H G = Ok X \/ tSISO H /\ matmul_ts lcmf eps lim H G = Ok X ->
  exists K, X = XS K /\
  (sSISO G -> [/\ wfS K, sdt K = sdt G & sshape K = tshape H] /\
   forall (L : fieldType) (f : {rmorphism R -> L}) (s : L), regS f G s -> all_def f H s ->
    regS f K s /\ forall i j, (i < tp H)%N -> (j < tm H)%N -> ev f K s i j = evT f H s i j * ev f G s 0%N 0%N) /\
  (tSISO H -> [/\ wfS K, sdt K = sdt G & sshape K = sshape G] /\
   forall (L : fieldType) (f : {rmorphism R -> L}) (s : L), regS f G s -> all_def f H s ->
    regS f K s /\ forall i j, (i < spn G)%N -> (j < smn G)%N -> ev f K s i j = evT f H s 0%N 0%N * ev f G s i j).
Proof.
move=> wG hc hX; have {hX} : mul_ts lcmf eps lim H G = Ok X by case: hX => // -[]; rewrite /matmul_ts => ->.
have [K0 eK gc] := tts_anyP hl hc; have [wK ep em ed] := shapeE gc.
rewrite /mul_ts eK /=; case: ifP => // _.
case E: (st_matmul _ _ _) => [K|] //= [<-]; exists K; split=> //.
have [h1 h2] := C12_state_mul_siso wG wK E; have eS : sshape K0 = tshape H by case: gc.
split=> hs.
  have /andP[/eqP p1 /eqP m1] : (spn G == 1%N) && (smn G == 1%N) by rewrite -sisoS.
  have [[w d s] h] := h1 p1 m1; split; first by rewrite -eS.
  move=> L f s0 rG ad; case: gc => _ _ _ _ /(_ L f s0 ad) [rK e].
  by have [r v] := h _ _ _ rG rK; split=> // i j hi hj; rewrite v ?ep ?em // e // mulrC.
have [wH _ _ _] := hc; move: hs; rewrite wfT_siso // => /andP[/eqP p1 /eqP m1].
have [[w d s] h] := h2 (etrans ep p1) (etrans em m1); split=> //.
move=> L f s0 rG ad; case: gc => _ _ _ _ /(_ L f s0 ad) [rK e].
by have [r v] := h _ _ _ rG rK; split=> // i j hi hj; rewrite v // e ?p1 ?m1 // mulrC.
Qed.

(* MIMO Transfer @ State raises whatever the operands *)
Theorem C87_matmul_ts_refuted G H : convertible eps H -> tSISO H = false -> matmul_ts lcmf eps lim H G = Err ValueError.
Proof.
move=> hc sH; have [K0 eK _] := tts_anyP hl hc.
by rewrite /matmul_ts sH /=; case: ifP => //= _; rewrite eK.
Qed.

(* models of different sampling periods are refused by every operator *)
Theorem C87_dt G H : sdt G != tdt H ->
  [/\ add_st lcmf eps lim G H = Err ValueError, add_ts lcmf eps lim H G = Err ValueError,
      matmul_st lcmf eps lim G H = Err ValueError, mul_ts lcmf eps lim H G = Err ValueError &
      matmul_ts lcmf eps lim H G = Err ValueError].
Proof.
move=> hd; have hd' : (tdt H == sdt G) = false by rewrite eq_sym; exact: negbTE.
by rewrite /add_st /add_ts /matmul_st /matmul_ts /mul_ts hd' (negbTE hd) /=; split=> //; case: ifP.
Qed.
End C87.

Print Assumptions C87_add.
Print Assumptions C87_add_siso.
Print Assumptions C87_add_ok.
Print Assumptions C87_add_dt_refuted.
Print Assumptions C87_matmul_st.
Print Assumptions C87_matmul_st_ok.
Print Assumptions C87_matmul_st_siso.
Print Assumptions C87_matmul_st_sisoT.
Print Assumptions C87_mul_order.
Print Assumptions C87_mul_siso.
Print Assumptions C87_matmul_ts_refuted.
Print Assumptions C87_dt.

(* False of the code: Transfer * State is not the product in the order written.  For the gains H = [[0, 1], [0, 0]] and
   G = [[0, 0], [1, 0]] the entry (0, 0) of H * G is 1; the code returns a model whose entry is 0. *)
Definition mxH : tf Q := Tf [:: [:: [:: 0]; [:: 1]]; [:: [:: 0]; [:: 0]]] [:: [:: [:: 1]; [:: 1]]; [:: [:: 1]; [:: 1]]] true None.
Definition mxG : state Q := St (e00 Q) (e00 Q) (e00 Q) (qa [:: [:: 0; 0]; [:: 1; 0]]) true None.

Lemma mx_pev1 (a s : Q) : pev [rmorphism of @idfun Q] [:: a] s = a.
Proof. by rewrite pevid polyhi1 hornerC. Qed.

Theorem C87_mul_refuted : exists (H : tf Q) (G : state Q), [/\ wfT H, wfS G, tshape H = (2, 2)%N & sshape G = (2, 2)%N] /\
  forall lcmf eps lim, exists2 K, mul_ts lcmf eps lim.+1 H G = Ok (XS K) &
    let f := [rmorphism of @idfun Q] in
    ev f K 0 0%N 0%N = 0 /\ \sum_(l < smn G) evT f H 0 0%N l * ev f G 0 l 0%N = 1.
Proof.
exists mxH, mxG; split; first by split; [rewrite wfTE; vm_compute | vm_compute | vm_compute | vm_compute].
move=> lcmf eps lim.
have : if mul_ts lcmf eps lim.+1 mxH mxG is Ok (XS K) then (snn K == 0%N) && (get (sd K) 0 0 == 0) else false by vm_compute.
case: (mul_ts _ _ _ _ _) => [[K|K|K]|] // /andP[/eqP n0 /eqP e0]; exists K => //.
split; first by rewrite ev_n0.
have -> : smn mxG = 2%N by [].
have v0 : evT [rmorphism of @idfun Q] mxH 0 0 0 = 0.
  by rewrite /evT -[ent (tn mxH) 0 0]/[:: 0 : Q] mx_pev1 mul0r.
have v1 : evT [rmorphism of @idfun Q] mxH 0 0 1 = 1.
  by rewrite /evT -[ent (tn mxH) 0 1]/[:: 1 : Q] -[ent (td mxH) 0 1]/[:: 1 : Q] mx_pev1 divr1.
have v2 : ev [rmorphism of @idfun Q] mxG 0 1 0 = 1 by rewrite ev_n0.
by rewrite big_ord_recl big_ord1; rewrite v0 [evT _ _ _ _ _]v1 [X in _ + _ * X]v2 mul0r add0r mul1r.
Qed.
Print Assumptions C87_mul_refuted.

(* the hypotheses met: G = 1/(s+1) as a State, H = 1/(s+2) and M = [1/(s+2), 1/(s+3)] as Transfers *)
Definition mxT : tf Q := Tf [:: [:: [:: 1]]] [:: [:: [:: 1; 2%:Q]]] false None.
Definition mxM : tf Q := Tf [:: [:: [:: 1]; [:: 1]]] [:: [:: [:: 1; 2%:Q]; [:: 1; 3%:Q]]] false None.
Example C87_ex : [/\ wfS exG && ~~ sgain exG && sSISO exG, convertible (1 / 100%:~R) mxT, dynamic (XT mxT),
  sshape exG = tshape mxT /\ sdt exG = tdt mxT & all_def [rmorphism of @idfun Q] mxT 0].
Proof.
split=> //.
- split=> //; first by rewrite wfTE; vm_compute.
  by move=> _; rewrite /ent /= polyhi1 size_polyC oner_eq0.
- by exists 0%N, 0%N; split=> //; rewrite coef_polyhi /= mul0r scale0r head_polyhi //=.
move=> i j; have -> : tp mxT = 1%N by []. have -> : tm mxT = 1%N by [].
by rewrite !ltnS !leqn0 => /eqP -> /eqP ->; rewrite /dfT ex_pev; vm_compute.
Qed.
Example C87_ex_mimo : [/\ convertible (1 / 100%:~R) mxM, tSISO mxM = false, tgain mxM = false & tdt mxM = sdt exG].
Proof.
split=> //; split=> //; first by rewrite wfTE; vm_compute.
move=> _; have ij i j : (i < tp mxM)%N -> (j < tm mxM)%N -> i = 0%N /\ (j = 0%N \/ j = 1%N).
  have -> : tp mxM = 1%N by []. have -> : tm mxM = 2%N by [].
  by case: i => // _; case: j => [|[|j]] // _; split=> //; [left | right].
split=> i j hi hj; have [-> [->|->]] := ij i j hi hj => //.
  by move=> _; rewrite /ent /= polyhi1 size_polyC oner_eq0.
by move=> _; rewrite /ent /= polyhi1 size_polyC oner_eq0.
Qed.
