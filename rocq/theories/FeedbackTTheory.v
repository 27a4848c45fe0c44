(* Lemmas on feedback with Transfer operands. *)
From mathcomp Require Import all_ssreflect all_algebra zify.
From Verif Require Import Base BaseTheory Spec ModelPoly PolyTheory PolyOps LcmTheory ModelState Denote StateTheory
  ModelTransfer DenoteT TransferTheory TransferOps ConvertTheory ConvertOps ConvertMimo ConvertState
  SpecConvert ConvertTf ModelConvert ModelFeedback FeedbackTheory ModelFeedbackT SpecFeedbackT.

Set Implicit Arguments.
Unset Strict Implicit.
Unset Printing Implicit Defensive.

Import Order.TTheory GRing.Theory Num.Theory.
Local Open Scope ring_scope.

Section Tts.
Variable R : realFieldType.
Variable lcmf : seq (row R) -> res (row R * seq (row R)).
Variable eps : R.
Hypothesis hl : lcm_okf lcmf.

Definition good_conv (G : tf R) (K : state R) : Prop :=
  [/\ wfS K, sshape K = tshape G, sdt K = tdt G, snn K = 0%N -> sgain K &
    forall (L : fieldType) (f : {rmorphism R -> L}) (s : L),
      (forall i j, (i < tp G)%N -> (j < tm G)%N -> dfT f G s i j) ->
      regS f K s /\ forall i j, (i < tp G)%N -> (j < tm G)%N -> ev f K s i j = evT f G s i j].

Lemma tts_flag G K : wfT G -> transfer_to_state lcmf eps G = Ok K -> snn K = 0%N -> sgain K.
Proof.
move=> w; rewrite /transfer_to_state; case E : (tts_abcd _ _ _ _ _) => [[[[A B] C] d]|] //.
rewrite [bind _ _]/=; case: ifP => [_ /mkGain_inv[-> _] //|hg].
case: ifP => [_ /mkGain_inv[-> _] //|hs].
rewrite /mk_state /st_validate; case: ifP => [/and3P[] //|_].
case: ifP => [_|h2]; first by rewrite /=; case: (check_dt _) => //= dt' [<-].
move=> h3 h4; suff : (0 < nr (odflt (e00 R) A))%N.
  move: h3; case: ifP => // _; case: (if nr _ != nr _ then _ else _) => // b1 /=.
  case: ifP => // _; case: (if shp _ != _ then _ else _) => //= d2; case: (check_dt _) => //= dt' [eK].
  by move: h4; rewrite -eK /snn /= => ->.
case: (wfTP w) => -[hp hm rN rD] hd hc hgain hdt.
move: E hs h2 {h3 h4}; rewrite /tts_abcd hg -/(tSISO G); case hS: (tSISO G) => /=.
  have [p1 m1] : tp G = 1%N /\ tm G = 1%N by move: hS; rewrite wfT_siso // => /andP[/eqP ? /eqP].
  set den := ent (td G) 0 0; have h0 : head 0 den != 0 by apply: hd; rewrite ?p1 ?m1.
  have h1 : (1 < size den)%N.
    move: hgain; rewrite hg p1 m1 /= !andbT -/den; case: (den) h0 => [|c [|]] //=; by rewrite eqxx.
  rewrite /tts_siso (companion_compm h0 h1) /= eqxx; case: ifP => _.
    by case: (awrite _ _ _ _) => //= C' [<- _ _ _] _ _; rewrite -ltnS prednK // (ltn_trans _ h1).
  case: (haroldpolydiv _ _) => //= -[q r]; case: ifP => _; first by case=> <- <- <- _.
  by case: (awrite _ _ _ _) => //= C' [<- _ _ _] _ _; rewrite -ltnS prednK // (ltn_trans _ h1).
have sN : pshape (tn G) = (tp G, tm G) by rewrite /tp /tm /tshape; case: (pshape _).
move=> Em hs _; have [A' [B' [C' [n [e [a1 a2] dims _ _]]]]] := tts_mimoP sN hp hm hl hd hc Em.
case: e => -> eB _ _ /= in hs *; rewrite a1; case: n a1 a2 dims => // a1 a2 dims.
move: hs; rewrite /asize a1 a2 eB /= => /eqP; by case: dims => [[-> _ _ _]|[_ ->]].
Qed.

Lemma tts_anyP G : convertible eps G -> exists2 K, transfer_to_state lcmf eps G = Ok K & good_conv G K.
Proof.
case=> w hn hs hm.
have fin K : transfer_to_state lcmf eps G = Ok K -> wfS K -> sshape K = tshape G -> sdt K = tdt G ->
   (forall (L : fieldType) (f : {rmorphism R -> L}) (s : L), (forall i j, (i < tp G)%N -> (j < tm G)%N -> dfT f G s i j) ->
      regS f K s /\ forall i j, (i < tp G)%N -> (j < tm G)%N -> ev f K s i j = evT f G s i j) ->
   exists2 K, transfer_to_state lcmf eps G = Ok K & good_conv G K.
  by move=> E *; exists K => //; split=> // n0; exact: tts_flag E n0.
case: (boolP (tgain G)) => [hg|/negbTE hg].
  have [K [E /andP[wK gK] eS edt hv]] := tts_gainP eps lcmf w hg (hn hg).
  apply: (fin K) => // L f s _; have [n0 _] := wfS_gain wK gK; split; first exact: regS_n0.
  by move=> i j hi hj; exact: hv.
case: (boolP (tSISO G)) => hS.
  have [p1 m1] : tp G = 1%N /\ tm G = 1%N by move: (hS); rewrite wfT_siso // => /andP[/eqP ? /eqP].
  have [K [E wK eS edt [_ hv]]] := tts_sisoP lcmf w hS hg (hs hS).
  apply: (fin K) => //; first by rewrite eS [tshape G]surjective_pairing -/(tp G) -/(tm G) p1 m1.
  move=> L f s hd; have [|h1 h2] := hv L f s; first by apply: hd; rewrite ?p1 ?m1.
  by split=> // i j; rewrite p1 m1 !ltnS !leqn0 => /eqP -> /eqP ->.
have [c1 c2] := hm hS; have [K E] := tts_mimo_exists eps hl w hS hg c2.
have [wK eS edt hv] := tts_mimo_value hl w hS hg c1 E.
exact: (fin K).
Qed.

(* the value at infinity of the conversion *)
Lemma poly_ext0 (P : {poly R}) : (forall s, P.[s] = 0) -> P = 0.
Proof.
move=> h; apply/eqP/negPn/negP => nz; have [x] := nonroot_exists nz.
by rewrite rootE h eqxx.
Qed.
Lemma coefMtop (P Q : {poly R}) a b : (size P <= a.+1)%N -> (size Q <= b.+1)%N -> (P * Q)`_(a + b) = P`_a * Q`_b.
Proof.
move=> hP hQ; rewrite coefM (bigD1 (Ordinal (leq_addr b a : (a < (a + b).+1)%N))) //= addKn big1 ?addr0 // => -[k hk] /=.
rewrite -val_eqE /= => /eqP ne; case: (ltngtP k a) => h //.
  by rewrite [X in _ * X]nth_default ?mulr0 // (leq_trans hQ) //; lia.
by rewrite [X in X * _]nth_default ?mul0r // (leq_trans hP).
Qed.

Lemma head_polyhi (d : seq R) : head 0 d != 0 -> polyhi d != 0.
Proof.
case: d => [|c d] /=; first by rewrite eqxx.
by move=> c0; rewrite -lead_coef_eq0 lead_coef_polyhi.
Qed.

Lemma good_conv_poly G K i j : wfT G -> good_conv G K -> (i < tp G)%N -> (j < tm G)%N ->
  let A := mxof [rmorphism of @idfun R] (snn K) (snn K) (sa K) in
  let P := numpoly A (\col_k get (sb K) k j) (\row_k get (sc K) i k) in
  polyhi (ent (tn G) i j) * char_poly A = (P + get (sd K) i j *: char_poly A) * polyhi (ent (td G) i j).
Proof.
move=> w [wK eS edt fl hv] hi hj A P; case: (wfTP w) => -[hp hm rN rD] hd hc hgain hdt.
pose D := \prod_(x < tp G) \prod_(y < tm G) polyhi (ent (td G) x y).
have D0 : D != 0.
  apply/prodf_neq0 => x _; apply/prodf_neq0 => y _; apply/eqP => h.
  have h0 := hd x y (ltn_ord x) (ltn_ord y).
  by have := head_polyhi h0; rewrite h eqxx.
apply/eqP; rewrite -subr_eq0 -(mulIr_eq0 _ (mulIf D0)); apply/eqP.
apply: poly_ext0 => s; rewrite hornerM.
case: (eqVneq D.[s] 0) => [->|Ds]; first by rewrite mulr0.
have df x y : (x < tp G)%N -> (y < tm G)%N -> dfT [rmorphism of @idfun R] G s x y.
  move=> hx hy; move: Ds; rewrite /D horner_prod => /prodf_neq0/(_ (Ordinal hx) isT).
  by rewrite horner_prod => /prodf_neq0/(_ (Ordinal hy) isT); rewrite /= /dfT /pev map_poly_id.
have [rK /(_ i j hi hj)] := hv R _ s df.
have u : s%:M - A \in unitmx by exact: rK.
have hchi : (char_poly A).[s] != 0 by rewrite -char_unit.
have dn : (polyhi (ent (td G) i j)).[s] != 0 by have := df i j hi hj; rewrite /dfT /pev map_poly_id.
rewrite /evT /pev !map_poly_id // /ev /= -/A numpoly_tf // -/P => e.
apply/eqP; rewrite mulf_eq0; apply/orP; left; rewrite hornerD hornerN !hornerM hornerD hornerZ subr_eq0.
have -> : (polyhi (ent (tn G) i j)).[s] = (get (sd K) i j + P.[s] / (char_poly A).[s]) * (polyhi (ent (td G) i j)).[s].
  by rewrite e divfK.
by apply/eqP; rewrite mulrAC; congr (_ * _); rewrite mulrDl divfK // addrC.
Qed.

Lemma good_conv_inf G K i j : wfT G -> good_conv G K -> (i < tp G)%N -> (j < tm G)%N ->
  get (sd K) i j = (polyhi (ent (tn G) i j))`_(size (ent (td G) i j)).-1 / head 0 (ent (td G) i j).
Proof.
move=> w gc hi hj; have := good_conv_poly w gc hi hj; rewrite /=; set A := mxof _ _ _ _; set P := numpoly _ _ _.
case: (wfTP w) => _ hd hc _ _; have h0 := hd i j hi hj; have hs := hc i j hi hj.
move: (ent (tn G) i j) (ent (td G) i j) h0 hs => n [|c d] /= h0 hs; first by rewrite eqxx in h0.
move=> /(congr1 (fun P : {poly R} => P`_(size d + snn K))) /=.
rewrite coefMtop ?size_char_poly // [_ * polyhi (c :: d)]mulrC coefMtop ?(size_polyhi_le (c :: d)) //; last first.
  rewrite (leq_trans (size_add _ _)) // geq_max (leq_trans (size_numpoly _ _ _)) //= (leq_trans (size_scale_leq _ _)) //.
  by rewrite size_char_poly.
have chn : (char_poly A)`_(snn K) = 1 by have /monicP := char_poly_monic A; rewrite /lead_coef size_char_poly.
rewrite chn mulr1 coefD coefZ chn mulr1 [P`_ _]nth_default ?size_numpoly // add0r (coef_polyhi (c :: d)) /= ltnS leqnn subSS subnn /= => ->.
by rewrite mulrAC mulfV // mul1r.
Qed.

(* a converted model without states is constant *)
Lemma good_conv_dyn G K : wfT G -> good_conv G K -> dynamic (XT G) -> (0 < snn K)%N.
Proof.
move=> w gc [i [j [hi hj]]]; rewrite -(good_conv_inf w gc) // lt0n; apply: contra => /eqP n0.
have := good_conv_poly w gc hi hj; rewrite /=; set A := mxof _ _ _ _; set P := numpoly _ _ _.
have -> : char_poly A = 1.
  by rewrite /char_poly; move: (char_poly_mx A); rewrite n0 => M; rewrite det_mx00.
have -> : P = 0 by apply/eqP; rewrite -size_poly_leq0 -n0 size_numpoly.
by rewrite add0r mulr1 alg_polyC mul_polyC => ->.
Qed.

End Tts.

Section Any.
Variable R : realFieldType.
Variable lcmf : seq (row R) -> res (row R * seq (row R)).
Variable eps : R.
Hypothesis hl : lcm_okf lcmf.
Implicit Types X Y : fbx R.
Let idm := [rmorphism of @idfun R].

(* operands that are models, converted with the sampling period dt of the loop *)
Definition xconv X (dt : option R) : res (state R) :=
  match X with XS G => Ok G | XT G => transfer_to_state lcmf eps G | XA A => mkGain A dt end.
Local Notation xok := (xok eps).

Lemma xdt_ok X dt : xok X -> xdt X = Some dt -> dt_ok dt.
Proof.
case: X => [G|G|A] //= h [<-]; first exact: wfS_dt.
by case: h => /wfTP[_ _ _ _ h] _ _ _.
Qed.

Lemma xconvP X dt p m : xok X -> dt_ok dt -> (if xdt X is Some d then d = dt else True) -> xshape X = (p, m) ->
  exists g, [/\ xconv X dt = Ok g, wfS g, spn g = p /\ smn g = m, sdt g = dt &
   [/\ mxof idm p m (sd g) = xinf p m X, ~~ is_state X -> snn g = 0%N -> sgain g, dynamic X -> (0 < snn g)%N, static X -> snn g = 0%N &
   forall (L : fieldType) (f : {rmorphism R -> L}) s, xdef f X s -> regS f g s /\ evalS f p m g s = xval f p m X s]].
Proof.
case: X => [G|G|A] /= h hd edt [e1 e2].
- exists G; split=> //; split=> //.
- have [g E gc] := tts_anyP hl h; have [w _ _ _] := h; have [wg sg dg fg vg] := gc; exists g.
  have eT : tshape G = (p, m) by rewrite /tshape /pshape e1 e2.
  have [ep em] : tp G = p /\ tm G = m by rewrite /tp /tm eT.
  split=> //; first by rewrite /spn /smn; move: sg; rewrite eT => -[].
    by rewrite dg.
  split=> //.
  + by apply/matrixP => i j; rewrite !mxE /= (good_conv_inf w gc) ?ep ?em.
  + exact: (good_conv_dyn w gc).
  + move=> hg; case: h => _ /(_ hg) hn _ _.
    have [K [EK /andP[wK gK] _ _ _]] := tts_gainP eps lcmf w hg hn; move: E; rewrite EK => -[<-].
    by have [] := wfS_gain wK gK.
  move=> L f s hs; have [r v] := vg L f s hs; split=> //.
  by apply/matrixP => i j; rewrite evalSE mxE v ?ep ?em.
rewrite mkGain_ok //; eexists; split; [reflexivity| |by []|by []|].
  exact: wfS_mkgain.
split=> //.
move=> L f s _; split; first exact: regS_n0.
by apply/matrixP => i j; rewrite evalSE mxE ev_n0.
Qed.

Lemma check_any X Y g h : dts_agree X Y -> xconv X (loop_dt X Y) = Ok g -> xconv Y (loop_dt X Y) = Ok h ->
  spn g = smn h -> smn g = spn h -> check_ic_any lcmf eps X Y = Ok (g, h, back X Y).
Proof.
rewrite /check_ic_any /loop_dt /dts_agree; case: X Y => [G|G|A] [H|H|B] /= e; rewrite ?e ?eqxx /=;
  move=> Eg Eh h1 h2; try (injection Eg as <-); try (injection Eh as <-); rewrite ?Eg /= ?Eh /= ?Eg /= h1 h2 !eqxx; reflexivity.
Qed.

Lemma any_mismatch X Y p m p' m' : xok X -> xok Y -> xshape X = (p, m) -> xshape Y = (p', m') ->
  ~ dts_agree X Y \/ (p', m') <> (m, p) -> check_ic_any lcmf eps X Y = Err ValueError.
Proof.
move=> hX hY sX sY hne.
case: (boolP (if (xdt X, xdt Y) is (Some a, Some b) then a == b else true)) => hdt; last first.
  move: hdt; rewrite /check_ic_any; case: X Y {hX hY sX sY hne} => [G|G|A] [H|H|B] //= /negbTE->; reflexivity.
have {}hdt' : dts_agree X Y by move: hdt; rewrite /dts_agree; case: (xdt X) (xdt Y) => [d|] [d'|] // /eqP.
have {}hne : (p != m') || (m != p').
  case: hne => // h; rewrite -negb_and; apply/negP => /andP[/eqP e1 /eqP e2]; by apply: h; rewrite e1 e2.
have hd : dt_ok (loop_dt X Y).
  rewrite /loop_dt; case eX: (xdt X) => [d|] /=; first exact: xdt_ok eX.
  by case eY: (xdt Y) => [d|] //=; exact: xdt_ok eY.
have [|g [Eg wg [pg mg] dg _]] := @xconvP X (loop_dt X Y) p m hX hd _ sX.
  by rewrite /loop_dt; case: (xdt X).
have [|h [Eh wh [ph mh] dh _]] := @xconvP Y (loop_dt X Y) p' m' hY hd _ sY.
  by move: hdt'; rewrite /dts_agree /loop_dt; case: (xdt X) (xdt Y) => [d|] [d'|].
have hk : (spn g == smn h) && (smn g == spn h) = false by rewrite pg mh mg ph; apply/negbTE; rewrite negb_and.
move: hdt' Eg Eh hk; rewrite /check_ic_any /loop_dt /dts_agree; case: X Y {hX hY sX sY hd hdt dg dh} => [G|G|A] [H|H|B] /= e; rewrite ?e ?eqxx /=;
  move=> Eg Eh hk; try (injection Eg as <-); try (injection Eh as <-); rewrite ?Eg /= ?Eh /= ?Eg /= hk; reflexivity.
Qed.

Lemma any_loop (ill : arr R -> bool) X Y (neg : bool) p m :
  (forall M, ill M = (adet M == 0)) -> xok X -> xok Y -> dts_agree X Y -> xshape X = (p, m) -> xshape Y = (m, p) ->
  let DX := xinf p m X in let DY := xinf m p Y in
  \det (1%:M - DY *m DX) != 0 ->
  (if neg then (dynamic X \/ dynamic Y) /\ DY *m DX = 0
   else [\/ dynamic X, dynamic Y | DX != 0 /\ DY != 0]) ->
  exists g h K, [/\ check_ic_any lcmf eps X Y = Ok (g, h, back X Y), fb_core ill g h neg = Ok K,
    wfS K /\ (spn K = p /\ smn K = m), sdt K = loop_dt X Y &
    [/\ dynamic X \/ dynamic Y -> (0 < snn K)%N, static X -> static Y -> snn K = 0%N, ~~ is_state X -> ~~ is_state Y -> sgain K = (snn K == 0%N) &
    forall (L : fieldType) (f : {rmorphism R -> L}) (s : L), xdef f X s -> xdef f Y s ->
     let c : L := if neg then -1 else 1 in
     let Xs := xval f p m X s in let Ys := xval f m p Y s in
     regS f K s = (1%:M - c *: (Ys *m Xs) \in unitmx) /\
     (regS f K s -> (1%:M - c *: (Xs *m Ys)) *m evalS f p m K s = Xs)]].
Proof.
move=> hill hX hY hdt sX sY DX DY hdet hn.
have hd : dt_ok (loop_dt X Y).
  rewrite /loop_dt; case eX: (xdt X) => [d|] /=; first exact: xdt_ok eX.
  by case eY: (xdt Y) => [d|] //=; exact: xdt_ok eY.
have [|g [Eg wg [pg mg] dg [ig fg yg zg vg]]] := @xconvP X (loop_dt X Y) p m hX hd _ sX.
  by rewrite /loop_dt; case: (xdt X).
have [|h [Eh wh [ph mh] dh [ih fh yh zh vh]]] := @xconvP Y (loop_dt X Y) m p hY hd _ sY.
  by move: hdt; rewrite /dts_agree /loop_dt; case: (xdt X) (xdt Y) => [d|] [d'|].
have ec := check_any hdt Eg Eh; rewrite pg mg ph mh in ec; have {}ec := ec erefl erefl.
have eD : mxof idm m m (asub (aeye (smn g)) (amul (sd h) (sd g))) = 1%:M - DY *m DX.
  rewrite mxof_sub ?nr_mk ?nc_mk -/(smn g) ?mg // mxof_eye (@mxof_mul _ _ _ m p m) //.
  by rewrite ih ig.
have hE : adet (asub (aeye (smn g)) (amul (sd h) (sd g))) != 0.
  by rewrite -(@unit_adet _ _ idm m) ?nr_mk // eD unitmxE unitfE.
have hg : if neg then ~~ (sgain g && sgain h) /\ amul (sd h) (sd g) = azeros (smn g) (smn g)
   else sgain g && sgain h -> aany (sd g) && aany (sd h).
  have sg : sgain g -> snn g = 0%N by move=> h1; have [] := wfS_gain wg h1.
  have sh : sgain h -> snn h = 0%N by move=> h1; have [] := wfS_gain wh h1.
  have nd : dynamic X \/ dynamic Y -> ~~ (sgain g && sgain h).
    by case=> [/yg|/yh] n0; apply/negP => /andP[/sg e1 /sh e2]; rewrite ?e1 ?e2 in n0.
  have an A a b D : wfa A -> nr A = a -> nc A = b -> mxof idm a b A = D -> D != 0 -> aany A.
    move=> wA rA cA eA; apply: contraNT => /negbTE h0; rewrite -eA (aany_false wA h0) rA cA; apply/eqP; exact: mxof_zeros.
  case: neg hn => [[/nd ? e0]|hn]; first split=> //.
    apply: (@mxof_inj _ _ idm m m); rewrite ?wfa_mk ?nr_mk ?nc_mk -/(spn h) -/(smn g) ?ph ?mg //.
    by rewrite (@mxof_mul _ _ _ m p m) // ih ig e0 mxof_zeros.
  move=> gg; case: hn => [d|d|[d1 d2]]; [by have := nd (or_introl d); rewrite gg | by have := nd (or_intror d); rewrite gg |].
  by rewrite (an _ _ _ _ (wfS_d wg) pg mg ig d1) (an _ _ _ _ (wfS_d wh) ph mh ih d2).
have [K [[E wK sK dK nK] vK]] := feedbackP wg wh (etrans dg (esym dh)) (etrans pg (esym mh)) (etrans mg (esym ph)) hill hE hg.
move: E; rewrite /feedback check_ic_ok ?dg ?dh ?pg ?mh ?mg ?ph // [bind _ _]/= => E.
have sK' : spn K = p /\ smn K = m by move: sK; rewrite /sshape -/(spn K) -/(smn K) -/(spn g) -/(smn g) pg mg => -[].
exists g, h, K; split=> //; first by rewrite dK.
split=> [||tX tY|L f s dX dY].
- by rewrite nK => -[/yg|/yh]; rewrite addn_gt0 => ->; rewrite ?orbT.
- by rewrite nK => /zg-> /zh->.
- have k1 : sgain K -> snn K = 0%N by move=> h1; have [] := wfS_gain wK h1.
  apply/idP/eqP => //; rewrite nK => /eqP; rewrite addn_eq0 => /andP[/eqP/(fg tX) g1 /eqP/(fh tY) g2].
  move: E; rewrite /fb_core g1 g2; case: (np_matmul _ _) => //= nd'; case: (np_sub _ _) => //= dl; case: ifP => // _.
  case: ifP => // _; case: (np_solve _ _) => //= x; case: (np_matmul _ _) => //= y; case: (np_add _ _) => //= mat.
  by move=> /mkGain_inv[-> _].
have [rg eg] := vg L f s dX; have [rh eh] := vh L f s dY.
have := vK L f s rg rh; rewrite /= pg mg eg eh; exact.
Qed.
End Any.
