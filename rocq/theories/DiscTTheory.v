(* Lemmas on discretize and undiscretize of Transfer models. *)
From mathcomp Require Import all_ssreflect all_algebra zify.
From Coq Require Import String.
From Verif Require Import Base BaseTheory Spec ModelPoly PolyTheory PolyOps LcmTheory ModelState Denote StateTheory StateProps
  ModelTransfer DenoteT TransferTheory TransferOps TransferProps ConvertTheory ConvertOps ConvertMimo ConvertState PropsConvert
  SpecSim RingTac SpecConvert ModelConvert ConvertTf PropsStt ModelFeedback FeedbackTheory ModelFeedbackT SpecFeedbackT
  FeedbackTTheory PropsFeedbackT ModelObject ModelDiscrete DenoteD DiscreteTheory ModelDiscT SpecDiscT.

Set Implicit Arguments.
Unset Strict Implicit.
Unset Printing Implicit Defensive.

Import Order.TTheory GRing.Theory Num.Theory.
Local Open Scope ring_scope.

(* the inverse of the backward difference, as matrices *)
Section BackMx.
Variables (L : fieldType) (n m p : nat) (dt sr : L) (A : 'M[L]_n) (B : 'M[L]_(n, m)) (C : 'M[L]_(p, n)) (D : 'M[L]_(p, m)).
Hypotheses (dt0 : dt != 0) (hsr : sr * sr = dt) (uA : A \in unitmx).
Let Ac := dt^-1 *: (1%:M - invmx A).
Let Bc := sr^-1 *: (invmx A *m B).
Let Cc := sr^-1 *: (C *m invmx A).
Let Dc := D - C *m invmx A *m B.

Let CB (X : 'M[L]_n) : Cc *m X *m Bc = dt^-1 *: (C *m (invmx A *m X *m invmx A) *m B).
Proof. by rewrite /Cc /Bc -!scalemxAl -!scalemxAr scalerA -invfM hsr !mulmxA. Qed.

Lemma back_mx s z : z * (1 - s * dt) = 1 ->
  regular Ac s = regular A z /\ (regular A z -> tfmx Ac Bc Cc Dc s = tfmx A B C D z).
Proof.
move=> zu; have u0 : 1 - s * dt != 0 by apply/eqP => e; move/eqP: zu; rewrite e mulr0 eq_sym oner_eq0.
set u := 1 - s * dt in zu u0; pose c := u / dt.
have c0 : c != 0 by rewrite mulf_neq0 ?invr_eq0.
have ch : s%:M - Ac = c *: (invmx A *m (z%:M - A)).
  rewrite mulmxBr mulVmx // mul_mx_scalar scalerBr scalerA /Ac scalerBr.
  have -> : c * z = dt^-1 by rewrite /c mulrAC [u * z]mulrC zu mul1r.
  have -> : c *: (1%:M : 'M[L]_n) = dt^-1 *: 1%:M - s%:M.
    by rewrite /c /u mulrBl mulfK // mul1r scalerBl !scalemx1.
  by rewrite !opprB addrCA addrC; congr (_ + _).
split.
  by rewrite /regular ch unitmxZ ?unitfE // unitmx_mul unitmx_inv uA.
move=> r; set V := invmx (z%:M - A).
have rM : s%:M - Ac \in unitmx by rewrite ch unitmxZ ?unitfE // unitmx_mul unitmx_inv uA.
have MX : (s%:M - Ac) *m (c^-1 *: (V *m A)) = 1%:M.
  rewrite ch -scalemxAr -scalemxAl scalerA mulVf // scale1r -mulmxA [(z%:M - A) *m _]mulmxA mulmxV // mul1mx.
  exact: mulVmx.
have iv : invmx (s%:M - Ac) = c^-1 *: (V *m A) by rewrite -[RHS]mul1mx -(mulVmx rM) -mulmxA MX mulmx1.
have zV : z *: (invmx A *m V) = invmx A + V.
  have e : invmx A *m (z%:M - A) *m V = invmx A by rewrite -mulmxA mulmxV // mulmx1.
  by rewrite -[in RHS]e mulmxBr mulVmx // mul_mx_scalar mulmxBl mul1mx -scalemxAl subrK.
rewrite /tfmx iv CB -scalemxAr -!scalemxAl mulmxA mulmxK // -scalemxAr -scalemxAl scalerA.
have -> : dt^-1 * c^-1 = z by rewrite -invfM mulrC /c divfK //; apply: (mulIf u0); rewrite zu mulVf.
by rewrite scalemxAl scalemxAr zV mulmxDr mulmxDl /Dc addrA subrK.
Qed.

Lemma back_mx_inf s : 1 - s * dt = 0 -> regular Ac s /\ tfmx Ac Bc Cc Dc s = D.
Proof.
move=> u0; have ch : s%:M - Ac = dt^-1 *: invmx A.
  have -> : s = dt^-1 by apply: (mulIf dt0); rewrite mulVf //; apply/esym/eqP; rewrite -subr_eq0 u0.
  by rewrite /Ac scalerBr scalemx1 opprB addrC subrK.
have r : s%:M - Ac \in unitmx by rewrite ch unitmxZ ?unitfE ?invr_eq0 // unitmx_inv.
split=> //; have iv : invmx (s%:M - Ac) = dt *: A.
  have MX : (s%:M - Ac) *m (dt *: A) = 1%:M by rewrite ch -scalemxAl -scalemxAr scalerA mulVf // scale1r mulVmx.
  by rewrite -[RHS]mul1mx -(mulVmx r) -mulmxA MX mulmx1.
rewrite /tfmx iv CB -scalemxAr mulVmx // -!scalemxAl mul1mx -scalemxAr -scalemxAl scalerA mulVf // scale1r.
by rewrite /Dc subrK.
Qed.
End BackMx.

Section Lift.
Local Arguments str_in : simpl never.
Variables (R : realFieldType) (L : fieldType) (f : {rmorphism R -> L}).
Variables (sq tn : R -> R) (pi : R) (expm : arr R -> arr R) (logm : arr R -> res (arr R)).
Variables (bal : arr R -> arr R * seq R) (nz : arr R -> bool).
Variables (re absL : L -> R) (eig : arr R -> seq L) (tz : arr R -> arr R -> arr R -> seq L) (lsq : arr R -> arr R -> arr R).
Variables (sca : arr R -> seq R) (svd : arr R -> arr R * arr R * arr R) (eps : R).
Let lcmf := haroldlcm sca svd 0.
Hypotheses (h1 : re_ok f re) (h2 : abs_ok f absL) (h3 : lsq_ok lsq) (h4 : forall a, sca_ok a (sca a))
  (h5 : forall C, wfa C -> svd_ok C (svd C)).
Let idm := [rmorphism of @idfun R].
Let hl : lcm_okf lcmf := haroldlcm_okf h4 h5.
Implicit Types (G H : tf R) (K : state R).

Local Notation disc_t := (discretize_t f sq tn pi expm bal re absL eig tz lsq lcmf eps).
Local Notation undisc_t := (undiscretize_t f sq tn pi logm bal nz re absL eig tz lsq lcmf eps).
Local Notation stt := (state_to_transfer f re absL eig tz lsq lcmf eps).

Lemma dyn_not_gain K : wfS K -> (0 < snn K)%N -> sgain K = false.
Proof. by move=> w n0; apply/negP => g; have [e] := wfS_gain w g; rewrite e in n0. Qed.

Lemma tts_dyn G : convertible eps G -> dynamic (XT G) -> exists K,
  [/\ transfer_to_state lcmf eps G = Ok K, good_conv G K, (0 < snn K)%N, sgain K = false & tgain G = false].
Proof.
move=> hc hd; have [K E gc] := tts_anyP hl hc; have [w hn _ _] := hc.
have n0 := good_conv_dyn w gc hd; have wK : wfS K by case: gc.
exists K; split=> //; first exact: dyn_not_gain.
apply/negP => g; have [K' [E' /andP[wK' gK'] _ _ _]] := tts_gainP eps lcmf w g (hn g).
move: E'; rewrite E => -[eK]; by move: (dyn_not_gain wK n0); rewrite eK gK'.
Qed.

Lemma wfT_pos G : wfT G -> (0 < tp G)%N /\ (0 < tm G)%N.
Proof. by case/wfTP => -[]. Qed.

(* the conversion back of a State model that takes the values of that of G *)
Lemma back_conv G K Kd : wfT G -> good_conv G K -> wfS Kd -> (0 < snn Kd)%N -> sshape Kd = sshape K ->
  numerics_ok f eig tz Kd ->
  exists H, [/\ stt Kd = Ok H, wfT H, tshape H = tshape G, tdt H = sdt Kd &
   forall (F : fieldType) (g : {rmorphism R -> F}) (z : F),
     [/\ forall s, same_value g K Kd z s -> tf_same g G H z s, value_at_inf g K Kd z -> tf_inf g G H z &
       regS g Kd z -> forall i j, (i < tp G)%N -> (j < tm G)%N -> dfT g H z i j /\ evT g H z i j = ev g Kd z i j]].
Proof.
move=> w gc wd n0 es [e1 e2]; have [p0 m0] := wfT_pos w; have [wK eS _ _ hv] := gc.
have [ep em] : spn Kd = tp G /\ smn Kd = tm G by move: es; rewrite eS /tp /tm /sshape => <-.
have [epK emK] : spn K = tp G /\ smn K = tm G by move: eS; rewrite /tp /tm /sshape => <-.
have gd := dyn_not_gain wd n0.
have [||H [EH wH sH dH vH]] := @C33_dynamic R L f re absL eig tz lsq sca svd eps Kd h1 h2 h3 h4 h5 wd gd n0 _ _ e1 e2.
  by rewrite ep.
  by rewrite em.
exists H; split=> //; first by rewrite sH es.
move=> F g z; split=> [s [r v] ad i j hi hj|[r v] i j hi hj|r i j hi hj]; last first.
- by have := vH i j; rewrite ep em => /(_ hi hj) [_ /(_ F g z r)].
- have := vH i j; rewrite ep em => /(_ hi hj) [_ /(_ F g z r) [d ->]]; split=> //.
  move: v; rewrite epK emK => /matrixP/(_ (Ordinal hi) (Ordinal hj)).
  by rewrite evalSE mxE /= => ->; rewrite (good_conv_inf w gc).
- have [rs vs] := hv F g s ad; have rz : regS g Kd z by rewrite r.
  have := vH i j; rewrite ep em => /(_ hi hj) [_ /(_ F g z rz) [d ->]]; split=> //.
  have := v rs; rewrite epK emK => /matrixP/(_ (Ordinal hi) (Ordinal hj)).
  by rewrite !evalSE /= => ->; exact: vs.
Qed.

Lemma lift_disc G K dt meth pw q o : convertible eps G -> dynamic (XT G) -> tdt G = None ->
  transfer_to_state lcmf eps G = Ok K -> 
  discretize sq tn pi expm bal K dt meth pw q = Ok o -> sampled K dt meth o ->
  (forall Kd, disc_state sq tn pi expm bal lcmf eps G dt meth pw q = Ok Kd -> numerics_ok f eig tz Kd) ->
  exists O, [/\ disc_t G dt meth pw q = Ok O, tf_sampled G dt meth O, tq O = dq o, tpw O = dpw o &
   forall (F : fieldType) (g : {rmorphism R -> F}) (z : F),
     [/\ forall s, same_value g K (dst o) z s -> tf_same g G (ttf O) z s,
       value_at_inf g K (dst o) z -> tf_inf g G (ttf O) z &
       regS g (dst o) z -> forall i j, (i < tp G)%N -> (j < tm G)%N ->
         dfT g (ttf O) z i j /\ evT g (ttf O) z i j = ev g (dst o) z i j]].
Proof.
move=> hc hd edt EK ED [wd ddt nd sd md] hnum; have [w _ _ _] := hc.
have [K' [EK' gc n0 gK gG]] := tts_dyn hc hd; move: EK'; rewrite EK => -[eK]; rewrite -{K'}eK in gc n0 gK.
have [_ _ dK _ _] := gc; rewrite edt in dK.
move: ED; rewrite /discretize dK gK; case km: (str_in meth known_methods) => //=.
case Ea: (discretize_args _ _ _ _ _ _ _ _ _ _) => [[[[Ad Bd] Cd] Dd]|] //=.
case Em: (mkS Ad Bd Cd Dd (Some dt)) => [Kd|] //= ED.
have ds : disc_state sq tn pi expm bal lcmf eps G dt meth pw q = Ok Kd by rewrite /disc_state EK /= Ea /= Em.
have eo : dst o = Kd by move: ED; case: ifP => _; [case=> <-|case: ifP => _; [case: ifP => // _ [<-]|case=> <-]].
rewrite eo in wd ddt nd sd md *.
have n0d : (0 < snn Kd)%N by rewrite nd.
have [H [EH wH sH dH vH]] := back_conv w gc wd n0d sd (hnum Kd ds).
rewrite ddt in dH; rewrite /discretize_t km edt gG ds /= EH /=.
move: ED; case: (String.eqb meth "lft") => [[<-]|]; first by eexists; split; [reflexivity| | | |].
case: (str_in meth m_tustin) => [|[<-]]; last by eexists; split; [reflexivity| | | |].
by case: (~~ _) => // -[<-]; eexists; split; [reflexivity| | | |].
Qed.

(* poles of G and of its conversion *)
Lemma lftNa_pole G K c : good_conv G K -> (0 < snn K)%N -> c != 0 -> all_def idm G c^-1 ->
  adet (asub (aeye (snn K)) (ascale c (sa K))) != 0.
Proof.
move=> [wK _ _ _ hv] n0 c0 ad; have [r _] := hv R idm _ ad.
have [_ [eA eA' _ _ _]] := wfS_dyn wK (dyn_not_gain wK n0).
rewrite -/(lftNa _ _ _) -(lftNa_unit idm) // /lftN.
suff -> : 1%:M - idm c *: mxof idm (snn K) (snn K) (sa K) = c *: (c^-1%:M - mxof idm (snn K) (snn K) (sa K)).
  by rewrite unitmxZ ?unitfE.
by rewrite scalerBr scale_scalar_mx mulfV.
Qed.

(* undiscretize, for any way of computing the matrices *)
Lemma lift_undisc G K O dt m0 pw q q' A1 B1 C1 D1 Kc : convertible eps G -> dynamic (XT G) -> ttf O = G -> tdt G = Some dt ->
  transfer_to_state lcmf eps G = Ok K ->
  let m1 := if m0 is Some m then m else odflt "tustin"%string (tmeth O) in
  (if String.eqb m1 "lft" then
     if ~~ isSome (tq O) && ~~ isSome q then Err ValueError else Ok (if isSome q then q else tq O)
   else Ok q) = Ok q' ->
  undiscretize_args sq tn pi logm bal nz K dt m1 pw q' = Ok (A1, B1, C1, D1) -> mkS A1 B1 C1 D1 None = Ok Kc ->
  wfS Kc -> snn Kc = snn K -> sshape Kc = sshape K -> sdt Kc = None ->
  (forall Kc, undisc_state sq tn pi logm bal nz lcmf eps G dt m1 pw q' = Ok Kc -> numerics_ok f eig tz Kc) ->
  exists H, [/\ undisc_t O m0 pw q = Ok H, wfT H, tshape H = tshape G, tdt H = None &
   forall (F : fieldType) (g : {rmorphism R -> F}) (s : F),
     [/\ forall z, same_value g K Kc s z -> tf_same g G H s z, value_at_inf g K Kc s -> tf_inf g G H s &
       regS g Kc s -> forall i j, (i < tp G)%N -> (j < tm G)%N -> dfT g H s i j /\ evT g H s i j = ev g Kc s i j]].
Proof.
move=> hc hd eO edt EK m1 eq' ea e1 e2 e3 e4 e6 hnum; have [w _ _ _] := hc.
have [K' [EK' gc n0 gK gG]] := tts_dyn hc hd; move: EK'; rewrite EK => -[eK]; rewrite -{K'}eK in gc n0 gK.
have us : undisc_state sq tn pi logm bal nz lcmf eps G dt m1 pw q' = Ok Kc.
  by rewrite /undisc_state EK [bind _ _]/= ea [bind _ _]/= e1.
have n0d : (0 < snn Kc)%N by rewrite e3.
have [H [EH wH sH dH vH]] := back_conv w gc e2 n0d e4 (hnum _ us).
exists H; split=> //; last by rewrite dH.
by rewrite /undiscretize_t eO edt -/m1 eq' [bind _ _]/= gG us [bind _ _]/=.
Qed.

(* by the star product with r *)
Lemma undisc_lft O G dt m0 pw q q' r : convertible eps G -> dynamic (XT G) -> ttf O = G -> tdt G = Some dt ->
  let m1 := if m0 is Some m then m else odflt "tustin"%string (tmeth O) in
  (if String.eqb m1 "lft" then
     if ~~ isSome (tq O) && ~~ isSome q then Err ValueError else Ok (if isSome q then q else tq O)
   else Ok q) = Ok q' ->
  (forall T, undiscretize_args sq tn pi logm bal nz T dt m1 pw q' = simple_lft r (sa T) (sb T) (sc T) (sd T)) ->
  shp r = (2, 2)%N -> (get r 1 1 = 0 \/ get r 1 1 != 0 /\ all_def idm G (get r 1 1)^-1) ->
  (forall Kc, undisc_state sq tn pi logm bal nz lcmf eps G dt m1 pw q' = Ok Kc -> numerics_ok f eig tz Kc) ->
  exists H, [/\ undisc_t O m0 pw q = Ok H, wfT H, tshape H = tshape G, tdt H = None &
   forall (F : fieldType) (g : {rmorphism R -> F}) (s : F),
    let r11 := g (get r 0 0) in let k := g (get r 1 1) * (s - r11) + g (get r 0 1) * g (get r 1 0) in
     (forall z, k != 0 -> z * k = s - r11 -> tf_same g G H s z) /\ (k = 0 -> s != r11 -> tf_inf g G H s)].
Proof.
move=> hc hd eO edt m1 eq' ea sr hp hnum; have [w _ _ _] := hc.
have [K [EK gc n0 gK gG]] := tts_dyn hc hd; have [wK _ _ _ _] := gc.
have [[wA wB wC wD] [eA eB eC eC' eB']] := wfS_dyn wK gK.
have dN : adet (lftNa (snn K) (get r 1 1) (sa K)) != 0.
  case: hp => [->|[c0 ad]]; first exact: lftNa0.
  exact: lftNa_pole gc n0 c0 ad.
have sA : shp (sa K) = (snn K, snn K) by rewrite /shp eA.
have sB : shp (sb K) = (snn K, smn K) by rewrite /shp eB eB'.
have sC : shp (sc K) = (spn K, snn K) by rewrite /shp eC eC'.
have [A1 [B1 [C1 [D1 [eL _ _ _]]]]] := simple_lftP sr sA sB sC (erefl : shp (sd K) = (spn K, smn K)) wD dN.
have [e1 e2 e3 e4 e5] := lft_model (dt := None) wK gK sr isT dN eL.
have ea' : undiscretize_args sq tn pi logm bal nz K dt m1 pw q' = Ok (A1, B1, C1, D1) by rewrite ea eL.
have [H [EH wH sH dH vH]] := lift_undisc hc hd eO edt EK eq' ea' e1 e2 e3 e4 erefl hnum.
exists H; split=> // F g s; have [v1 v2 _] := vH F g s; have [u1 u2] := e5 F g s; split.
  by move=> z k0 zk; apply: v1; exact: u1.
by move=> k0 zk; apply: v2; exact: u2.
Qed.

(* the backward difference *)
Lemma undisc_back O G dt m0 pw q : convertible eps G -> dynamic (XT G) -> ttf O = G -> tdt G = Some dt -> 0 < dt ->
  sq dt ^+ 2 = dt ->
  let m1 := if m0 is Some m then m else odflt "tustin"%string (tmeth O) in
  str_in m1 m_backward -> all_def idm G 0 ->
  (forall Kc, undisc_state sq tn pi logm bal nz lcmf eps G dt m1 pw q = Ok Kc -> numerics_ok f eig tz Kc) ->
  exists H, [/\ undisc_t O m0 pw q = Ok H, wfT H, tshape H = tshape G, tdt H = None &
   forall (F : fieldType) (g : {rmorphism R -> F}) (s : F),
     (forall z, z * (1 - s * g dt) = 1 -> tf_same g G H s z) /\ (1 - s * g dt = 0 -> tf_inf g G H s)].
Proof.
move=> hc hd eO edt dt0 esq m1 hm ad hnum; have [w _ _ _] := hc.
have [K [EK gc n0 gK gG]] := tts_dyn hc hd; have [wK _ _ _ hv] := gc.
have [[wA wB wC wD] [eA eB eC eC' eB']] := wfS_dyn wK gK.
have h0 : dt != 0 by rewrite gt_eqF.
have t0 : sq dt != 0 by apply/eqP => e; move: h0; rewrite -esq e expr0n eqxx.
have nl : String.eqb m1 "lft" = false by exact: m_bw_lft.
have eq' : (if String.eqb m1 "lft" then
     if ~~ isSome (tq O) && ~~ isSome q then Err ValueError else Ok (if isSome q then q else tq O)
   else Ok q) = Ok q by rewrite nl.
have [r0 _] := hv R idm 0 ad.
have dA : adet (sa K) != 0.
  rewrite -(unit_adet idm (erefl : nr (sa K) = snn K)); move: r0; rewrite /regS /regular raddf0 sub0r.
  by rewrite -scaleN1r unitmxZ // unitfE oppr_eq0 oner_eq0.
have := @undisc_args_backward R sq tn pi logm bal nz K dt m1 q pw hm.
rewrite (np_solveP (n := snn K) (k := snn K)) // (negbTE dA).
set iA := amul _ _; have i1 : nr iA = snn K by rewrite nr_mk.
have i2 : nc iA = snn K by rewrite nc_mk.
have eI (F : fieldType) (g : {rmorphism R -> F}) : mxof g (snn K) (snn K) iA = invmx (mxof g (snn K) (snn K) (sa K)).
  by rewrite (@mxof_mul _ _ _ _ (snn K)) ?nr_mk ?nc_mk // mxof_eye mulmx1 mxof_inv.
clearbody iA; rewrite [bind (Ok _) _]/= np_sub_same ?i1 ?i2 // [bind (Ok _) _]/=.
rewrite np_matmul_same ?i2 ?eB // [bind (Ok _) _]/= np_matmul_same ?eC // [bind (Ok _) _]/=.
rewrite np_matmul_same ?nc_mk ?i2 ?eB // [bind (Ok _) _]/= np_sub_same ?nr_mk ?nc_mk ?eC' ?eB' // [bind (Ok _) _]/=.
set Ac := amap _ _; set Bc := ascale _ _; set Cc := ascale _ _; set Dc := asub _ _ => ea.
have e1 : mkS Ac Bc Cc Dc None = Ok (St Ac Bc Cc Dc false None).
  by apply: mkS_ok; rewrite ?nr_mk ?nc_mk ?i1 ?i2 ?eC ?eC' ?eB'.
have e2 : wfS (St Ac Bc Cc Dc false None).
  by apply: wfS_mk; rewrite ?wfa_mk ?nr_mk ?nc_mk ?i1 ?i2 ?eC ?eC' ?eB'.
have e3 : snn (St Ac Bc Cc Dc false None) = snn K by [].
have e4 : sshape (St Ac Bc Cc Dc false None) = sshape K by [].
have [H [EH wH sH dH vH]] := lift_undisc hc hd eO edt EK eq' ea e1 e2 e3 e4 erefl hnum.
exists H; split=> // F g s; have [v1 v2 _] := vH F g s.
have gd : g dt != 0 by rewrite fmorph_eq0.
have gs : g (sq dt) * g (sq dt) = g dt by rewrite -rmorphM -expr2 esq.
have uA : mxof g (snn K) (snn K) (sa K) \in unitmx by rewrite unit_adet.
have EA : mxof g (snn K) (snn K) Ac = (g dt)^-1 *: (1%:M - invmx (mxof g (snn K) (snn K) (sa K))).
  rewrite (mxof_map (h' := fun x => x / g dt)) ?nr_mk ?nc_mk //; last by move=> x; rewrite fmorph_div.
  by rewrite mxof_sub // mxof_eye eI; apply/matrixP => i j; rewrite !mxE mulrC.
have EB : mxof g (snn K) (smn K) Bc = (g (sq dt))^-1 *: (invmx (mxof g (snn K) (snn K) (sa K)) *m mxof g (snn K) (smn K) (sb K)).
  by rewrite mxof_scale ?nr_mk ?nc_mk // (@mxof_mul _ _ _ _ (snn K)) // eI div1r fmorphV.
have EC : mxof g (spn K) (snn K) Cc = (g (sq dt))^-1 *: (mxof g (spn K) (snn K) (sc K) *m invmx (mxof g (snn K) (snn K) (sa K))).
  by rewrite mxof_scale ?nr_mk ?nc_mk // (@mxof_mul _ _ _ _ (snn K)) // eI div1r fmorphV.
have ED : mxof g (spn K) (smn K) Dc = mxof g (spn K) (smn K) (sd K) -
    mxof g (spn K) (snn K) (sc K) *m invmx (mxof g (snn K) (snn K) (sa K)) *m mxof g (snn K) (smn K) (sb K).
  by rewrite mxof_sub // (@mxof_mul _ _ _ _ (snn K)) ?nr_mk ?nc_mk // (@mxof_mul _ _ _ _ (snn K)) // eI.
split.
  move=> z zu; apply: v1; rewrite /same_value /regS /evalS e3 /= EA EB EC ED.
  exact: (back_mx _ _ _ gd gs uA zu).
move=> u0; apply: v2; rewrite /value_at_inf /regS /evalS e3 /= EA EB EC ED.
exact: (back_mx_inf _ _ _ gd gs uA u0).
Qed.
End Lift.

(* identities of rational functions from their values at infinitely many points *)
Section Points.
Variable R : realFieldType.
Implicit Types (G H : tf R).
Let idm := [rmorphism of @idfun R].

Lemma pevid (p : seq R) (s : R) : pev idm p s = (polyhi p).[s].
Proof. by rewrite /pev map_poly_id. Qed.

Lemma tf_generic G (P Q : {poly R}) : wfT G -> P != 0 ->
  (forall s, P.[s] != 0 -> all_def idm G s -> Q.[s] = 0) -> Q = 0.
Proof.
move=> w P0 h; case: (wfTP w) => -[hp hm rN rD] hd hc hgain hdt.
pose D := \prod_(x < tp G) \prod_(y < tm G) polyhi (ent (td G) x y).
have D0 : D != 0.
  apply/prodf_neq0 => x _; apply/prodf_neq0 => y _; apply/eqP => e.
  have h0 := hd x y (ltn_ord x) (ltn_ord y).
  by have := head_polyhi h0; rewrite e eqxx.
have PD : P * D != 0 by rewrite mulf_neq0.
apply/eqP; rewrite -(mulIr_eq0 _ (mulIf PD)); apply/eqP.
apply: poly_ext0 => s; rewrite !hornerM.
case: (eqVneq P.[s] 0) => [->|Ps]; first by rewrite mul0r mulr0.
case: (eqVneq D.[s] 0) => [->|Ds]; first by rewrite !mulr0.
rewrite h ?mul0r // => x y hx hy; rewrite /dfT pevid; move: Ds; rewrite /D horner_prod => /prodf_neq0/(_ (Ordinal hx) isT).
by rewrite horner_prod => /prodf_neq0/(_ (Ordinal hy) isT).
Qed.

Lemma tf_eq_points G H (P : {poly R}) : wfT G -> P != 0 ->
  (forall s, P.[s] != 0 -> tf_same idm G H s s) -> tf_eq G H.
Proof.
move=> w P0 h i j hi hj; apply/eqP; rewrite -subr_eq0; apply/eqP; apply: (tf_generic w P0) => s Ps ad.
have [dH e] := h s Ps ad i j hi hj; have dG := ad i j hi hj.
move: dH dG e; rewrite /dfT /evT !pevid hornerD hornerN !hornerM => dH dG e.
apply/eqP; rewrite subr_eq0; apply/eqP.
apply: (mulIf (invr_neq0 dH)); by rewrite mulrAC e divfK // mulfK.
Qed.

Lemma round_tf G O H zm (P : {poly R}) : wfT G -> P != 0 -> tshape O = tshape G ->
  (forall s, P.[s] != 0 -> tf_same idm G O (zm s) s /\ tf_same idm O H s (zm s)) -> tf_eq G H.
Proof.
move=> w P0 sO h; have [ep em] : tp O = tp G /\ tm O = tm G by rewrite /tp /tm sO.
apply: (tf_eq_points w P0) => s Ps ads i j hi hj; have [h1 h2] := h s Ps.
have adz : all_def idm O (zm s) by move=> x y; rewrite ep em => hx hy; have [] := h1 ads x y hx hy.
have := h2 adz i j; rewrite ep em => /(_ hi hj) [d ->]; split=> //.
by have [] := h1 ads i j hi hj.
Qed.

Lemma dyn_map G H zm (P : {poly R}) : wfT G -> P != 0 -> tshape H = tshape G ->
  (forall s, P.[s] != 0 -> tf_same idm G H (zm s) s) -> dynamic (XT G) -> dynamic (XT H).
Proof.
move=> w P0 sh h [i [j [hi hj ne]]]; have [ep em] : tp H = tp G /\ tm H = tm G by rewrite /tp /tm sh.
exists i, j; rewrite ep em; split=> //; set c := _ / _; apply: contra ne => /eqP e.
have eG : polyhi (ent (tn G) i j) = c *: polyhi (ent (td G) i j).
  apply/eqP; rewrite -subr_eq0; apply/eqP; apply: (tf_generic w P0) => s Ps ad.
  have [dH] := h s Ps ad i j hi hj; have := ad i j hi hj; move: dH; rewrite /dfT /evT !pevid e hornerZ => dH dG.
  rewrite mulfK // => eH; by rewrite hornerD hornerN hornerZ eH divfK // subrr.
case: (wfTP w) => _ hd _ _ _; have h0 := hd i j hi hj.
rewrite eG coefZ; have -> : (polyhi (ent (td G) i j))`_(size (ent (td G) i j)).-1 = head 0 (ent (td G) i j).
  case: (ent (td G) i j) h0 => [|a d] /= h0; first by rewrite eqxx in h0.
  by rewrite coef_polyhi /= ltnS leqnn subSS subnn.
by rewrite mulfK.
Qed.
End Points.
