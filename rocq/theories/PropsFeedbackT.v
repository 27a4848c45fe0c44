(* Properties C34 and C35 for any operands: feedback of State models, Transfers and arrays.
   Notation (SpecFeedbackT.v): xval f p m X s is the transfer matrix of the operand at s, xdef says that s is not a pole,
   xinf is its value at infinity, loop_dt the common sampling period.  xok says that the operands are consistent objects
   which transfer_to_state converts without loss (C31, C32); numerics_ok that the eigenvalues and zeros that are computed
   for the conversion of the closed loop K are right (C33). *)
From mathcomp Require Import all_ssreflect all_algebra.
From Verif Require Import Base BaseTheory Spec ModelPoly PolyTheory PolyOps LcmTheory ModelState Denote StateTheory StateProps
  ModelTransfer DenoteT TransferTheory TransferOps TransferProps ConvertTheory ConvertOps ConvertMimo ConvertState PropsConvert
  SpecSim RingTac SpecConvert ModelConvert ConvertTf PropsStt ModelFeedback FeedbackTheory ModelFeedbackT SpecFeedbackT
  FeedbackTTheory.

Set Implicit Arguments.
Unset Strict Implicit.
Unset Printing Implicit Defensive.

Import Order.TTheory GRing.Theory Num.Theory.
Local Open Scope ring_scope.

Definition numerics_ok (R : realFieldType) (L : fieldType) (f : {rmorphism R -> L}) eig tz (K : state R) : Prop :=
  eig_ok f (sa K) (eig (sa K)) /\
  forall i j, (i < spn K)%N -> (j < smn K)%N -> tz_ok f (sa K) (bcol K j) (crow K i) (tz (sa K) (bcol K j) (crow K i)).

Section Any.
Variables (R : realFieldType) (L : fieldType) (f : {rmorphism R -> L}).
Variables (re absL : L -> R) (eig : arr R -> seq L) (tz : arr R -> arr R -> arr R -> seq L) (lsq : arr R -> arr R -> arr R).
Variables (sca : arr R -> seq R) (svd : arr R -> arr R * arr R * arr R) (eps : R) (ill : arr R -> bool).
Let lcmf := haroldlcm sca svd 0.
Let fb := feedback_any f re absL eig tz lsq lcmf eps ill.

Lemma any_feedback X Y (neg : bool) p m :
  re_ok f re -> abs_ok f absL -> lsq_ok lsq -> (forall a, sca_ok a (sca a)) -> (forall C, wfa C -> svd_ok C (svd C)) ->
  (forall M, ill M = (adet M == 0)) ->
  xok eps X -> xok eps Y -> dts_agree X Y -> xshape X = (p, m) -> xshape Y = (m, p) -> (0 < p)%N -> (0 < m)%N ->
  (forall K, fb_state lcmf eps ill X Y neg = Ok K -> numerics_ok f eig tz K) ->
  let DX := xinf p m X in let DY := xinf m p Y in
  \det (1%:M - DY *m DX) != 0 ->
  (if neg then (dynamic X \/ dynamic Y) /\ DY *m DX = 0
   else [\/ dynamic X, dynamic Y | DX != 0 /\ DY != 0]) ->
  (back X Y -> [\/ dynamic X, dynamic Y | (p == 1%N) = (m == 1%N)]) ->
  exists K, [/\ fb X Y neg = Ok K, rok K /\ is_transfer (ofres K) = back X Y, xshape (ofres K) = (p, m),
    xdt (ofres K) = Some (loop_dt X Y) &
    forall (F : fieldType) (g : {rmorphism R -> F}) (s : F), xdef g X s -> xdef g Y s ->
      let c : F := if neg then -1 else 1 in
      let Xs := xval g p m X s in let Ys := xval g m p Y s in
      (1%:M - c *: (Ys *m Xs) \in unitmx) ->
      xdef g (ofres K) s /\ (1%:M - c *: (Xs *m Ys)) *m xval g p m (ofres K) s = Xs].
Proof.
move=> h1 h2 h3 h4 h5 hill hX hY hdt sX sY p0 m0 hnum DX DY hdet hn hb.
have hl := haroldlcm_okf h4 h5.
have [g [h [K [ec eK [wK [pK mK]] dK [yK _ fK vK]]]]] := any_loop hl hill hX hY hdt sX sY hdet hn.
rewrite /fb /feedback_any ec [bind _ _]/= eK [bind _ _]/=.
have hnK : numerics_ok f eig tz K by apply: hnum; rewrite /fb_state ec.
have shK : sshape K = (p, m) by rewrite /sshape -/(spn K) -/(smn K) pK mK.
case bk: (back X Y) hb => hb; last first.
  exists (RS K); split=> //=; first by rewrite dK.
  by move=> F k s dX dY u; have [r v] := vK F k s dX dY; rewrite r; split=> //; apply: v; rewrite r.
have [tX tY] : ~~ is_state X /\ ~~ is_state Y by move: bk => /and3P[].
have [T [ET wT sT dT vT]] : exists T, [/\ state_to_transfer f re absL eig tz lsq lcmf eps K = Ok T, wfT T,
    tshape T = (p, m), tdt T = sdt K & forall (F : fieldType) (k : {rmorphism R -> F}) (s : F), regS k K s ->
      forall i j, (i < p)%N -> (j < m)%N -> dfT k T s i j /\ evT k T s i j = ev k K s i j].
  case gK: (sgain K).
    have nK : snn K = 0%N by have [] := wfS_gain wK gK.
    have e : (spn K == 1%N) = (smn K == 1%N).
      by rewrite pK mK; case: (hb isT) => // d; [have := yK (or_introl d)|have := yK (or_intror d)]; rewrite nK.
    have [|||T [ET /andP[wT gT] sT dT vT]] := @C33_gain_partial R L f re absL eig tz lsq lcmf eps K wK gK.
      by rewrite pK.
      by rewrite mK.
      by [].
    exists T; split=> //; first by rewrite sT.
    move=> F k s r i j hi hj; split; last by apply: vT; rewrite ?pK ?mK.
    have [[_ _ _ _] hd _ hg _] := wfTP wT; rewrite gT in hg.
    have [eTp eTm] : tp T = p /\ tm T = m by rewrite /tp /tm sT shK.
    have := hd i j; rewrite eTp eTm => /(_ hi hj); move: hg => /esym/all2P/(_ i j); rewrite eTp eTm => /(_ hi hj)/eqP.
    by rewrite /dfT; case: (ent (td T) i j) => [|c []] //= _; rewrite pev1 fmorph_eq0.
  have nK : (0 < snn K)%N by rewrite lt0n -(fK tX tY) gK.
  have [e1 e2] := hnK.
  have [||T [ET wT sT dT vT]] := @C33_dynamic R L f re absL eig tz lsq sca svd eps K h1 h2 h3 h4 h5 wK gK nK _ _ e1 e2.
    by rewrite pK.
    by rewrite mK.
  exists T; split=> //; first by rewrite sT.
  by move=> F k s r i j hi hj; move: (vT i j); rewrite pK mK => /(_ hi hj)[_ /(_ F k s r)].
exists (RT T); rewrite ET /=; split=> //.
- by rewrite dT dK.
move=> F k s dX dY u; have [r v] := vK F k s dX dY; have rK : regS k K s by rewrite r.
have [eTp eTm] : tp T = p /\ tm T = m by rewrite /tp /tm sT.
split; first by move=> i j; rewrite eTp eTm => hi hj; have [] := vT F k s rK i j hi hj.
rewrite -{2}(v rK); congr (_ *m _); apply/matrixP => i j; rewrite mxE evalSE.
by have [] := vT F k s rK i j (ltn_ord i) (ltn_ord j).
Qed.


(* ------------------------------------------------------------------ C34 *)
(* positive feedback of any two operands.  Not covered: static loops with a zero gain (C34_zero_gain_refuted) and static
   Transfers with one input or one output but not both (C34_static_vector_refuted) *)
Theorem C34_any_operands_partial X Y p m :
  re_ok f re -> abs_ok f absL -> lsq_ok lsq -> (forall a, sca_ok a (sca a)) -> (forall C, wfa C -> svd_ok C (svd C)) ->
  (forall M, ill M = (adet M == 0)) ->
  xok eps X -> xok eps Y -> dts_agree X Y -> xshape X = (p, m) -> xshape Y = (m, p) -> (0 < p)%N -> (0 < m)%N ->
  (forall K, fb_state lcmf eps ill X Y false = Ok K -> numerics_ok f eig tz K) ->
  \det (1%:M - xinf m p Y *m xinf p m X) != 0 ->
  [\/ dynamic X, dynamic Y | xinf p m X != 0 /\ xinf m p Y != 0] ->
  (back X Y -> [\/ dynamic X, dynamic Y | (p == 1%N) = (m == 1%N)]) ->
  exists K, [/\ fb X Y false = Ok K, rok K /\ is_transfer (ofres K) = back X Y, xshape (ofres K) = (p, m),
    xdt (ofres K) = Some (loop_dt X Y) &
    forall (F : fieldType) (g : {rmorphism R -> F}) (s : F), xdef g X s -> xdef g Y s ->
      let Xs := xval g p m X s in let Ys := xval g m p Y s in let Ks := xval g p m (ofres K) s in
      (1%:M - Ys *m Xs \in unitmx) -> xdef g (ofres K) s /\ (1%:M - Xs *m Ys) *m Ks = Xs].
Proof.
move=> h1 h2 h3 h4 h5 h6 hX hY hd sX sY p0 m0 hk hdet hn hb.
have [K [e1 e2 e3 e4 e5]] := any_feedback (neg := false) h1 h2 h3 h4 h5 h6 hX hY hd sX sY p0 m0 hk hdet hn hb.
by exists K; split=> // F g s dX dY Xs Ys Ks u; have := e5 F g s dX dY; rewrite /= !scale1r; exact.
Qed.

(* ------------------------------------------------------------------ C35 *)
(* negative feedback of any two operands, when the loop has no algebraic part (otherwise C35_static_loop_refuted) *)
Theorem C35_any_operands_partial X Y p m :
  re_ok f re -> abs_ok f absL -> lsq_ok lsq -> (forall a, sca_ok a (sca a)) -> (forall C, wfa C -> svd_ok C (svd C)) ->
  (forall M, ill M = (adet M == 0)) ->
  xok eps X -> xok eps Y -> dts_agree X Y -> xshape X = (p, m) -> xshape Y = (m, p) -> (0 < p)%N -> (0 < m)%N ->
  (forall K, fb_state lcmf eps ill X Y true = Ok K -> numerics_ok f eig tz K) ->
  dynamic X \/ dynamic Y -> xinf m p Y *m xinf p m X = 0 ->
  exists K, [/\ fb X Y true = Ok K, rok K /\ is_transfer (ofres K) = back X Y, xshape (ofres K) = (p, m),
    xdt (ofres K) = Some (loop_dt X Y) &
    forall (F : fieldType) (g : {rmorphism R -> F}) (s : F), xdef g X s -> xdef g Y s ->
      let Xs := xval g p m X s in let Ys := xval g m p Y s in let Ks := xval g p m (ofres K) s in
      (1%:M + Ys *m Xs \in unitmx) -> xdef g (ofres K) s /\ (1%:M + Xs *m Ys) *m Ks = Xs].
Proof.
move=> h1 h2 h3 h4 h5 h6 hX hY hd sX sY p0 m0 hk hdyn h0.
have [||K [e1 e2 e3 e4 e5]] := any_feedback (neg := true) h1 h2 h3 h4 h5 h6 hX hY hd sX sY p0 m0 hk _ (conj hdyn h0).
- by rewrite h0 subr0 det1 oner_neq0.
- by move=> _; case: hdyn => d; [constructor 1|constructor 2].
by exists K; split=> // F g s dX dY Xs Ys Ks u; have := e5 F g s dX dY; rewrite /= !scaleN1r !opprK; exact.
Qed.

(* ------------------------------------------------------------------ C34 *)
(* False of the code: a static Transfer loop which is a row or a column is computed and then refused, because line 92
   gives Transfer a matrix which it takes for the coefficients of one polynomial *)
Theorem C34_static_vector_refuted X Y p m :
  (forall a, sca_ok a (sca a)) -> (forall C, wfa C -> svd_ok C (svd C)) -> (forall M, ill M = (adet M == 0)) ->
  xok eps X -> xok eps Y -> dts_agree X Y -> xshape X = (p, m) -> xshape Y = (m, p) -> (0 < p)%N -> (0 < m)%N ->
  back X Y -> static X -> static Y -> (p == 1%N) != (m == 1%N) ->
  \det (1%:M - xinf m p Y *m xinf p m X) != 0 -> xinf p m X != 0 -> xinf m p Y != 0 ->
  fb X Y false = Err ValueError.
Proof.
move=> h4 h5 hill hX hY hdt sX sY p0 m0 bk stX stY hpm hdet hx hy; have hl := haroldlcm_okf h4 h5.
have [g [h [K [ec eK [wK [pK mK]] dK [yK nK fK vK]]]]] :=
  any_loop (neg := false) hl hill hX hY hdt sX sY hdet (Or33 _ _ (conj hx hy)).
have [tX tY] : ~~ is_state X /\ ~~ is_state Y by move: bk => /and3P[].
rewrite /fb /feedback_any ec [bind _ _]/= eK [bind _ _]/= bk.
by rewrite C33_vector_gain_refuted ?pK ?mK // fK // nK.
Qed.

(* operands of different shape or different sampling period are refused *)
Theorem C34_any_mismatch X Y neg p m p' m' :
  (forall a, sca_ok a (sca a)) -> (forall C, wfa C -> svd_ok C (svd C)) ->
  xok eps X -> xok eps Y -> xshape X = (p, m) -> xshape Y = (p', m') ->
  ~ dts_agree X Y \/ (p', m') <> (m, p) ->
  fb X Y neg = Err ValueError.
Proof.
move=> h4 h5 hX hY sX sY hne; have hl := haroldlcm_okf h4 h5.
rewrite /fb /feedback_any (any_mismatch hl hX hY sX sY hne) //.
Qed.

End Any.
Print Assumptions C34_any_operands_partial.
Print Assumptions C35_any_operands_partial.
Print Assumptions C34_static_vector_refuted.
Print Assumptions C34_any_mismatch.

(* Concrete cases: 1/(s + 1) with the array [2] around it, positive feedback: the Transfer 1/(s - 1) *)
Definition xX : fbx Q := XT (Tf [:: [:: [:: 1]]] [:: [:: [:: 1; 1]]] false (Some 1)).
Definition xY : fbx Q := XA (qa [:: [:: 2%:Q]]).
Definition xill (M : arr Q) : bool := adet M == 0.
Example C34_any_ex_ok : [/\ xok (1 / 100%:~R) xX, xok (1 / 100%:~R) xY, dts_agree xX xY, back xX xY &
  xshape xX = (1, 1)%N /\ xshape xY = (1, 1)%N].
Proof.
split=> //; split=> //; first by rewrite wfTE; vm_compute.
by move=> _; rewrite /ent /= polyhi1 size_polyC oner_eq0.
Qed.
Example C34_any_ex_loop : dynamic xX /\ \det (1%:M - xinf 1 1 xY *m xinf 1 1 xX) != 0 /\ xinf 1 1 xY *m xinf 1 1 xX = 0.
Proof.
have z : xinf 1 1 xX = 0 by apply/matrixP => i j; rewrite !mxE !ord1 /= coef_polyhi /= mul0r.
split; last by rewrite z mulmx0 subr0 det1 oner_neq0.
exists 0%N, 0%N; split=> //; rewrite coef_polyhi /= mul0r scale0r head_polyhi //=.
Qed.
Example C34_any_ex_value neg (a := if neg then -3%:Q else 1) :
  (if feedback_any [rmorphism of @idfun Q] id (fun x => `|x|) (fun _ => [:: a]) (fun _ _ _ => [::])
     (@slsq Q) exl (1 / 100%:~R) xill xX xY neg is Ok (RT K)
   then (tn K == [:: [:: [:: 1]]]) && (td K == [:: [:: [:: 1; -a]]]) && (tdt K == Some 1) else false)
  && (if fb_state exl (1 / 100%:~R) xill xX xY neg is Ok K then aeq (sa K) (qa [:: [:: a]]) && (sshape K == (1, 1)%N) else false).
Proof. by rewrite /a {a}; case: neg; vm_compute. Qed.
