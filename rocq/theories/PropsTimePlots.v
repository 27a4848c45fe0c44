(* Property C83: what step_response_plot and impulse_response_plot draw.
   A curve TC is (system, style entry, stairs, row, column, abscissae, ordinates).  curves_of, shortest, step_value,
   impulse_value, ready and pgrid are in SpecTimePlots.v; nsty is the number of entries of the style. *)
From mathcomp Require Import all_ssreflect all_algebra zify.
From Verif Require Import Base BaseTheory Spec ModelPoly PolyTheory PolyOps LcmTheory ModelState Denote StateTheory StateProps
  ModelTransfer DenoteT TransferTheory TransferProps ConvertOps ConvertState SpecConvert PropsConvert
  ModelSim SpecSim SimTheory SpecFeedbackT FeedbackTTheory SpecDiff DiffTheory ModelSimT PropsSimT
  ModelPlots PlotsTheory ModelTimePlots SpecTimePlots TimePlotsTheory.

Set Implicit Arguments.
Unset Strict Implicit.
Unset Printing Implicit Defensive.

Import Order.TTheory GRing.Theory Num.Theory.
Local Open Scope ring_scope.

Section C83.
Variable R : realFieldType.
Variables (sq tn' : R -> R) (pi : R) (expm : arr R -> arr R) (bal : arr R -> arr R * seq R).
Variables (rtol atol : R).
Variable auto : state R -> bool -> nat * R.
Variables (sca : arr R -> seq R) (svd : arr R -> arr R * arr R * arr R) (eps : R).
Local Notation lcmf := (haroldlcm sca svd 0).
Local Notation stepr := (step_resp sq tn' pi expm bal rtol atol auto lcmf eps).
Local Notation impulser := (impulse_resp sq tn' pi expm bal rtol atol auto lcmf eps).
Local Notation stepp := (step_plot sq tn' pi expm bal rtol atol auto lcmf eps).
Local Notation impulsep := (impulse_plot sq tn' pi expm bal rtol atol auto lcmf eps).
Let G0 : psys R := PT (Tf [::] [::] false None).
Implicit Types (Gs : seq (psys R)) (G : psys R).

(* the first n systems are simulated: system k gives ys k at the times tss k, one N-by-p array for every input *)
Definition simulated (resp : psys R -> option (nd R) -> res (yout R * seq R)) Gs t (ys : nat -> yout R) (tss : nat -> seq R) n :=
  forall k, (k < n)%N -> let G := nth G0 Gs k in
    [/\ resp G t = Ok (ys k, tss k), (0 < size (tss k))%N, psiso G = (prows G == 1%N) && (pcols G == 1%N), (0 < pcols G)%N &
     shaped G (ys k) (tss k)].
(* the response of system k from input col to output row *)
Definition samples_of (ys : nat -> yout R) (tss : nat -> seq R) k row col : seq R :=
  mkseq (fun i => get (channel (ys k) col) i row) (size (tss k)).

Lemma step_take Gs t nsty : (0 < size Gs)%N -> stepp Gs t nsty =
  time_loop stepr [seq (i, Some i, nth G0 Gs i) | i <- iota 0 (minn nsty (size Gs))] t.
Proof. by move=> h; rewrite /step_plot h -map_take take_iota. Qed.

(* the curves of all systems, in order, and nothing else; the axis ends with the shortest simulation *)
Theorem C83_step_curves_partial Gs t nsty ys tss : (0 < size Gs <= nsty)%N -> simulated stepr Gs t ys tss (size Gs) ->
  exists x, stepp Gs t nsty =
    Ok (flatten [seq curves_of k (Some k) (nth G0 Gs k) (tss k) (samples_of ys tss k) | k <- iota 0 (size Gs)], x) /\
    shortest tss (size Gs) x.
Proof.
case/andP=> g0 gn h; rewrite step_take // (minn_idPr gn).
by have [x [-> hx]] := time_loopP Some g0 h; exists x.
Qed.
Theorem C83_impulse_curves_partial Gs t nsty ys tss : (0 < size Gs)%N -> simulated impulser Gs t ys tss (size Gs) ->
  exists x, impulsep Gs t nsty =
    Ok (flatten [seq curves_of k None (nth G0 Gs k) (tss k) (samples_of ys tss k) | k <- iota 0 (size Gs)], x) /\
    shortest tss (size Gs) x.
Proof.
move=> g0 h; rewrite /impulse_plot g0.
by have [x [-> hx]] := time_loopP (fun _ => None) g0 h; exists x.
Qed.

(* False: with fewer style entries than systems the last systems are not drawn (step response) *)
Theorem C83_step_style_refuted Gs t nsty ys tss : (0 < nsty < size Gs)%N -> simulated stepr Gs t ys tss nsty ->
  exists cs x, [/\ stepp Gs t nsty = Ok (cs, x), forall c, List.In c cs -> (tc_sys c < nsty)%N & shortest tss nsty x].
Proof.
case/andP=> n0 gn h; have [x [e hx]] := time_loopP Some n0 h.
eexists _, x; split; first by rewrite step_take ?(ltn_trans n0 gn) // (minn_idPl (ltnW gn)) e; reflexivity.
  move=> c; have : forall k, k \in iota 0 nsty -> (k < nsty)%N by move=> k; rewrite mem_iota.
  elim: (iota 0 nsty) => //= k l IH hl /List.in_app_iff[|]; last by apply: IH => i hi; apply: hl; rewrite inE hi orbT.
  have hk := hl k (mem_head _ _); rewrite /curves_of.
  elim: (iota 0 (prows _)) => //= r rs IHr /List.in_app_iff[|//].
  by elim: (iota 0 (pcols _)) => //= a l' IHl [<-|].
by [].
Qed.
(* False: the style is not used at all (impulse response) *)
Theorem C83_impulse_style_refuted Gs t nsty nsty' : impulsep Gs t nsty = impulsep Gs t nsty' /\
  forall cs x, impulsep Gs t nsty = Ok (cs, x) -> forall c, List.In c cs -> tc_style c = None.
Proof.
split=> // cs x; rewrite /impulse_plot; case: ifP => // _; rewrite /time_loop.
set F := fun x : nat * option nat * psys R => _.
have key a r : F (a, None, nth G0 Gs a) = Ok r -> forall c, List.In c r.1 -> tc_style c = None.
  rewrite /F /=; case: (impulser _ _) => //= -[y ts]; case: ifP => // _.
  case E: (time_curves _ _ _ _) => [C|] //= [<-] c /=; move: E; rewrite /time_curves.
  have col (A : Type) (H : A -> res (tcurve R)) s C' : (forall z w, H z = Ok w -> tc_style w = None) ->
      collect H s = Ok C' -> List.In c C' -> tc_style c = None.
    move=> hH; elim: s C' => [|z s IH] C' /=; first by case=> <-.
    case Ez: (H z) => [w|] //=; case Es: (collect H s) => [r'|] //= [<-] /= [<-|]; [exact: hH Ez | exact: IH Es].
  case: ifP => _.
    by case: ifP => _ //= [<-] /= [<-|].
  by case: y => [Y|s]; apply: col => z w; case: ifP => // _ [<-].
elim: (iota 0 (size Gs)) cs x => [|a l IH] cs x //=.
case Ea: (F _) => [r|] //=; move: IH; case El: (collect F _) => [rs|] //= IH [<- _] c /List.in_app_iff[|].
  exact: key Ea c.
case: rs {El} IH => [|r' rs] // IH; exact: (IH _ _ erefl).
Qed.

(* the values for discrete systems *)
Hypotheses (r0 : 0 <= rtol) (a0 : 0 <= atol).
Hypotheses (hsca : forall a, sca_ok a (sca a)) (hsvd : forall C, wfa C -> svd_ok C (svd C)).

Lemma ready_dims dt G : ready eps dt G -> psiso G = (prows G == 1%N) && (pcols G == 1%N) /\ (0 < pcols G)%N.
Proof.
case=> _; case: G => G /= [].
  by move=> w m0; split.
by move=> w _ _ _; case: (wfTP w) => -[hp hm rN rD] _ _ _ _; split=> //; rewrite /tSISO is11E.
Qed.

Lemma step_ready dt G t ts N : ready eps dt G -> (1 < N)%N -> pgrid lcmf eps auto G true dt N t ts ->
  exists y, [/\ stepr G t = Ok (y, ts), size ts = N, shaped G y ts & forall row col, (row < prows G)%N -> (col < pcols G)%N ->
    step_value G row col (mkseq (fun i => get (channel y col) i row) (size ts))].
Proof.
case: G => G /= [ed hG] hN [K [eK hg]]; have es : size ts = N by case: hg => _ [].
  rewrite {}eK in hg; case: hG => w m0; rewrite /step_resp /simulate_step (time_gridP r0 a0 hN hg) [bind _ _]/=.
  case: hg => _ ht; rewrite es.
  set U := aones N _; have hu : as_input N (smn G) (N2 U) U by split; rewrite ?wfa_mk //; left.
  have [_ [y [f1 f2 f3]]] := sim_any sq tn' pi expm bal r0 a0 w m0 ed hN hu ht.
  exists y; split=> //; first by split=> // j hj; rewrite es; case: (f3 j hj).
  move=> row col hr hc; exists (Ordinal hr), (Ordinal hc); split=> // k; rewrite size_mkseq => hk; rewrite nth_mkseq //.
  have [_ f4] := f3 col hc; rewrite (sample_get _ _ hr) f4 //.
  rewrite (eq_response _ _ _ _ _ (v := fun l => delta_mx (Ordinal hc) 0)).
    rewrite response_const mulmx_suml summxE; apply: eq_bigr => i _; rewrite -colE mxE //.
  move=> l hl; apply/matrixP => i c; rewrite !mxE [c]ord1 eqxx andbT -val_eqE /=; case: eqP => // _.
  by rewrite get_mk // (leq_ltn_trans hl).
have [y [e1 e2 e3]] := C82_step sq tn' pi expm bal hsca hsvd r0 a0 hG ed hN eK hg.
have tp0 : (0 < tp G)%N by case: hG => w _ _ _; case: (wfTP w) => -[].
exists y; split=> //; first by split=> // j hj; have [-> _] := e3 0%N j tp0 hj; rewrite es.
move=> row col hr hc; rewrite size_mkseq es; have [_] := e3 row col hr hc; apply: solves_ext => // k hk.
by rewrite nth_mkseq.
Qed.

Lemma impulse_ready dt G t ts N : ready eps dt G -> (1 < N)%N -> pgrid lcmf eps auto G false dt N t ts ->
  exists y, [/\ impulser G t = Ok (y, ts), size ts = N, shaped G y ts & forall row col, (row < prows G)%N -> (col < pcols G)%N ->
    impulse_value dt G row col (mkseq (fun i => get (channel y col) i row) (size ts))].
Proof.
case: G => G /= [ed hG] hN [K [eK hg]]; have es : size ts = N by case: hg => _ [].
  rewrite {}eK in hg; case: hG => w m0; rewrite /impulse_resp /simulate_impulse (time_gridP r0 a0 hN hg) [bind _ _]/=.
  case: hg => _ ht; rewrite es (ltnW hN).
  set U := mk N _ _; have hu : as_input N (smn G) (N2 U) U by split; rewrite ?wfa_mk //; left.
  have [_ [y [f1 f2 f3]]] := sim_any sq tn' pi expm bal r0 a0 w m0 ed hN hu ht.
  exists y; split=> //; first by split=> // j hj; rewrite es; case: (f3 j hj).
  move=> row col hr hc; exists (Ordinal hr), (Ordinal hc); split=> // k; rewrite size_mkseq => hk; rewrite nth_mkseq //.
  have [_ f4] := f3 col hc; rewrite (sample_get _ _ hr) f4 //.
  rewrite (eq_response _ _ _ _ _ (v := fun l => if l == 0%N then dt^-1 *: delta_mx (Ordinal hc) 0 else 0)).
    by rewrite response_pulse -scalemxAr -colE !mxE.
  move=> l hl; apply/matrixP => i c; rewrite !mxE; case l0: (l == 0%N); rewrite !mxE; last first.
    by case: eqP => // _; rewrite get_mk ?l0 // (leq_ltn_trans hl).
  rewrite [c]ord1 eqxx andbT -val_eqE /=; case: eqP => _; rewrite ?mulr0 // mulr1 get_mk ?l0 ?div1r //.
  exact: leq_ltn_trans hk.
have [y [e1 e2 e3]] := C82_impulse sq tn' pi expm bal hsca hsvd r0 a0 hG ed hN eK hg.
have tp0 : (0 < tp G)%N by case: hG => w _ _ _; case: (wfTP w) => -[].
exists y; split=> //; first by split=> // j hj; have [-> _] := e3 0%N j tp0 hj; rewrite es.
move=> row col hr hc; rewrite size_mkseq es; have [_] := e3 row col hr hc; apply: solves_ext => // k hk.
by rewrite nth_mkseq.
Qed.

(* dts, Ns and tss: sampling period, number of samples and times of system k *)
Theorem C83_step_discrete Gs t nsty (dts : nat -> R) (Ns : nat -> nat) tss : (0 < size Gs <= nsty)%N ->
  (forall k, (k < size Gs)%N -> [/\ ready eps (dts k) (nth G0 Gs k), (1 < Ns k)%N &
     pgrid lcmf eps auto (nth G0 Gs k) true (dts k) (Ns k) t (tss k)]) ->
  exists vals x, [/\ stepp Gs t nsty =
      Ok (flatten [seq curves_of k (Some k) (nth G0 Gs k) (tss k) (vals k) | k <- iota 0 (size Gs)], x),
    shortest tss (size Gs) x &
    forall k row col, (k < size Gs)%N -> (row < prows (nth G0 Gs k))%N -> (col < pcols (nth G0 Gs k))%N ->
      size (vals k row col) = Ns k /\ step_value (nth G0 Gs k) row col (vals k row col)].
Proof.
move=> hs h.
have [ys hy] : exists ys : nat -> yout R, forall k, (k < size Gs)%N -> let G := nth G0 Gs k in
    [/\ stepr G t = Ok (ys k, tss k), size (tss k) = Ns k, shaped G (ys k) (tss k) & forall row col, (row < prows G)%N -> (col < pcols G)%N ->
    step_value G row col (samples_of ys tss k row col)].
  pose ys k := if stepr (nth G0 Gs k) t is Ok (y, _) then y else Y3 [::].
  exists ys => k hk; have [h1 h2 h3] := h k hk; have [y [e1 e2 e3 e4]] := step_ready h1 h2 h3.
  by have ey : ys k = y; [rewrite /ys e1 | rewrite /samples_of ey; split].
have sm : simulated stepr Gs t ys tss (size Gs).
  move=> k hk; have [e1 e2 e3 _] := hy k hk; have [h1 h2 _] := h k hk; have [d1 d2] := ready_dims h1.
  by split=> //; rewrite e2 (ltnW h2).
have [x [e hx]] := C83_step_curves_partial hs sm.
exists (samples_of ys tss), x; split=> // k row col hk hr hc; have [_ e2 _ e4] := hy k hk.
by split; [rewrite size_mkseq | exact: e4].
Qed.
Theorem C83_impulse_discrete Gs t nsty (dts : nat -> R) (Ns : nat -> nat) tss : (0 < size Gs)%N ->
  (forall k, (k < size Gs)%N -> [/\ ready eps (dts k) (nth G0 Gs k), (1 < Ns k)%N &
     pgrid lcmf eps auto (nth G0 Gs k) false (dts k) (Ns k) t (tss k)]) ->
  exists vals x, [/\ impulsep Gs t nsty =
      Ok (flatten [seq curves_of k None (nth G0 Gs k) (tss k) (vals k) | k <- iota 0 (size Gs)], x),
    shortest tss (size Gs) x &
    forall k row col, (k < size Gs)%N -> (row < prows (nth G0 Gs k))%N -> (col < pcols (nth G0 Gs k))%N ->
      size (vals k row col) = Ns k /\ impulse_value (dts k) (nth G0 Gs k) row col (vals k row col)].
Proof.
move=> hs h.
have [ys hy] : exists ys : nat -> yout R, forall k, (k < size Gs)%N -> let G := nth G0 Gs k in
    [/\ impulser G t = Ok (ys k, tss k), size (tss k) = Ns k, shaped G (ys k) (tss k) & forall row col, (row < prows G)%N -> (col < pcols G)%N ->
    impulse_value (dts k) G row col (samples_of ys tss k row col)].
  pose ys k := if impulser (nth G0 Gs k) t is Ok (y, _) then y else Y3 [::].
  exists ys => k hk; have [h1 h2 h3] := h k hk; have [y [e1 e2 e3 e4]] := impulse_ready h1 h2 h3.
  by have ey : ys k = y; [rewrite /ys e1 | rewrite /samples_of ey; split].
have sm : simulated impulser Gs t ys tss (size Gs).
  move=> k hk; have [e1 e2 e3 _] := hy k hk; have [h1 h2 _] := h k hk; have [d1 d2] := ready_dims h1.
  by split=> //; rewrite e2 (ltnW h2).
have [x [e hx]] := C83_impulse_curves_partial nsty hs sm.
exists (samples_of ys tss), x; split=> // k row col hk hr hc; have [_ e2 _ e4] := hy k hk.
by split; [rewrite size_mkseq | exact: e4].
Qed.
End C83.
Print Assumptions C83_step_curves_partial.
Print Assumptions C83_impulse_curves_partial.
Print Assumptions C83_step_style_refuted.
Print Assumptions C83_impulse_style_refuted.
Print Assumptions C83_step_discrete.
Print Assumptions C83_impulse_discrete.

(* a State and a Transfer model with two inputs and outputs, period 1, three samples *)
Definition exMd : state Q := St (sa exM) (sb exM) (sc exM) (sd exM) false (Some 1).
Definition ex2 : seq (psys Q) := [:: PS exMd; PT dM].
Definition t3 : seq Q := mkseq (fun k => k%:R * 1) 3.
Example C83_ex (sca : arr Q -> seq Q) svd auto step k : (forall a, sca_ok a (sca a)) -> (forall C, wfa C -> svd_ok C (svd C)) ->
  (k < size ex2)%N -> let G := nth (PT (Tf [::] [::] false None)) ex2 k in
  ready (1 / 100%:~R) 1 G /\ pgrid (haroldlcm sca svd 0) (1 / 100%:~R) auto G step 1 3 (Some (N1 t3)) t3.
Proof.
move=> h1 h2; have hc := C82_ex_convertible.2; have [K eK [_ _ edt _ _]] := tts_anyP (haroldlcm_okf h1 h2) hc.
have tok dt : dt = Some 1 -> time_ok dt 1 3 (Some (N1 t3)) t3.
  move=> ->; split; [by vm_compute | by [] | | by right | by []].
  by case=> [|[|i]] h; [vm_compute | vm_compute | ].
case: k => [_|[_|k h]]; last by exfalso; move: h; rewrite /= !ltnS ltn0.
  split; first by split; [exact: erefl | split; vm_compute].
  by exists exMd; split; [exact: erefl | split; [exact: erefl | exact: tok]].
split; first by split; [exact: erefl | exact: hc].
by exists K; split; [exact: eK | split; [exact: erefl | rewrite edt; exact: tok]].
Qed.
(* the step responses of z + 3 over z^2 + 3 z + 2 and its impulse response *)
Example C83_ex_value (sq tn' : rat -> rat) (pi : rat) expm bal auto :
  let t := Some (N1 t3) in
  let ok r := if r is Ok ([:: c], x) then (x == 2%:R) && tc_stairs c && (tc_x c == t3) && ((tc_row c, tc_col c) == (0, 0)%N) else false in
  let val (r : res (seq (tcurve Q) * Q)) := if r is Ok ([:: c], x) then tc_y c else [::] in
  let r1 := step_plot sq tn' pi expm bal 0 0 auto exl (1 / 100%:~R) [:: PT dH] t 1 in
  let r2 := impulse_plot sq tn' pi expm bal 0 0 auto exl (1 / 100%:~R) [:: PT dH] t 1 in
  ok r1 && ok r2 && (val r1 == [:: 0; 1; 1]) && (val r2 == [:: 0; 1; 0]).
Proof. by vm_compute. Qed.
(* two systems and one style entry: one curve *)
Example C83_ex_style (sq tn' : rat -> rat) (pi : rat) expm bal auto :
  if step_plot sq tn' pi expm bal 0 0 auto exl (1 / 100%:~R) [:: PT dH; PT dH] (Some (N1 t3)) 1 is Ok (cs, _)
  then map (@tc_sys Q) cs == [:: 0%N] else false.
Proof. by vm_compute. Qed.
