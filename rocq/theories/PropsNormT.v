(* Property C85: system_norm of Transfer models.  K is the State model made by transfer_to_state; the conditions on the
   numerics (freq_req, eig_req, h2_req) are those of C66 and C71 for K.  respT, respT_inf, impulse_response_of and energyT are in
   SpecNormT.v, convertible and dynamic in SpecFeedbackT.v. *)
From mathcomp Require Import all_ssreflect all_algebra zify.
From Coq Require Import String.
From Verif Require Import Base BaseTheory Spec ModelPoly PolyTheory PolyOps LcmTheory ModelState Denote StateTheory StateProps
  ModelTransfer DenoteT TransferTheory TransferOps TransferProps ConvertOps ConvertMimo ConvertState SpecConvert PropsConvert
  ModelFeedback ModelFeedbackT SpecFeedbackT FeedbackTheory FeedbackTTheory PropsFeedbackT SpecSim SimTheory SpecDiff DiffTheory DiffConvert ModelSimT PropsSimT
  ModelFreq SpecFreq FreqTheory PropsFreq ModelLyap SpecLyap ModelNorm SpecNorm NormTheory PropsNorm PropsNormInf PropsNormMimo
  ModelDiscT SpecDiscT DiscTTheory SpecNormT.

Set Implicit Arguments.
Unset Strict Implicit.
Unset Printing Implicit Defensive.

Import Order.TTheory GRing.Theory Num.Theory.
Local Open Scope ring_scope.

Section Aux.
Variable R : realFieldType.
Implicit Types (G : tf R) (K : state R).
Local Notation mx := (mxof [rmorphism of @idfun R]).
Local Notation mk_ K := (markov (mx (snn K) (snn K) (sa K)) (mx (snn K) (smn K) (sb K)) (mx (spn K) (snn K) (sc K)) (mx (spn K) (smn K) (sd K))).

Lemma conv_shape G K : good_conv G K -> spn K = tp G /\ smn K = tm G.
Proof. by case=> _ e _ _ _; rewrite /tp /tm -e. Qed.

Lemma markov_solves G K i j : wfT G -> good_conv G K -> (i < tp G)%N -> (j < tm G)%N ->
  forall (hi : (i < spn K)%N) (hj : (j < smn K)%N) N,
  solves (ent (tn G) i j) (ent (td G) i j) (fun k => if k == 0%N then 1 else 0) (fun k => mk_ K k (Ordinal hi) (Ordinal hj)) N.
Proof.
move=> w gc ti tj hi hj N.
have := @solves_channel R 0 0 (lexx 0) (lexx 0) G K (fun k => if k == 0%N then 1 else 0) i j N w gc ti tj hi.
apply: solves_ext => // k _.
pose dj : 'cV[R]_(smn K) := \col_l (if l == j :> nat then 1 else 0).
have -> : response (Amx K) (Bmx K) (Cmx K) (Dmx K) 0 (fun k0 => \col_l (if l == j :> nat then if k0 == 0%N then 1 else 0 else 0)) k =
  response (Amx K) (Bmx K) (Cmx K) (Dmx K) 0 (fun k0 => if k0 == 0%N then dj else 0) k.
  have e k0 : \col_l (if l == j :> nat then if k0 == 0%N then 1 else 0 else 0) = (if k0 == 0%N then dj else 0) :> 'cV[R]_(smn K).
    by case: eqP => _; apply/matrixP => a b; rewrite !mxE //; case: ifP.
  by rewrite /response e; congr (_ + _ + _); apply: eq_bigr => q _; rewrite e.
rewrite response_pulse mxE (bigD1 (Ordinal hj)) //= !mxE eqxx mulr1 big1 ?addr0 // => l hl.
by rewrite !mxE; case: eqP => [e|_]; [case/eqP: hl; apply: val_inj | rewrite mulr0].
Qed.

(* the feedthrough of K is the value of G at infinity *)
Lemma feed_inf G K i j : wfT G -> good_conv G K -> (i < tp G)%N -> (j < tm G)%N -> get (sd K) i j = at_inf G i j.
Proof.
move=> w gc ti tj; have [ep em] := conv_shape gc; case: (wfTP w) => -[hp hm rN rD] hd hc _ _.
have hi : (i < spn K)%N by rewrite ep. have hj : (j < smn K)%N by rewrite em.
have h0 := hd i j ti tj; have := @markov_solves G K i j w gc ti tj hi hj 1 0%N isT.
rewrite /at_inf; case: (ent (td G) i j) h0 => [|a d] /= a0; first by rewrite eqxx in a0.
rewrite !big_ord_recl /= /past /= !big1 ?addr0; [|by move=> k _; rewrite mulr0..].
by rewrite subn0 mulr1 mxE => <-; rewrite mulrAC divff ?mul1r.
Qed.

Lemma resp_conv (L : fieldType) (f : {rmorphism R -> L}) G K s : good_conv G K -> all_def f G s ->
  regS f K s /\ resp f K s = respT f G s.
Proof.
move=> gc ad; have [ep em] := conv_shape gc; case: gc => _ _ _ _ h; have [r e] := h _ f s ad; split=> //.
by rewrite /resp /respT ep em; apply: mk_ext => i j hi hj; exact: e.
Qed.
Lemma feed_conv (L : fieldType) (f : {rmorphism R -> L}) G K : wfT G -> good_conv G K -> feed f K = respT_inf f G.
Proof.
move=> w gc; have [ep em] := conv_shape gc.
rewrite /feed /respT_inf -/(spn K) -/(smn K) ep em; apply: mk_ext => i j hi hj; by rewrite (feed_inf w gc).
Qed.

Lemma energy_conv G K h N : wfT G -> good_conv G K -> impulse_response_of G h ->
  energy (mx (snn K) (snn K) (sa K)) (mx (snn K) (smn K) (sb K)) (mx (spn K) (snn K) (sc K)) (mx (spn K) (smn K) (sd K)) N = energyT G h N.
Proof.
move=> w gc hh; have [ep em] := conv_shape gc; rewrite /energy /energyT; apply: eq_bigr => k _.
have key p m (M : 'M[R]_(p, m)) (g : nat -> nat -> R) : (forall i j : nat, forall hi : (i < p)%N, forall hj : (j < m)%N,
    M (Ordinal hi) (Ordinal hj) = g i j) -> forall p' m', p = p' -> m = m' -> frob2 M = \sum_(i < p') \sum_(j < m') g i j ^+ 2.
  move=> e p' m' <- <-; rewrite /frob2; apply: eq_bigr => i _; apply: eq_bigr => j _.
  by case: i => i hi; case: j => j hj; rewrite e.
apply: (key _ _ _ (fun i j => h i j k)) => // i j hi hj.
have ti : (i < tp G)%N by rewrite -ep. have tj : (j < tm G)%N by rewrite -em.
have [_ hd _ _ _] := wfTP w.
have := @C82_unique R 0 0 (lexx 0) (lexx 0) _ _ _ _ _ k.+1 (hd i j ti tj) (@markov_solves G K i j w gc ti tj hi hj k.+1) (hh i j ti tj k.+1) k (leqnn _); exact.
Qed.

Lemma impulse_exists G K : wfT G -> good_conv G K -> exists h, impulse_response_of G h.
Proof.
move=> w gc; have [ep em] := conv_shape gc.
exists (fun i j k => if insub i is Some i' then if insub j is Some j' then mk_ K k i' j' else 0 else 0).
move=> i j ti tj N.
have hi : (i < spn K)%N by rewrite ep. have hj : (j < smn K)%N by rewrite em.
by have := @markov_solves G K i j w gc ti tj hi hj N; apply: solves_ext => // k _; rewrite !insubT.
Qed.
End Aux.

Section C85.
Variables (R : rcfType) (L : fieldType) (f : {rmorphism R -> L}).
Variables (qr hess : arr R -> arr R * arr R) (ii : L) (expL : L -> L) (twopi : R).
Variables (tol : R) (schur : arr R -> arr R * arr R) (qz : arr R -> arr R -> arr R * arr R * arr R * arr R).
Variable X0 : nat -> arr R.
Variables (sq : R -> R) (atol sqeps : R).
Variable eigs : arr R -> seq (R * R).
Variable cabs : R * R -> R.
Variable norm2 : arr L -> R.
Variable poles : state R -> seq (R * R).
Variable stable : state R -> bool.
Variable conj : {rmorphism L -> L}.
Variables (sca : arr R -> seq R) (svd : arr R -> arr R * arr R * arr R) (eps : R).
Hypotheses (hsca : forall a, sca_ok a (sca a)) (hsvd : forall C, wfa C -> svd_ok C (svd C)).
Local Notation lcmf := (haroldlcm sca svd 0).
Local Notation hl := (haroldlcm_okf hsca hsvd).
Local Notation mx := (mxof [rmorphism of @idfun R]).
Local Notation norm_t := (system_norm_t f qr hess ii expL twopi tol schur qz X0 sq atol sqeps eigs cabs norm2 poles stable lcmf eps).
Local Notation "G '~>' K" := (transfer_to_state lcmf eps G = Ok K) (at level 70).
Implicit Types (G : tf R) (K : state R).

(* The H-infinity norm of a continuous Transfer without poles on the imaginary axis is l (1 + sqrt(eps)) where l is the
   largest gain at some frequency or at infinity, and every gain at every frequency is below l (1 + 2 sqrt(eps)). *)
Theorem C85_hinf G K et v : complexes f ii conj -> cartesian f ii -> convertible eps G -> dynamic (XT G) -> tdt G = None ->
  G ~> K -> freq_req qr hess K -> 0 < sqeps -> 0 <= et -> eig_req f ii sqeps eigs K v ->
  (forall w : R, induced_norm f conj (\matrix_(i < tp G, j < tm G) evT f G (ii * f w) i j) (norm2 (respT f G (ii * f w)))) ->
  0 <= norm2 (respT_inf f G) -> (forall w : R, all_def f G (ii * f w)) ->
  norm_t G PInf et = Ok (NVal v) -> v != 0 ->
  exists l, [/\ v = l * (1 + sqeps),
    l = norm2 (respT_inf f G) \/ (exists w : R, l = norm2 (respT f G (ii * f w))) &
    forall w : R, norm2 (respT f G (ii * f w)) < l * (1 + 2%:R * sqeps)].
Proof.
move=> cx cc hc hd ed eK fq s0 et0 eq_ hn d0 ad; rewrite /system_norm_t eK [bind _ _]/= => E v0.
have [K' [eK' gc n0 gK gG]] := tts_dyn hsca hsvd hc hd.
move: eK'; rewrite eK => -[e']; rewrite -{K'}e' in gc n0 gK.
have [w _ _ _] := hc; have [wK eS edt _ _] := gc; have [ep em] := conv_shape gc.
case: (wfTP w) => -[hp hm rN rD] _ _ _ _.
have rs x := resp_conv gc (ad x).
have key p m s g r : p = spn K -> m = smn K -> (forall i j, (i < p)%N -> (j < m)%N -> ev f K s i j = g i j) ->
   induced_norm f conj (\matrix_(i < p, j < m) g i j) r -> induced_norm f conj (evalS f (spn K) (smn K) K s) r.
  move=> e1 e2; subst p m => e; congr (induced_norm f conj _ r); apply/matrixP => i j; by rewrite evalSE mxE -e.
have := @C71_continuous R L f qr hess ii expL twopi tol schur qz X0 sq atol sqeps eigs cabs norm2 poles stable conj K et v cx cc wK gK.
case=> //.
- by rewrite edt.
- by rewrite ep.
- by rewrite em.
- move=> x; rewrite (rs x).2; apply: key (hn x) => //.
  by move=> i j hi hj; case: gc => _ _ _ _ h; have [_ ->] := h _ f _ (ad x).
- by rewrite (feed_conv f w gc).
- by move=> x; exact: (rs x).1.
move=> l [h1 h2 h3]; exists l; split=> //; last by move=> x; rewrite -(rs x).2.
by case: h2 => [->|[x ->]]; [left; rewrite (feed_conv f w gc) | right; exists x; rewrite (rs x).2].
Qed.

End C85.

Section C85r.
Variables (R : realFieldType) (L : fieldType) (f : {rmorphism R -> L}).
Variables (qr hess : arr R -> arr R * arr R) (ii : L) (expL : L -> L) (twopi : R).
Variables (tol : R) (schur : arr R -> arr R * arr R) (qz : arr R -> arr R -> arr R * arr R * arr R * arr R).
Variable X0 : nat -> arr R.
Variables (sq : R -> R) (atol sqeps : R).
Variable eigs : arr R -> seq (R * R).
Variable cabs : R * R -> R.
Variable norm2 : arr L -> R.
Variable poles : state R -> seq (R * R).
Variable stable : state R -> bool.
Variables (sca : arr R -> seq R) (svd : arr R -> arr R * arr R * arr R) (eps : R).
Hypotheses (hsca : forall a, sca_ok a (sca a)) (hsvd : forall C, wfa C -> svd_ok C (svd C)).
Local Notation lcmf := (haroldlcm sca svd 0).
Local Notation hl := (haroldlcm_okf hsca hsvd).
Local Notation mx := (mxof [rmorphism of @idfun R]).
Local Notation norm_t := (system_norm_t f qr hess ii expL twopi tol schur qz X0 sq atol sqeps eigs cabs norm2 poles stable lcmf eps).
Local Notation "G '~>' K" := (transfer_to_state lcmf eps G = Ok K) (at level 70).
Implicit Types (G : tf R) (K : state R).

(* The square of the 2-norm of a stable discrete Transfer that vanishes at infinity is the energy of the impulse response. *)
Theorem C85_h2_discrete_partial G K dt et v : convertible eps G -> dynamic (XT G) -> tdt G = Some dt ->
  G ~> K -> stable K -> powers_vanish (mx (snn K) (snn K) (sa K)) -> h2_req schur X0 K ->
  (forall i j, (i < tp G)%N -> (j < tm G)%N -> `|at_inf G i j| <= atol) ->
  (forall h t, impulse_response_of G h -> 0 <= t -> tends (energyT G h) t -> is_sqrt t (sq t)) ->
  norm_t G P2 et = Ok v ->
  exists x, [/\ v = NVal x, 0 <= x, (exists h, impulse_response_of G h) &
    forall h, impulse_response_of G h -> tends (energyT G h) (x ^+ 2)].
Proof.
move=> hc hd ed eK st pv hr h0 hsq; rewrite /system_norm_t eK [bind _ _]/= => E.
have [K' [eK' gc n0 gK gG]] := tts_dyn hsca hsvd hc hd.
move: eK'; rewrite eK => -[e']; rewrite -{K'}e' in gc n0 gK.
have [w _ _ _] := hc; have [wK eS edt _ _] := gc; have [ep em] := conv_shape gc.
have [h hh] := impulse_exists w gc.
have tE u l : impulse_response_of G u -> tends (energyT G u) l <-> tends (energy (mx (snn K) (snn K) (sa K))
    (mx (snn K) (smn K) (sb K)) (mx (spn K) (snn K) (sc K)) (mx (spn K) (smn K) (sd K))) l.
  by move=> hu; split=> ht e /ht[N0 H]; exists N0 => N /H; rewrite (energy_conv N w gc hu).
have := @C66_discrete_partial R L f qr hess ii expL twopi tol schur qz X0 sq atol sqeps eigs cabs norm2 poles stable K dt et v wK gK; case=> //.
- by rewrite edt ed.
- by move=> i j; rewrite ep em => hi hj; rewrite (feed_inf w gc) // h0.
- by move=> t t0 /(tE h t hh); exact: hsq.
move=> x [e1 e2 e3 _]; exists x; split=> //; first by exists h.
by move=> u hu; apply/(tE u (x ^+ 2) hu).
Qed.

(* The 2-norm of a stable continuous Transfer that vanishes at infinity is computed from the gramian of a realisation *)
Theorem C85_h2_continuous_partial G K et v : convertible eps G -> dynamic (XT G) -> tdt G = None ->
  G ~> K -> stable K -> h2_req schur X0 K ->
  (forall i j, (i < tp G)%N -> (j < tm G)%N -> `|at_inf G i j| <= atol) -> norm_t G P2 et = Ok v ->
  (forall s : L, all_def f G s -> regS f K s /\ forall i j, (i < tp G)%N -> (j < tm G)%N -> ev f K s i j = evT f G s i j) /\
  exists X, [/\ X^T = X, @gram_c _ K X & v = NVal (sq (\tr (mx (tp G) (snn K) (sc K) *m X *m (mx (tp G) (snn K) (sc K))^T)))].
Proof.
move=> hc hd ed eK st hr h0; rewrite /system_norm_t eK [bind _ _]/= => E.
have [K' [eK' gc n0 gK gG]] := tts_dyn hsca hsvd hc hd.
move: eK'; rewrite eK => -[e']; rewrite -{K'}e' in gc n0 gK.
have [w _ _ _] := hc; have [wK eS edt _ gv] := gc; have [ep em] := conv_shape gc.
split; first by move=> s; exact: gv.
rewrite -ep; apply: (@C66_continuous R L f qr hess ii expL twopi tol schur qz X0 sq atol sqeps eigs cabs norm2 poles stable K et v) => //; first by rewrite edt.
by move=> i j; rewrite ep em => hi hj; rewrite (feed_inf w gc) // h0.
Qed.

(* When the results are inf *)
Theorem C85_infinite G K et : convertible eps G -> G ~> K ->
  (norm_t G P2 et = Ok NInf <-> ~~ stable K \/ exists i j, [/\ (i < tp G)%N, (j < tm G)%N & atol < `|at_inf G i j|]) /\
  (norm_t G PInf et = Ok NInf <-> ~~ stable K).
Proof.
move=> hc eK; rewrite /system_norm_t eK [bind _ _]/=; have [K' eK' gc] := tts_anyP hl hc.
move: eK'; rewrite eK => -[e']; rewrite -{K'}e' in gc; have [w _ _ _] := hc; have [ep em] := conv_shape gc.
split; last exact: C71_infinite.
have H : system_norm f qr hess ii expL twopi tol schur qz X0 sq atol sqeps eigs cabs norm2 poles stable K P2 et = Ok NInf <-> _ :=
  @C66_infinite R L f qr hess ii expL twopi tol schur qz X0 sq atol sqeps eigs cabs norm2 poles stable K et.
rewrite ep em in H; split=> [/H|h].
  by case=> [h|[i [j [hi hj h]]]]; [left | right; exists i, j; rewrite -(feed_inf w gc)].
by apply/H; case: h => [h|[i [j [hi hj h]]]]; [left | right; exists i, j; rewrite (feed_inf w gc)].
Qed.

(* other values of p are refused before anything is computed *)
Theorem C85_other G et : norm_t G POther et = Err ValueError. Proof. by []. Qed.

(* False for static gains: the zero gain, whose 2-norm is 0, and all gains for the H-infinity norm raise *)
Theorem C85_gain_refuted G K et : convertible eps G -> tgain G -> G ~> K -> stable K -> poles K = [::] ->
  norm_t G PInf et = Err ValueError /\
  ((forall i j, (i < tp G)%N -> (j < tm G)%N -> at_inf G i j = 0) -> 0 <= atol -> norm_t G P2 et = Err ValueError).
Proof.
move=> hc hg eK st hp; rewrite /system_norm_t eK [bind _ _]/=; have [K' eK' gc] := tts_anyP hl hc.
move: eK'; rewrite eK => -[e']; rewrite -{K'}e' in gc; have [w hn _ _] := hc; have [ep em] := conv_shape gc.
have [K' [E' /andP[wK gK] _ _ _]] := tts_gainP eps lcmf w hg (hn hg).
move: E'; rewrite eK => -[e'']; rewrite -{K'}e'' in wK gK.
split; first exact: C71_gain_refuted.
move=> h0 a0; apply: C66_gain_refuted => // i j; rewrite ep em => hi hj; by rewrite (feed_inf w gc) // h0.
Qed.
End C85r.
Print Assumptions C85_hinf.
Print Assumptions C85_h2_discrete_partial.
Print Assumptions C85_h2_continuous_partial.
Print Assumptions C85_infinite.
Print Assumptions C85_other.
Print Assumptions C85_gain_refuted.
