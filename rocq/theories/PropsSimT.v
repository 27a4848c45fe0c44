(* Property C82: simulating a discrete Transfer model solves its difference equations.  solves (SpecDiff.v) is the
   difference equation of num/den at rest before time 0; convertible (SpecFeedbackT.v) collects what transfer_to_state needs;
   channel y j, as_input and time_ok are in SpecSim.v. *)
From mathcomp Require Import all_ssreflect all_algebra zify.
From Coq Require Import String.
From Verif Require Import Base BaseTheory Spec ModelPoly PolyTheory PolyOps LcmTheory ModelState Denote StateTheory StateProps
  ModelTransfer DenoteT TransferTheory TransferOps TransferProps ConvertOps ConvertMimo ConvertState SpecConvert PropsConvert ModelObject ModelDiscrete
  DenoteD DiscreteTheory
  ModelSim SpecSim SimTheory SpecFeedbackT FeedbackTTheory SpecDiff DiffTheory DiffConvert ModelSimT.

Set Implicit Arguments.
Unset Strict Implicit.
Unset Printing Implicit Defensive.

Import Order.TTheory GRing.Theory Num.Theory.
Local Open Scope ring_scope.

Section C82.
Variable R : realFieldType.
Variables (sq tn' : R -> R) (pi : R) (expm : arr R -> arr R) (bal : arr R -> arr R * seq R).
Variables (rtol atol : R).
Variable auto : state R -> bool -> nat * R.
Variables (sca : arr R -> seq R) (svd : arr R -> arr R * arr R * arr R) (eps : R).
Hypotheses (hsca : forall a, sca_ok a (sca a)) (hsvd : forall C, wfa C -> svd_ok C (svd C)).
Local Notation lcmf := (haroldlcm sca svd 0).
Local Notation hl := (haroldlcm_okf hsca hsvd).
Hypotheses (r0 : 0 <= rtol) (a0 : 0 <= atol).
Local Notation simulate := (@simulate R sq tn' pi expm bal rtol atol).
Local Notation simulate_t := (@simulate_t R sq tn' pi expm bal rtol atol lcmf eps).
Local Notation step_t := (@simulate_step_t R sq tn' pi expm bal rtol atol auto lcmf eps).
Local Notation impulse_t := (@simulate_impulse_t R sq tn' pi expm bal rtol atol auto lcmf eps).
Implicit Types (G : tf R) (K : state R).

(* the equation and the past determine the present *)
Theorem C82_unique (num den : seq R) (u y y' : nat -> R) N : head 0 den != 0 ->
  solves num den u y N -> solves num den u y' N -> forall k, (k < N)%N -> y k = y' k.
Proof.
move=> d0 h h' k; elim/ltn_ind: k => k IH hk; have := h' k hk; rewrite -(h k hk).
case: den d0 {h h'} => [|a den] /= a0' ; first by rewrite eqxx in a0'.
rewrite !big_ord_recl /= /past !leq0n !subn0 => e; apply: (mulfI a0'); apply/esym.
move: e; rewrite (eq_bigr (fun i : 'I_(size den) => den`_i * (if (bump 0 i <= k)%N then y (k - bump 0 i)%N else 0))); first by move/addIr.
by move=> i _; case: leqP => // hi; rewrite IH // /bump /=; rewrite /bump /= in hi; lia.
Qed.

Lemma solves_ext (num den : seq R) (u u' y y' : nat -> R) N : (forall k, (k < N)%N -> u k = u' k) ->
  (forall k, (k < N)%N -> y k = y' k) -> solves num den u y N -> solves num den u' y' N.
Proof.
move=> eu ey h k hk.
have p (v v' : nat -> R) i : (forall k, (k < N)%N -> v k = v' k) -> past v' k i = past v k i.
  by move=> e; rewrite /past; case: ifP => // _; rewrite e //; lia.
under eq_bigr => i _ do rewrite (p _ _ _ ey).
by under [RHS]eq_bigr => i _ do rewrite (p _ _ _ eu); exact: h.
Qed.

(* simulation of a State model without initial state, gain or not *)
Lemma sim_any K dt u U t ts N : wfS K -> (0 < smn K)%N -> sdt K = Some dt -> (1 < N)%N ->
  as_input N (smn K) u U -> time_ok (sdt K) dt N t ts ->
  let R' := response (Amx K) (Bmx K) (Cmx K) (Dmx K) 0 in
  (exists Y, [/\ simulate K u t None false = Ok (Y2 Y, ts), shp Y = (N, spn K), wfa Y &
    forall k, (k < N)%N -> sample Y (spn K) k = R' (sample U (smn K)) k]) /\
  (exists y, [/\ simulate K u t None true = Ok (y, ts), channels y = smn K & forall j, (j < smn K)%N ->
    shp (channel y j) = (N, spn K) /\ forall k, (k < N)%N -> sample (channel y j) (spn K) k =
      R' (fun k => \col_i if i == j :> nat then get U k i else 0) k]).
Proof.
move=> w m0 ed hN hu ht; have hv : as_vector None (0 : 'cV[R]_(snn K)) by [].
case: (boolP (sgain K)) => [g|/negbTE ng]; last exact: (sim_disc sq tn' pi expm bal w ng m0 ed r0 a0 hN hu ht (or_intror erefl) hv).
move=> R'; have ht' := good_time_of r0 a0 hN ht.
have eR v k : R' v k = Dmx K *m v k.
  rewrite /R' /response mulmx0 add0r big1 ?add0r // => j _; have [n0 _ _ _ _] := wfS_gain w g.
  have -> : Cmx K = 0 by apply/matrixP => i i'; exfalso; case: i' => i'; rewrite n0.
  by rewrite !mul0mx.
have [Y [eY sY wY hY]] := sim_gain sq tn' pi expm bal w g m0 hN hu ht'.
split; first by exists Y; split=> // k hk; rewrite hY // eR.
case: (hu) => wU u1 u2 _.
case: (altP (smn K =P 1%N)) => m1.
  exists (Y2 Y); split; rewrite ?m1 //.
    by rewrite -eY /ModelSim.simulate m1 /= andbT; case: (check_u_t _ _ _ _) => //= -[].
  move=> j hj; have -> : j = 0%N by lia.
  split=> // k hk; rewrite [channel _ _]/= hY // eR; congr (_ *m _); apply/matrixP => i c; rewrite !mxE.
  by have -> : i = 0%N :> nat by have := ltn_ord i; lia.
exists (Y3 (mkseq (fun j => mk (nr U) (spn K) (fun i k => get U i j * get (sd K) k j)) (smn K))).
split; rewrite ?size_mkseq //=.
  rewrite /ModelSim.simulate /= (norm_u hN hu) (check_u_tP _ _ _ (ts := ts)) ?u1 ?u2 //= g m1.
  by rewrite (negbTE m1) andbF u1.
  by rewrite size_mkseq.
move=> j hj; rewrite nth_mkseq //; split; first by rewrite /shp nr_mk nc_mk u1.
move=> k hk; rewrite eR; apply/matrixP => i c; rewrite !mxE get_mk ?u1 //.
rewrite (bigD1 (Ordinal hj)) //= !mxE eqxx big1 ?addr0 1?mulrC // => l hl'.
by rewrite !mxE; case: eqP => [e|_]; [case/eqP: hl'; apply: val_inj | rewrite mulr0].
Qed.

(* the response of K to one channel solves the difference equation of the entry *)
Lemma solves_channel G K (v : nat -> R) i j N : wfT G -> good_conv G K -> (i < tp G)%N -> (j < tm G)%N ->
  forall hi : (i < spn K)%N,
  solves (ent (tn G) i j) (ent (td G) i j) v
   (fun k => response (Amx K) (Bmx K) (Cmx K) (Dmx K) 0 (fun k => \col_l if l == j :> nat then v k else 0) k (Ordinal hi) 0) N.
Proof.
move=> w gc hi hj hi'; have [wK eS _ _ _] := gc; case: (wfTP w) => -[hp hm rN rD] hd hc _ _.
have hjK : (j < smn K)%N by move: hj; rewrite /tm -eS.
have nz a b : (a < tp G)%N -> (b < tm G)%N -> polyhi (ent (td G) a b) != 0.
  move=> ha hb; have h := hd a b ha hb; rewrite -size_poly_gt0 size_polyhi_trim.
    by case: (ent _ _ _) h => //=; rewrite eqxx.
  by case: (ent _ _ _) h => [|c s] //=; rewrite eqxx.
pose b : 'cV[R]_(snn K) := \col_k get (sb K) k j; pose c : 'rV[R]_(snn K) := \row_k get (sc K) i k; pose d := get (sd K) i j.
pose w' k : 'cV[R]_(smn K) := \col_l if l == j :> nat then v k else 0.
pose x := traj (Amx K) (Bmx K) 0 w'.
have hb k : Bmx K *m w' k = v k *: b.
  apply/matrixP => r z; rewrite !mxE (bigD1 (Ordinal hjK)) //= !mxE eqxx big1 ?addr0 1?mulrC // => l hl'.
  by rewrite !mxE; case: eqP => [e|_]; [case/eqP: hl'; apply: val_inj | rewrite mulr0].
have sz := hc i j hi hj.
have hx t : x t.+1 = Amx K *m x t + v t *: b by rewrite /x /= hb.
have := @solves_state R (snn K) (Amx K) b c d _ _ (frac_id gc nz hi hj) sz v x hx erefl N.
apply: solves_ext => // k hk; rewrite responseE [RHS]mxE; congr (_ + _).
  by rewrite !mxE; apply: eq_bigr => l _; rewrite !mxE.
rewrite mxE (bigD1 (Ordinal hjK)) //= !mxE eqxx big1 ?addr0 // => l hl'.
by rewrite !mxE; case: eqP => [e|_]; [case/eqP: hl'; apply: val_inj | rewrite mulr0].
Qed.

(* the hypotheses on the call: a discrete model, at least two samples, an evenly spaced time array *)
Definition sim_call G (dt : R) (u : nd R) (U : arr R) (t : option (nd R)) (ts : seq R) (N : nat) : Prop :=
  [/\ convertible eps G, tdt G = Some dt, (1 < N)%N, as_input N (tm G) u U & time_ok (tdt G) dt N t ts].

(* every channel on its own: entry (i, j) *)
Theorem C82_channels G dt u U t ts N : sim_call G dt u U t ts N ->
  exists y, [/\ simulate_t G u t None true = Ok (y, ts), channels y = tm G & forall i j, (i < tp G)%N -> (j < tm G)%N ->
    shp (channel y j) = (N, tp G) /\
    solves (ent (tn G) i j) (ent (td G) i j) (fun k => get U k j) (fun k => get (channel y j) k i) N].
Proof.
case=> hc ed hN hu ht; have [K eK gc] := tts_anyP hl hc; have [wK eS edt _ _] := gc.
have w : wfT G by case: hc.
have ep : tp G = spn K by rewrite /tp -eS.
have em : tm G = smn K by rewrite /tm -eS.
have m0 : (0 < smn K)%N by rewrite -em; case: (wfTP w) => -[].
rewrite em -edt in hu ht; have edK : sdt K = Some dt by rewrite edt.
have [_ [y [e1 e2 e3]]] := sim_any wK m0 edK hN hu ht.
exists y; split; rewrite ?em //; first by rewrite /ModelSimT.simulate_t /= eK.
move=> i j hi hj; have [f1 f2] := e3 j hj; split; first by rewrite f1 ep.
have hi' : (i < spn K)%N by rewrite -ep.
rewrite -em in hj; have := @solves_channel G K (fun k => get U k j) i j N w gc hi hj hi'; apply: solves_ext => // k hk.
rewrite (sample_get _ _ hi') f2 //; congr (fun_of_matrix _ _ 0); apply: eq_response => l _.
by apply/matrixP => a b; rewrite !mxE; case: eqP => // ->.
Qed.

(* all inputs together: the sum over the inputs of solutions of the difference equations *)
Theorem C82_combined G dt u U t ts N : sim_call G dt u U t ts N ->
  exists Y, [/\ simulate_t G u t None false = Ok (Y2 Y, ts), shp Y = (N, tp G) & forall i, (i < tp G)%N ->
    exists ys : nat -> nat -> R,
      (forall j, (j < tm G)%N -> solves (ent (tn G) i j) (ent (td G) i j) (fun k => get U k j) (ys j) N) /\
      forall k, (k < N)%N -> get Y k i = \sum_(j < tm G) ys j k].
Proof.
case=> hc ed hN hu ht; have [K eK gc] := tts_anyP hl hc; have [wK eS edt _ _] := gc.
have w : wfT G by case: hc.
have ep : tp G = spn K by rewrite /tp -eS.
have em : tm G = smn K by rewrite /tm -eS.
have m0 : (0 < smn K)%N by rewrite -em; case: (wfTP w) => -[].
rewrite em -edt in hu ht; have edK : sdt K = Some dt by rewrite edt.
have [[Y [e1 e2 e3 e4]] _] := sim_any wK m0 edK hN hu ht.
exists Y; split; rewrite ?ep //; first by rewrite /ModelSimT.simulate_t /= eK.
move=> i hi'; have hi : (i < tp G)%N by rewrite ep.
exists (fun j k => response (Amx K) (Bmx K) (Cmx K) (Dmx K) 0 (fun k => \col_l if l == j :> nat then get U k j else 0) k (Ordinal hi') 0).
split=> [j hj|k hk]; first exact: solves_channel.
rewrite (sample_get _ _ hi') e4 // em -summxE; congr (fun_of_matrix _ _ 0).
rewrite response_sum; apply: eq_response => l _; rewrite -(chan_sum U (smn K) l); apply: eq_bigr => j _.
by apply/matrixP => a b; rewrite !mxE; case: eqP => // ->.
Qed.

(* the step and the impulse response *)
Theorem C82_step G dt t ts N K : convertible eps G -> tdt G = Some dt -> (1 < N)%N ->
  transfer_to_state lcmf eps G = Ok K -> grid_ok auto K true dt N t ts ->
  exists y, [/\ step_t G t = Ok (y, ts), channels y = tm G & forall i j, (i < tp G)%N -> (j < tm G)%N ->
    shp (channel y j) = (N, tp G) /\
    solves (ent (tn G) i j) (ent (td G) i j) (fun _ => 1) (fun k => get (channel y j) k i) N].
Proof.
move=> hc ed hN eK hg; have := tts_anyP hl hc; rewrite eK => -[_ [<-] gc]; have [wK eS edt _ _] := gc.
have em : tm G = smn K by rewrite /tm -eS.
have es : size ts = N by case: hg => _ [].
have hu : as_input N (tm G) (N2 (aones N (smn K))) (aones N (smn K)) by split; rewrite ?wfa_mk ?nr_mk ?nc_mk ?em //; left.
have [|y [e1 e2 e3]] := @C82_channels G dt (N2 (aones N (smn K))) (aones N (smn K)) (Some (N1 ts)) ts N.
  by split=> //; rewrite -edt; case: hg.
exists y; split=> // [|i j hi hj]; last first.
  by have [f1] := e3 i j hi hj => h; split=> //; move: h; apply: solves_ext => // k hk; rewrite get_mk // -em.
rewrite /simulate_step_t eK [bind _ _]/= /simulate_step (time_gridP r0 a0 hN hg) [bind _ _]/= es.
by move: e1; rewrite /ModelSimT.simulate_t /= eK.
Qed.

Theorem C82_impulse G dt t ts N K : convertible eps G -> tdt G = Some dt -> (1 < N)%N ->
  transfer_to_state lcmf eps G = Ok K -> grid_ok auto K false dt N t ts ->
  exists y, [/\ impulse_t G t = Ok (y, ts), channels y = tm G & forall i j, (i < tp G)%N -> (j < tm G)%N ->
    shp (channel y j) = (N, tp G) /\
    solves (ent (tn G) i j) (ent (td G) i j) (fun k => if k == 0%N then 1 / dt else 0) (fun k => get (channel y j) k i) N].
Proof.
move=> hc ed hN eK hg; have := tts_anyP hl hc; rewrite eK => -[_ [<-] gc]; have [wK eS edt _ _] := gc.
have em : tm G = smn K by rewrite /tm -eS.
have es : size ts = N by case: hg => _ [].
pose U := mk N (smn K) (fun i _ : nat => if i == 0%N then 1 / dt else 0).
have hu : as_input N (tm G) (N2 U) U by split; rewrite ?wfa_mk ?nr_mk ?nc_mk ?em //; left.
have [|y [e1 e2 e3]] := @C82_channels G dt (N2 U) U (Some (N1 ts)) ts N.
  by split=> //; rewrite -edt; case: hg.
exists y; split=> // [|i j hi hj]; last first.
  by have [f1] := e3 i j hi hj => h; split=> //; move: h; apply: solves_ext => // k hk; rewrite get_mk // -em.
rewrite /simulate_impulse_t eK [bind _ _]/= /simulate_impulse (time_gridP r0 a0 hN hg) [bind _ _]/= es (ltnW hN).
by move: e1; rewrite /ModelSimT.simulate_t /= eK.
Qed.

(* continuous models: the simulation of a State model with the same transfer function (C41, C44) *)
Theorem C82_continuous G u t pc : convertible eps G -> exists K, [/\ wfS K, sshape K = tshape G, sdt K = tdt G,
    (forall (L : fieldType) (f : {rmorphism R -> L}) (s : L),
      (forall i j, (i < tp G)%N -> (j < tm G)%N -> dfT f G s i j) ->
      regS f K s /\ forall i j, (i < tp G)%N -> (j < tm G)%N -> ev f K s i j = evT f G s i j) &
    simulate_t G u t None pc = simulate K u t None pc].
Proof.
by move=> hc; have [K eK [wK eS edt _ hv]] := tts_anyP hl hc; exists K; split=> //; rewrite /ModelSimT.simulate_t /= eK.
Qed.

(* Transfer models cannot be given an initial state *)
Theorem C82_initial_state G u t x pc : simulate_t G u t (Some x) pc = Err ValueError.
Proof. by []. Qed.
End C82.
Print Assumptions C82_unique.
Print Assumptions C82_channels.
Print Assumptions C82_combined.
Print Assumptions C82_step.
Print Assumptions C82_impulse.
Print Assumptions C82_continuous.
Print Assumptions C82_initial_state.

(* Concrete cases: (z + 3)/(z^2 + 3 z + 2) and a 2-by-2 model with period 1, three samples of a ramp on every input *)
Definition dH : tf Q := Tf (tn tH) (td tH) false (Some 1).
Definition dM : tf Q := Tf (tn tM) (td tM) false (Some 1).
Example C82_ex_convertible : convertible (1 / 100%:~R) dH /\ convertible (1 / 100%:~R) dM.
Proof.
split; split=> //.
- by rewrite wfTE; vm_compute.
- by move=> _ e; exfalso; move/eqP: e; rewrite -size_trimf; vm_compute.
- by rewrite wfTE; vm_compute.
move=> _; split; last by case=> [|[|i]] // [|[|j]] // _ _; rewrite -size_trimf; vm_compute.
have [h _] := C32_ex_clean; exact: h.
Qed.
Definition u3 m : arr Q := mk 3 m (fun i j => i%:R + j%:R).
Example C82_ex_call : sim_call (1 / 100%:~R) dM 1 (N2 (u3 2)) (u3 2) None (mkseq (fun k => k%:R * 1) 3) 3.
Proof.
have [_ h] := C82_ex_convertible; split=> //; first by split; [vm_compute | by [] | by [] | left].
split=> //; [|by right].
by case=> [|[|k]].
Qed.
(* the ramp 0, 1, 2 gives 0, 0, 1: y(k) + 3 y(k-1) + 2 y(k-2) = u(k-1) + 3 u(k-2) *)
Example C82_ex_value (sq tn' : rat -> rat) (pi : rat) expm bal :
  if simulate_t sq tn' pi expm bal 0 0 exl (1 / 100%:~R) dH (N2 (u3 1)) None None false is Ok (Y2 Y, ts)
  then (aeq Y (qa [:: [:: 0]; [:: 0]; [:: 1]])) && (ts == [:: 0; 1; 2%:R]) else false.
Proof. by vm_compute. Qed.
