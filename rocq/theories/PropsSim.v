(* Properties C41-C44, C68: time-domain simulation of State models (SpecSim.v has the vocabulary:
   response is C A^k x0 + sum_(j<k) C A^(k-1-j) B u_j + D u_k; sample Y p k is row k of Y; as_input and
   as_vector say which arrays the user may pass; time_ok describes the time array). *)
From mathcomp Require Import all_ssreflect all_algebra.
From Coq Require Import String.
From Verif Require Import Base BaseTheory Spec ModelState Denote StateTheory StateProps ModelObject ModelDiscrete DenoteD DiscreteTheory PropsDiscrete ModelSim SpecSim SimTheory.

Set Implicit Arguments.
Unset Strict Implicit.
Unset Printing Implicit Defensive.

Import Order.TTheory GRing.Theory Num.Theory.
Local Open Scope ring_scope.

(* ------------------------------------------------------------------ C41 *)
(* discrete models, at least two samples, with or without initial state *)
Theorem C41_discrete_partial (R : realFieldType) (sq tn : R -> R) (pi : R) expm bal (rtol atol : R) (G : state R) (dt : R)
    u (U : arr R) t ts x (v : 'cV[R]_(snn G)) N :
  wfS G -> sgain G = false -> (0 < smn G)%N -> sdt G = Some dt -> 0 <= rtol -> 0 <= atol ->
  (1 < N)%N -> as_input N (smn G) u U -> time_ok (sdt G) dt N t ts ->
  ((1 < snn G)%N \/ x = None) -> as_vector x v ->
  exists Y, [/\ simulate sq tn pi expm bal rtol atol G u t x false = Ok (Y2 Y, ts), shp Y = (N, spn G), wfa Y &
    forall k, (k < N)%N -> sample Y (spn G) k = response (Amx G) (Bmx G) (Cmx G) (Dmx G) v (sample U (smn G)) k].
Proof. by move=> w ng m0 ed r0 a0 hN hu ht hn hx; have [h _] := sim_disc sq tn pi expm bal w ng m0 ed r0 a0 hN hu ht hn hx. Qed.
Print Assumptions C41_discrete_partial.

(* continuous models are simulated through their zero-order-hold equivalent at the spacing h of t *)
Theorem C41_continuous_partial (R : realFieldType) (sq tn : R -> R) (pi : R) expm bal (rtol atol : R) (G : state R) (h : R)
    u (U : arr R) t ts x (v : 'cV[R]_(snn G)) N :
  exp_like expm -> balances bal ->
  wfS G -> sgain G = false -> (0 < smn G)%N -> sdt G = None -> 0 <= rtol -> 0 <= atol ->
  (1 < N)%N -> as_input N (smn G) u U -> time_ok (sdt G) h N t ts ->
  ((1 < snn G)%N \/ x = None) -> as_vector x v ->
  let n := snn G in let m := smn G in
  let E := expm (ascaler (zohM G) h) in
  exists Y, [/\ simulate sq tn pi expm bal rtol atol G u t x false = Ok (Y2 Y, ts), shp Y = (N, spn G), wfa Y &
    forall k, (k < N)%N -> sample Y (spn G) k =
     response (amx n n (asubm E 0 n 0 n)) (amx n m (asubm E 0 n n (n + m))) (Cmx G) (Dmx G) v (sample U m) k].
Proof. by move=> he hb w ng m0 ed r0 a0 hN hu ht hn hx; have [h' _] := sim_cont sq tn pi he hb w ng m0 ed r0 a0 hN hu ht hn hx. Qed.
Print Assumptions C41_continuous_partial.

(* static gains *)
Theorem C41_gain (R : realFieldType) (sq tn : R -> R) (pi : R) expm bal (rtol atol : R) (G : state R) (h : R)
    u (U : arr R) t ts N :
  wfS G -> sgain G -> (0 < smn G)%N -> 0 <= rtol -> 0 <= atol -> (1 < N)%N ->
  as_input N (smn G) u U -> time_ok (sdt G) h N t ts ->
  exists Y, [/\ simulate sq tn pi expm bal rtol atol G u t None false = Ok (Y2 Y, ts), shp Y = (N, spn G), wfa Y &
    forall k, (k < N)%N -> sample Y (spn G) k = Dmx G *m sample U (smn G) k].
Proof. by move=> w g m0 r0 a0 hN hu ht; apply: sim_gain hu _ => //; apply: good_time_of ht. Qed.
Print Assumptions C41_gain.

(* a two-input discrete model with two states, three samples and an initial state *)
Definition exMd : state Q := St (sa exM) (sb exM) (sc exM) (sd exM) false (Some 1).
Definition exU : arr Q := mk 3 (smn exM) (fun i j => i%:R + j%:R).
Example C41_example (sq tn : rat -> rat) (pi : rat) expm bal :
  exists Y, [/\ simulate sq tn pi expm bal 0 0 exMd (N2 exU) None (Some (N1 [:: 1; 2%:R])) false =
     Ok (Y2 Y, mkseq (fun k => k%:R * 1) 3), shp Y = (3%N, spn exMd) & wfa Y].
Proof.
have [||||||||||| Y [h1 h2 h3 _]] := @C41_discrete_partial Q sq tn pi expm bal 0 0 exMd 1 (N2 exU) exU None (mkseq (fun k => k%:R * 1) 3)
  (Some (N1 [:: 1; 2%:R])) (\col_i nth 0 [:: 1; 2%:R] i) 3.
- by vm_compute.
- by vm_compute.
- by vm_compute.
- by [].
- by [].
- by [].
- by [].
- by split; [vm_compute | by [] | by [] | left].
- split=> //; [|by right].
  by case=> [|[|[|k]]] // _; apply/eqP; vm_compute.
- by left; vm_compute.
- by split.
- by exists Y; split; [exact: h1 | exact: h2 | exact: h3].
Qed.

(* False of the code.  np.squeeze turns an initial condition with one entry into a 0-d array, so
   that a model with one state cannot be given an initial state: x0[:, None] (line 73) fails. *)
Theorem C41_first_order_x0_refuted (R : realFieldType) (sq tn : R -> R) (pi : R) expm bal (rtol atol : R) (G : state R) u t pc (a : R) x :
  sgain G = false -> x = N0 a \/ x = N1 [:: a] \/ x = N2 (mk 1 1 (fun _ _ => a)) ->
  simulate sq tn pi expm bal rtol atol G u t (Some x) pc = Err IndexError.
Proof.
by move=> ng hx; apply: x0_first_order => // b; case: hx => [->|[->|->]].
Qed.
Print Assumptions C41_first_order_x0_refuted.

(* False of the code.  The same line 87 makes a single sample of a single-input model a 0-d array and the single
   sample of a multi-input model a column: a simulation of one sample always fails. *)
Theorem C41_single_sample_refuted (R : realFieldType) (sq tn : R -> R) (pi : R) expm bal (rtol atol : R) (G : state R) (A : arr R) t :
  nr A = 1%N -> (0 < nc A)%N -> nc A = smn G ->
  is_ok (simulate sq tn pi expm bal rtol atol G (N2 A) t None false) = false.
Proof.
move=> e1 e2 e3; case h: (nc A == 1%N); last by apply: single_row => //; rewrite ltn_neqAle eq_sym h.
by apply: single_sample; exists (get A 0 0); rewrite /squeeze e1 h eqxx.
Qed.
Print Assumptions C41_single_sample_refuted.

(* ------------------------------------------------------------------ C42 *)
(* for every State model (static, discrete, or continuous), whatever the matrix exponential returns *)
Theorem C42_superposition (R : realFieldType) (sq tn : R -> R) (pi : R) expm bal (rtol atol : R) (G : state R)
    N u1 u2 u (U1 U2 U : arr R) t x1 x2 x (v1 v2 v : 'cV[R]_(snn G)) a b Ya Yb Y ts1 ts2 ts :
  wfS G -> (1 < N)%N ->
  as_input N (smn G) u1 U1 -> as_input N (smn G) u2 U2 -> as_input N (smn G) u U ->
  (forall k j, (k < N)%N -> (j < smn G)%N -> get U k j = a * get U1 k j + b * get U2 k j) ->
  as_vector x1 v1 -> as_vector x2 v2 -> as_vector x v -> v = a *: v1 + b *: v2 ->
  simulate sq tn pi expm bal rtol atol G u1 t x1 false = Ok (Y2 Ya, ts1) ->
  simulate sq tn pi expm bal rtol atol G u2 t x2 false = Ok (Y2 Yb, ts2) ->
  simulate sq tn pi expm bal rtol atol G u t x false = Ok (Y2 Y, ts) ->
  forall k i, (k < N)%N -> (i < spn G)%N -> get Y k i = a * get Ya k i + b * get Yb k i.
Proof. exact: sim_linear. Qed.
Print Assumptions C42_superposition.

Theorem C42_causal (R : realFieldType) (sq tn : R -> R) (pi : R) expm bal (rtol atol : R) (G : state R)
    N u1 u2 (U1 U2 : arr R) t x (v : 'cV[R]_(snn G)) Ya Yb ts1 ts2 (K : nat) :
  wfS G -> (1 < N)%N -> as_input N (smn G) u1 U1 -> as_input N (smn G) u2 U2 ->
  (forall k j, (k <= K)%N -> (j < smn G)%N -> get U1 k j = get U2 k j) -> as_vector x v ->
  simulate sq tn pi expm bal rtol atol G u1 t x false = Ok (Y2 Ya, ts1) ->
  simulate sq tn pi expm bal rtol atol G u2 t x false = Ok (Y2 Yb, ts2) ->
  forall k i, (k <= K)%N -> (k < N)%N -> (i < spn G)%N -> get Ya k i = get Yb k i.
Proof. exact: sim_causal. Qed.
Print Assumptions C42_causal.

(* delaying the input by one sample delays the output by one sample *)
Theorem C42_time_invariant (R : realFieldType) (sq tn : R -> R) (pi : R) expm bal (rtol atol : R) (G : state R)
    N u1 u2 (U1 U2 : arr R) t Ya Yb ts1 ts2 :
  wfS G -> (1 < N)%N -> as_input N (smn G) u1 U1 -> as_input N (smn G) u2 U2 ->
  (forall j, (j < smn G)%N -> get U2 0 j = 0) ->
  (forall k j, (k.+1 < N)%N -> (j < smn G)%N -> get U2 k.+1 j = get U1 k j) ->
  simulate sq tn pi expm bal rtol atol G u1 t None false = Ok (Y2 Ya, ts1) ->
  simulate sq tn pi expm bal rtol atol G u2 t None false = Ok (Y2 Yb, ts2) ->
  forall i, (i < spn G)%N -> get Yb 0 i = 0 /\ forall k, (k.+1 < N)%N -> get Yb k.+1 i = get Ya k i.
Proof. exact: sim_shift. Qed.
Print Assumptions C42_time_invariant.

(* C41_example gives simulations that succeed *)

(* ------------------------------------------------------------------ C43 *)
Theorem C43_channels_from_rest (R : realFieldType) (sq tn : R -> R) (pi : R) expm bal (rtol atol : R) (G : state R) (dt : R)
    u (U : arr R) t ts N :
  wfS G -> sgain G = false -> (0 < smn G)%N -> sdt G = Some dt -> 0 <= rtol -> 0 <= atol ->
  (1 < N)%N -> as_input N (smn G) u U -> time_ok (sdt G) dt N t ts ->
  exists Y y, [/\ simulate sq tn pi expm bal rtol atol G u t None false = Ok (Y2 Y, ts),
    simulate sq tn pi expm bal rtol atol G u t None true = Ok (y, ts), channels y = smn G &
   forall k, (k < N)%N -> \sum_(j < smn G) sample (channel y j) (spn G) k = sample Y (spn G) k].
Proof.
move=> w ng m0 ed r0 a0 hN hu ht.
have hv : as_vector None (0 : 'cV[R]_(snn G)) by [].
have [Y [y [h1 h2 h3 h4]]] := sum_channels sq tn pi expm bal w ng m0 ed r0 a0 hN hu ht (or_intror erefl) hv.
by exists Y, y; split=> // k hk; rewrite h4 // mulmx0 mul0rn addr0.
Qed.
Print Assumptions C43_channels_from_rest.

Theorem C43_channels_from_rest_continuous (R : realFieldType) (sq tn : R -> R) (pi : R) expm bal (rtol atol : R) (G : state R) (h : R)
    u (U : arr R) t ts N :
  exp_like expm -> balances bal ->
  wfS G -> sgain G = false -> (0 < smn G)%N -> sdt G = None -> 0 <= rtol -> 0 <= atol ->
  (1 < N)%N -> as_input N (smn G) u U -> time_ok (sdt G) h N t ts ->
  exists Y y, [/\ simulate sq tn pi expm bal rtol atol G u t None false = Ok (Y2 Y, ts),
    simulate sq tn pi expm bal rtol atol G u t None true = Ok (y, ts), channels y = smn G &
   forall k, (k < N)%N -> \sum_(j < smn G) sample (channel y j) (spn G) k = sample Y (spn G) k].
Proof. by move=> he hb w ng m0 ed r0 a0 hN hu ht; exact: (sum_channels_cont sq tn pi he hb w ng m0 ed r0 a0 hN hu ht). Qed.
Print Assumptions C43_channels_from_rest_continuous.

(* channel j is the response to input j alone *)
Theorem C43_channel (R : realFieldType) (sq tn : R -> R) (pi : R) expm bal (rtol atol : R) (G : state R) (dt : R)
    u (U : arr R) t ts N :
  wfS G -> sgain G = false -> (0 < smn G)%N -> sdt G = Some dt -> 0 <= rtol -> 0 <= atol ->
  (1 < N)%N -> as_input N (smn G) u U -> time_ok (sdt G) dt N t ts ->
  exists y, [/\ simulate sq tn pi expm bal rtol atol G u t None true = Ok (y, ts), channels y = smn G &
   forall j, (j < smn G)%N -> shp (channel y j) = (N, spn G) /\
    forall k, (k < N)%N -> sample (channel y j) (spn G) k =
      response (Amx G) (Bmx G) (Cmx G) (Dmx G) 0 (fun k => \col_i if i == j :> nat then get U k i else 0) k].
Proof.
move=> w ng m0 ed r0 a0 hN hu ht.
have hv : as_vector None (0 : 'cV[R]_(snn G)) by [].
by have [_ h] := sim_disc sq tn pi expm bal w ng m0 ed r0 a0 hN hu ht (or_intror erefl) hv.
Qed.
Print Assumptions C43_channel.

(* False of the code with an initial state: every channel contains the free response, so that the
   sum contains it m times *)
Theorem C43_initial_state_refuted (R : realFieldType) (sq tn : R -> R) (pi : R) expm bal (rtol atol : R) (G : state R) (dt : R)
    u (U : arr R) t ts x (v : 'cV[R]_(snn G)) N :
  wfS G -> sgain G = false -> (0 < smn G)%N -> sdt G = Some dt -> 0 <= rtol -> 0 <= atol ->
  (1 < N)%N -> as_input N (smn G) u U -> time_ok (sdt G) dt N t ts ->
  ((1 < snn G)%N \/ x = None) -> as_vector x v ->
  exists Y y, [/\ simulate sq tn pi expm bal rtol atol G u t x false = Ok (Y2 Y, ts),
    simulate sq tn pi expm bal rtol atol G u t x true = Ok (y, ts), channels y = smn G &
   forall k, (k < N)%N -> \sum_(j < smn G) sample (channel y j) (spn G) k =
     sample Y (spn G) k + (Cmx G *m mpow (Amx G) k *m v) *+ (smn G).-1].
Proof. exact: sum_channels. Qed.
Print Assumptions C43_initial_state_refuted.

(* ------------------------------------------------------------------ C44 *)
(* sample k of channel j is column j of D (k = 0) or of C A^(k-1) B, divided by dt *)
Theorem C44_impulse (R : realFieldType) (sq tn : R -> R) (pi : R) expm bal (rtol atol : R) auto (G : state R) (dt : R) t ts N :
  wfS G -> sgain G = false -> (0 < smn G)%N -> sdt G = Some dt -> 0 <= rtol -> 0 <= atol ->
  (1 < N)%N -> grid_ok auto G false dt N t ts ->
  exists y, [/\ simulate_impulse sq tn pi expm bal rtol atol auto G t = Ok (y, ts), channels y = smn G &
   forall (j : 'I_(smn G)) k, (k < N)%N ->
     sample (channel y j) (spn G) k = dt^-1 *: col j (markov (Amx G) (Bmx G) (Cmx G) (Dmx G) k)].
Proof. exact: impulseP. Qed.
Print Assumptions C44_impulse.

(* the step response is the running sum of the Markov parameters *)
Theorem C44_step (R : realFieldType) (sq tn : R -> R) (pi : R) expm bal (rtol atol : R) auto (G : state R) (dt : R) t ts N :
  wfS G -> sgain G = false -> (0 < smn G)%N -> sdt G = Some dt -> 0 <= rtol -> 0 <= atol ->
  (1 < N)%N -> grid_ok auto G true dt N t ts ->
  exists y, [/\ simulate_step sq tn pi expm bal rtol atol auto G t = Ok (y, ts), channels y = smn G &
   forall (j : 'I_(smn G)) k, (k < N)%N ->
     sample (channel y j) (spn G) k = \sum_(i < k.+1) col j (markov (Amx G) (Bmx G) (Cmx G) (Dmx G) i)].
Proof. exact: stepP. Qed.
Print Assumptions C44_step.

Example C44_example (sq tn : rat -> rat) (pi : rat) expm bal auto :
  exists y, simulate_step sq tn pi expm bal 0 0 auto exMd (Some (N1 (mkseq (fun k => k%:R * 1) 4))) =
    Ok (y, mkseq (fun k => k%:R * 1) 4).
Proof.
have [|||||||| y [h _ _]] := @C44_step Q sq tn pi expm bal 0 0 auto exMd 1 (Some (N1 (mkseq (fun k => k%:R * 1) 4))) (mkseq (fun k => k%:R * 1) 4) 4.
- by vm_compute.
- by vm_compute.
- by vm_compute.
- by [].
- by [].
- by [].
- by [].
- split=> //; split=> //; [|by right].
  by case=> [|[|[|[|k]]]] // _; apply/eqP; vm_compute.
- by exists y; exact: h.
Qed.

(* ------------------------------------------------------------------ C68 *)
(* an accepted time array is increasing at its first step, equally spaced up to the tolerances of
   np.allclose, and agrees with the sampling period of a discrete model up to them *)
Theorem C68_accepted_time (R : realFieldType) (sq tn : R -> R) (pi : R) expm bal (rtol atol : R) (G : state R) u (t : seq R) x pc :
  is_ok (simulate sq tn pi expm bal rtol atol G u (Some (N1 t)) x pc) ->
  let h := nth 0 t 1 - nth 0 t 0 in
  [/\ (1 < size t)%N, 0 < h,
   (forall k, (k.+1 < size t)%N -> `|(nth 0 t k.+1 - nth 0 t k) - h| <= atol + rtol * `|h|) &
   forall d, sdt G = Some d -> `|d - h| <= atol + rtol * `|h|].
Proof.
have okb A B (a : res A) (f : A -> res B) : is_ok (bind a f) -> is_ok a by case: a.
have okE A B (a : A) (f : A -> res B) : bind (Ok a) f = f a by [].
rewrite /simulate; case: (check_x0 G x) => [x'|//]; rewrite okE => /okb; exact: time_refused.
Qed.
Print Assumptions C68_accepted_time.

(* False of the code as documented: the absolute tolerance accepts unequal spacing, e.g. steps of a
   quarter and one half of atol *)
Theorem C68_equal_spacing_refuted (R : realFieldType) (sq tn : R -> R) (pi : R) expm bal (rtol atol : R) (G : state R) :
  wfS G -> sgain G -> sdt G = None -> spn G = 1%N -> smn G = 1%N -> 0 <= rtol -> 0 < atol ->
  let t := [:: 0; atol / 4%:R; atol / 4%:R + atol / 2%:R] in
  is_ok (simulate sq tn pi expm bal rtol atol G (N1 [:: 1; 1; 1]) (Some (N1 t)) None false) /\
  nth 0 t 2 - nth 0 t 1 != nth 0 t 1 - nth 0 t 0.
Proof.
move=> w g ed p1 m1 r0 a0 t; have q0 : 0 < atol / 4%:R by rewrite divr_gt0 // ltr0n.
have e2 : atol / 4%:R + atol / 2%:R - atol / 4%:R = atol / 2%:R by rewrite addrC addrA addNr add0r.
have e3 : atol / 2%:R = atol / 4%:R + atol / 4%:R.
  have -> : atol / 4%:R + atol / 4%:R = atol / 4%:R * 2%:R by rewrite mulr_natr mulr2n.
  by rewrite (natrM _ 2 2) invfM mulrA mulfVK // pnatr_eq0.
split; last by rewrite /= e2 subr0 e3 -subr_eq0 addrK gt_eqF.
rewrite /simulate /= m1 p1 ed /check_u_t /= /diff /= !subr0 e2 q0 g.
have -> : isclose rtol atol (atol / 4%:R) (atol / 4%:R).
  by rewrite /isclose subrr normr0 addr_ge0 ?(ltW a0) // mulr_ge0.
have -> : isclose rtol atol (atol / 2%:R) (atol / 4%:R) => //.
rewrite /isclose e3 addrK (gtr0_norm q0); apply: ler_paddr; first by rewrite mulr_ge0 // ltW.
by rewrite ler_pdivr_mulr ?ltr0n // ler_pmulr // ler1n.
Qed.
Print Assumptions C68_equal_spacing_refuted.
