(* C78: the time grid of simulate_step_response and simulate_impulse_response when t is omitted. *)
From mathcomp Require Import all_ssreflect all_algebra zify.
From Coq Require Import String.
From Verif Require Import Base BaseTheory Spec ModelState Denote StateTheory StateProps ModelObject ModelDiscrete DenoteD DiscreteTheory PropsDiscrete
  ModelSim SpecSim SimTheory ModelHorizon SpecHorizon HorizonTheory RingTac.

Set Implicit Arguments.
Unset Strict Implicit.
Unset Printing Implicit Defensive.

Import Order.Theory GRing.Theory Num.Theory.
Local Open Scope ring_scope.

Section Horizon.
Variable R : realFieldType.
Variables (pi se ln100 : R) (cabs : R * R -> R) (clog : R * R -> R * R) (flr : R -> int).
Variable eigs : arr R -> seq (R * R).
Variable modes : state R -> seq (mode R).
Variables (sq tn : R -> R) (expm : arr R -> arr R) (bal : arr R -> arr R * seq R) (rtol atol : R).
Local Notation auto := (auto_time pi se ln100 cabs clog flr eigs modes).
Local Notation step_response := (simulate_step_auto pi se ln100 cabs clog flr eigs modes sq tn expm bal rtol atol).
Local Notation impulse_response := (simulate_impulse_auto pi se ln100 cabs clog flr eigs modes sq tn expm bal rtol atol).

(* sqrt(eps), log(100) and pi are positive, sqrt(eps) is small, floor, abs and log are what they are called *)
Definition numerics : Prop :=
  [/\ [/\ 0 < pi, 0 < se, se < 1 & 0 < ln100], floor_like flr, abs_like cabs & clog_like cabs clog].

Lemma grid_time (dt : option R) (h : R) (N : nat) : 0 < h -> dt = None \/ dt = Some h ->
  time_ok dt h N (Some (N1 (mkseq (fun k => k%:R * h) N))) (mkseq (fun k => k%:R * h) N).
Proof.
move=> h0 hd; split=> //; first by rewrite size_mkseq.
by move=> k hk; rewrite !nth_mkseq // ?(ltnW hk) // -mulrBl -natrB // subSnn mul1r.
Qed.

Lemma gain_sim (G : state R) (U : arr R) ts h : wfS G -> sgain G -> (0 < smn G)%N -> 0 <= rtol -> 0 <= atol ->
  wfa U -> (1 < nr U)%N -> nc U = smn G -> time_ok (sdt G) h (nr U) (Some (N1 ts)) ts ->
  exists y, simulate sq tn pi expm bal rtol atol G (N2 U) (Some (N1 ts)) None true = Ok (y, ts).
Proof.
move=> w g m0 r0 a0 wU hN hc ht.
have hu : as_input (nr U) (smn G) (N2 U) U by split=> //; left.
have gt := good_time_of r0 a0 hN ht.
rewrite /simulate /= (norm_u hN hu) (check_u_tP _ _ _ (ts := ts)) ?hc //= g.
case: ifP => _; first by eexists.
case: ifP => _; first by eexists.
by rewrite /np_matmul hc nr_mk eqxx; eexists.
Qed.

Lemma any_sim (G : state R) (U : arr R) N h : exp_like expm -> balances bal -> wfS G -> (0 < smn G)%N -> 0 <= rtol -> 0 <= atol ->
  wfa U -> (1 < N)%N -> nr U = N -> nc U = smn G -> 0 < h -> sdt G = None \/ sdt G = Some h ->
  exists y, simulate sq tn pi expm bal rtol atol G (N2 U) (Some (N1 (mkseq (fun k => k%:R * h) N))) None true =
    Ok (y, mkseq (fun k => k%:R * h) N).
Proof.
move=> he hb w m0 r0 a0 wU hN hr hc h0 hd; have ht := grid_time N h0 hd.
have hu : as_input N (smn G) (N2 U) U by split=> //; left.
case hg: (sgain G); first by apply: (@gain_sim G U _ h); rewrite ?hr.
case: hd => ed.
  by have [Y [y [_ -> _ _]]] := sum_channels_cont sq tn pi he hb w hg m0 ed r0 a0 hN hu ht; exists y.
have hv : as_vector None (0 : 'cV[R]_(snn G)) by [].
by have [Y [y [_ -> _ _]]] := sum_channels sq tn pi expm bal w hg m0 ed r0 a0 hN hu ht (or_intror erefl) hv; exists y.
Qed.

(* both responses are computed on the generated grid *)
Lemma responses (G : state R) N h step : exp_like expm -> balances bal -> wfS G -> (0 < smn G)%N -> 0 <= rtol -> 0 <= atol ->
  auto G step = Ok (N, h) -> (1 < N)%N -> 0 < h -> sdt G = None \/ sdt G = Some h ->
  exists y, (if step then step_response else impulse_response) G = Ok (y, mkseq (fun k => k%:R * h) N).
Proof.
move=> he hb w m0 r0 a0 ea hN h0 hd; case: step ea => ea; rewrite /simulate_step_auto /simulate_impulse_auto ea [bind _ _]/=.
  rewrite /simulate_step [bind _ _]/= size_mkseq.
  by apply: any_sim => //; rewrite ?wfa_mk.
rewrite /simulate_impulse [bind _ _]/= size_mkseq (ltnW hN).
by apply: any_sim => //; rewrite ?wfa_mk.
Qed.

(* Continuous models: the grid always exists, has between 101 and 10002 points and is evenly spaced from 0.  It is
   long enough for every mode that matters to decay to one percent, or to oscillate for five periods if undamped,
   and it has 25 points per period and 50 per decay, or at least 10000 points. *)
Theorem C78_continuous (G : state R) step : numerics -> sgain G = false -> sdt G = None ->
  exists N h, [/\ auto G step = Ok (N.+1, h), 0 < h, (100 <= N <= 100 * 100 + 1)%N &
   forall m, List.In m (modes G) -> matters cabs se step (modes G) m -> mpole m != (0, 0) ->
    let x := mpole m in let T := N%:R * h in
    [/\ undamped se x -> 5%:R * (2%:R * pi / cabs x) <= T,
        ~~ undamped se x -> ln100 <= `|x.1| * T,
        h <= 2%:R * pi / cabs x / 25%:R \/ (100 * 100 <= N)%N &
        ~~ undamped se x -> h * `|x.1| * 50%:R <= ln100 \/ (100 * 100 <= N)%N]].
Proof.
case=> [[pi0 se0 se1 ln0] fl ab lg] ng nd.
rewrite /auto_time /tfinal_dt ng nd; case er: (relevant se cabs step (modes G)) => [psub origin].
case ec: (cont_time _ _ _ _ _ _ _) => [tf ts] /=.
have [t0 h1 h2 h3] := cont_timeP fl ab pi0 se0 ln0 ec.
have tf0 : 0 <= tf by apply: le_trans h1; rewrite mulr_ge0 ?ler0n // ltW.
have [N [-> hN1 hN2]] := arange_lenP fl t0 tf0.
exists N, ts; split=> //.
  have l1 : (100 <= N)%N by rewrite -(ler_nat R) -(ler_pmul2r t0) (le_trans h1).
  rewrite l1 /= -ltnS -(ltr_nat R) -(ltr_pmul2r t0) (lt_trans hN2) //.
  have -> : (100 * 100 + 1).+1%:R * ts = (100%:R * 100%:R + 1) * ts + ts.
    by rewrite -[(_ + 1).+1]addn1 !natrD natrM; mc_ring R.
  by rewrite ltr_add2r.
move=> m hm mt m0; set x := mpole m; have hx : x \in psub by have := relevantP hm mt; rewrite er.
have [k1 k2 k3 k4] := h3 x hx m0.
have big : tf = 100%:R * 100%:R * ts -> (100 * 100 <= N)%N.
  by move=> e; rewrite -(ler_nat R) -(ler_pmul2r t0) natrM -e.
split.
- by move=> /k1 h; apply: le_trans hN1.
- by move=> /k2 h; apply: (le_trans h); rewrite ler_wpmul2l.
- by case: k3 => [h|/big h]; [left | right].
- by move=> /k4[h|/big h]; [left | right].
Qed.

(* static gains: 101 points from 0 to 5, or 21 samples *)
Theorem C78_gain (G : state R) step : numerics -> sgain G -> wfS G ->
  auto G step = Ok (if sdt G is Some dt then (21%N, dt) else (101%N, 5%:R / 100%:R)).
Proof.
case=> [_ fl _ _] hg w; rewrite /auto_time /tfinal_dt hg.
case ed: (sdt G) => [dt|] /=.
  have d0 : 0 < dt by have := wfS_dt w; rewrite ed.
  by rewrite arange_lenZ.
have t0 : 0 < 5%:R / min_points R by rewrite divr_gt0 ?ltr0n.
have e5 : 5%:R = (5%:R / min_points R) * 100%:R by rewrite divfK // pnatr_eq0.
by rewrite {1}e5 arange_lenZ.
Qed.

(* without a time array, both responses of every continuous model and of every static gain are computed *)
Theorem C78_total (G : state R) step : numerics -> exp_like expm -> balances bal -> wfS G -> (0 < smn G)%N -> 0 <= rtol -> 0 <= atol ->
  sgain G \/ sdt G = None ->
  exists y N h, [/\ (if step then step_response else impulse_response) G = Ok (y, mkseq (fun k => k%:R * h) N), 0 < h & (20 < N)%N].
Proof.
move=> nm he hb w m0 r0 a0 hd.
have [N [h [ea h0 hN hs]]] : exists N h, [/\ auto G step = Ok (N, h), 0 < h, (20 < N)%N & sdt G = None \/ sdt G = Some h].
  case: (boolP (sgain G)) => hg.
    have := C78_gain step nm hg w; case ed: (sdt G) => [dt|] e.
      by exists 21%N, dt; split=> //; [have := wfS_dt w; rewrite ed | right].
    by exists 101%N, (5%:R / 100%:R); split=> //; [rewrite divr_gt0 ?ltr0n | left].
  case: hd => hd; first by rewrite hd in hg.
  have [N [h [e h0 /andP[h1 _] _]]] := C78_continuous step nm (negbTE hg) hd.
  by exists N.+1, h; split=> //; [rewrite ltnS (leq_trans _ h1) | left].
have [|y ey] := responses he hb w m0 r0 a0 ea _ h0 hs; first exact: leq_ltn_trans hN.
by exists y, N, h.
Qed.

(* ---- discrete models ---- *)
(* the exact condition under which a grid exists *)
Definition only_negative_unstable (p : seq (R * R)) : Prop :=
  (exists2 x, x \in p & 1 + se <= cabs x) /\ (forall x, x \in p -> 1 + se <= cabs x -> x.1 < 0 /\ `|x.2| < se).
Definition near_minus_one (p : seq (R * R)) : Prop :=
  exists2 x, x \in p & [/\ x.1 < 0, `|x.2| < se & cabs x = 1].

Lemma bad1P p : reflect (only_negative_unstable p) (bad_unstable se cabs p).
Proof.
apply: (iffP andP) => -[h1 h2].
  split; first by move/hasP: h1 => [x]; exists x.
  by move=> x hx hu; move/allP/(_ x hx): h2; rewrite hu /= => /andP[].
split; first by case: h1 => x hx hu; apply/hasP; exists x.
by apply/allP => x hx; apply/implyP => hu; apply/andP; apply: h2.
Qed.
Lemma bad2P p : reflect (near_minus_one p) (bad_minus_one se cabs p).
Proof.
apply: (iffP hasP) => -[x hx]; first by case/andP=> /andP[h1 h2] /eqP h3; exists x.
by case=> h1 h2 h3; exists x => //; rewrite /negreal h1 h2 h3 eqxx.
Qed.

Lemma disc_len (dt t : R) : floor_like flr -> 0 < dt -> 0 <= t ->
  exists N, [/\ disc_final flr dt (Some t) = Some (dt * N%:R), (N <= 75 * 1000)%N & t < N.+1%:R * dt \/ N = (75 * 1000)%N].
Proof.
move=> fl d0 t0; rewrite /disc_final; have /andP[h1 h2] := fl (t / dt); set k := flr _ in h1 h2 *.
have k0 : 0 <= k.
  rewrite -ltz_addr1 -(ltr_int R) intrD; apply: le_lt_trans h2; by rewrite divr_ge0 // ltW.
case: k k0 h1 h2 => // k _ h1 h2.
have mE : max_points_z R = (75 * 1000)%:R by rewrite natrM.
rewrite -pmulrn mE ltr_nat; case: (ltnP _ k) => hk.
  by exists (75 * 1000)%N; split=> //; right.
exists k; split=> //; left; rewrite -ltr_pdivr_mulr //; move: h2.
by rewrite -pmulrn -[k.+1]addn1 natrD.
Qed.

(* Discrete models outside these two cases: the grid is the first N+1 sampling instants, N <= 75000; it is long
   enough for every complex pole to decay to one percent, or to oscillate for five periods if it is on the circle,
   unless it has 75000 points.  In the two cases both responses raise ValueError. *)
Theorem C78_discrete_partial (G : state R) dt step : numerics -> sgain G = false -> sdt G = Some dt -> 0 < dt ->
  ~ only_negative_unstable (eigs (sa G)) -> ~ near_minus_one (eigs (sa G)) ->
  exists N, [/\ auto G step = Ok (N.+1, dt), (N <= 75 * 1000)%N, 5%:R < N.+1%:R * dt \/ N = (75 * 1000)%N &
   forall x, x \in eigs (sa G) -> cabs x < 1 + se -> se <= `|x.2| ->
    if `|cabs x - 1| < se then 5%:R * (2%:R * pi) < cabs (cdiv (clog x) dt) * (N.+1%:R * dt) \/ N = (75 * 1000)%N
    else ln100 < `|(clog x).1| * N.+1%:R \/ N = (75 * 1000)%N].
Proof.
case=> [[pi0 se0 se1 ln0] fl ab lg] ng ed d0 /bad1P b1 /bad2P b2.
have [t [e5 t5 w5]] := discP ab lg pi0 se0 ln0 d0 b1 b2.
have t0 : 0 <= t by rewrite (le_trans _ t5) // ler0n.
have [N [eN hN cN]] := disc_len fl d0 t0.
exists N; split=> //; first by rewrite /auto_time /tfinal_dt ng ed e5 /bind eN arange_lenZ.
  by case: cN => [h|->]; [left; apply: le_lt_trans h | right].
move=> x hx h1 h2; have := w5 x hx h1 h2; rewrite /pure.
have c0 : 0 <= cabs (cdiv (clog x) dt) by apply: cabs_ge.
case: ifP => hp h; case: cN => [hn|->]; try (by right); left.
  apply: (le_lt_trans h); rewrite ltr_pmul2l //.
  by rewrite lt_def c0 andbT; apply: (wave_log ab lg se0 d0 (p := eigs (sa G))); apply: in_waves.
apply: (le_lt_trans h); rewrite /= normrM normfV (gtr0_norm d0) -mulrA ltr_pmul2l.
  by rewrite mulrC ltr_pdivr_mulr.
rewrite normr_gt0; apply/eqP => e; move: h; rewrite /= e mul0r normr0 mul0r leNgt ln0 //.
Qed.

(* False of the code: a pole at -1, or unstable poles that are all on the negative real axis *)
Theorem C78_discrete_refuted (G : state R) dt step : numerics -> sgain G = false -> sdt G = Some dt -> 0 < dt ->
  only_negative_unstable (eigs (sa G)) \/ near_minus_one (eigs (sa G)) ->
  [/\ auto G step = Err ValueError, step_response G = Err ValueError & impulse_response G = Err ValueError].
Proof.
case=> [[pi0 se0 se1 ln0] fl ab lg] ng ed d0 hb.
have E st : auto G st = Err ValueError.
  rewrite /auto_time /tfinal_dt ng ed.
  case: (boolP (bad_unstable se cabs (eigs (sa G)))) => b1; first by rewrite disc_bad1.
  have b2 : bad_minus_one se cabs (eigs (sa G)) by apply/bad2P; case: hb => // /bad1P h; rewrite h in b1.
  by rewrite (disc_bad2 pi ln100 ab lg se0 se1 d0 b1 b2).
by rewrite /simulate_step_auto /simulate_impulse_auto !E.
Qed.

(* poles in [0, 1), at least one of them not negligible *)
Definition positive_poles (p : seq (R * R)) : Prop :=
  (forall x, x \in p -> [/\ x.2 = 0, 0 <= x.1 & x.1 < 1]) /\ exists2 x, x \in p & se <= x.1.

(* False of the code: the test for integrators (line 344) lacks an absolute value, every pole in (0, 1) counts as an
   integrator, and the horizon is 25 time units whatever the poles are *)
Theorem C78_real_poles_refuted (G : state R) dt step (K : nat) : numerics -> sgain G = false -> sdt G = Some dt -> 0 < dt ->
  positive_poles (eigs (sa G)) -> (K <= 75 * 1000)%N -> K%:R * dt <= 25%:R < K.+1%:R * dt ->
  auto G step = Ok (K.+1, dt).
Proof.
case=> [[pi0 se0 se1 ln0] fl ab lg] ng ed d0 [hp [x hx hs]] hK /andP[k1 k2].
have tE : 5%:R * 5%:R = 25%:R :> R by rewrite -natrM.
rewrite /auto_time /tfinal_dt ng ed (disc_pos pi ln100 clog ab se0 dt hp) (_ : has _ _); last by apply/hasP; exists x.
have fE : flr (25%:R / dt) = K.
  have /andP[h1 h2] := fl (25%:R / dt); apply/eqP; rewrite eq_le -!ltz_addr1 -!(ltr_int R) !intrD.
  rewrite (le_lt_trans h1); last first.
    by rewrite -pmulrn -[X in _ + X]/(1%:R) -natrD addn1 ltr_pdivr_mulr.
  by rewrite (le_lt_trans _ h2) // -pmulrn ler_pdivl_mulr.
rewrite [bind (Ok (Some _)) _]/= tE /disc_final fE -pmulrn.
have mE : max_points_z R = (75 * 1000)%:R by rewrite natrM.
by rewrite mE ltr_nat ltnNge hK /= arange_lenZ.
Qed.

(* False of the code: with a sampling period above 25 the grid is a single point, on which no simulation is possible *)
Theorem C78_slow_sampling_refuted (G : state R) dt : numerics -> sgain G = false -> sdt G = Some dt -> 25%:R < dt ->
  positive_poles (eigs (sa G)) -> step_response G = Err ValueError /\ impulse_response G = Err ValueError.
Proof.
move=> nm ng ed d25 hp; have d0 : 0 < dt by apply: lt_trans d25; rewrite ltr0n.
have E st : auto G st = Ok (1%N, dt).
  by apply: (@C78_real_poles_refuted G dt st 0) => //; rewrite mul0r ler0n mul1r.
by rewrite /simulate_step_auto /simulate_impulse_auto !E.
Qed.
End Horizon.

Print Assumptions C78_continuous.
Print Assumptions C78_gain.
Print Assumptions C78_total.
Print Assumptions C78_discrete_partial.
Print Assumptions C78_discrete_refuted.
Print Assumptions C78_real_poles_refuted.
Print Assumptions C78_slow_sampling_refuted.

(* ---- the hypotheses are met ---- *)
Definition hxse : rat := 100%:R^-1.
Definition hx_abs (x : rat * rat) : rat := Num.max `|x.1| `|x.2|.
Definition hx_log (x : rat * rat) : rat * rat := (hx_abs x - 1, if (0 < x.1) && (x.2 == 0) then 0 else 1).
Definition hx_floor (x : rat) : int := (numq x %/ denq x)%Z.

Example C78_numerics : numerics (3%:R : rat) hxse 5%:R hx_abs hx_log hx_floor.
Proof.
split.
- by split.
- move=> x; have d0 : (0 : rat) < (denq x)%:~R by rewrite ltr0z denq_gt0.
  rewrite -{2 3}(divq_num_den x) /hx_floor ler_pdivl_mulr // ltr_pdivr_mulr //.
  rewrite -[1 in X in _ && X]/(1%:~R) -intrD -!intrM ler_int ltr_int.
  by rewrite lez_floor ?denq_neq0 //= ltz_ceil ?denq_gt0.
- split=> [x|x||x]; rewrite /hx_abs ?le_maxr ?lexx ?orbT //= normr0.
  by apply/max_idPl.
- by move=> x _; rewrite /hx_log /= subr_eq0; split=> //; case: ifP.
Qed.

(* a continuous model with a fast real mode and a slow pair of complex ones; the pair matters *)
Definition hx_modes (_ : state Q) : seq (mode rat) :=
  [:: Mode (- 100%:R, 0) 1 1 1; Mode (- 2%:R^-1, 2%:R) 1 1 1; Mode (- 2%:R^-1, - 2%:R) 1 1 1].
Example C78_example : exists N h,
  [/\ auto_time (3%:R : rat) hxse 5%:R hx_abs hx_log hx_floor (fun _ => [::]) hx_modes exM true = Ok (N.+1, h),
    0 < h, 5%:R <= 2%:R^-1 * (N%:R * h) & (100 <= N)%N].
Proof.
have [||N [h [e h0 /andP[hN _] /(_ (Mode (- 2%:R^-1, 2%:R) 1 1 1))]]] :=
  @C78_continuous Q 3%:R hxse 5%:R hx_abs hx_log hx_floor (fun _ => [::]) hx_modes exM true C78_numerics.
- by vm_compute.
- by vm_compute.
case; [by right; left | | by vm_compute |].
  right; split; last by vm_compute.
  by move=> m [<-|[<-|[<-|[]]]] _; vm_compute.
have ud : ~~ undamped hxse (- 2%:R^-1, 2%:R) by vm_compute.
move=> _ /(_ ud) k _ _; exists N, h; split; [exact: e | exact: h0 | | exact: hN].
by move: k; rewrite [X in `|X|]/= normrN ger0_norm ?invr_ge0 ?ler0n.
Qed.

Lemma bernoulli (R : realFieldType) (e : R) n : 0 <= e -> e <= 1 -> 1 - n%:R * e <= (1 - e) ^+ n.
Proof.
move=> e0 e1; elim: n => [|n IH]; first by rewrite mul0r subr0.
rewrite exprS; apply: (@le_trans _ _ ((1 - e) * (1 - n%:R * e))); last by rewrite ler_wpmul2l // subr_ge0.
have -> : (1 - e) * (1 - n%:R * e) = 1 - n.+1%:R * e + n%:R * e * e by rewrite -addn1 natrD; mc_ring R.
by rewrite ler_addl !mulr_ge0 ?ler0n.
Qed.

(* a pole at 0.99: 26 samples, after which 75 percent of the initial response are still there *)
Example C78_unsettled : let G := St (mk 1 1 (fun _ _ => 1 - 100%:R^-1)) (mk 1 1 (fun _ _ => 1)) (mk 1 1 (fun _ _ => 1))
    (mk 1 1 (fun _ _ => 0)) false (Some (1 : rat)) in
  auto_time (3%:R : rat) hxse 5%:R hx_abs hx_log hx_floor (fun A => [:: (get A 0 0, 0)]) (fun _ => [::]) G true = Ok (26%N, 1) /\
  3%:R / 4%:R <= get (sa G) 0 0 ^+ 25.
Proof.
split.
  2: rewrite get_mk; [|by []|by []]; apply: (@le_trans _ _ (1 - 25%:R * 100%:R^-1)); [by vm_compute|].
  2: by apply: bernoulli; vm_compute.
apply: (@C78_real_poles_refuted Q 3%:R hxse 5%:R hx_abs hx_log hx_floor _ _ _ 1 true 25 C78_numerics).
- by vm_compute.
- by vm_compute.
- by vm_compute.
- split; last by exists (1 - 100%:R^-1, 0); vm_compute.
  by move=> x; rewrite inE => /eqP ->; vm_compute.
- by [].
- by vm_compute.
Qed.

(* the sampled average of two inputs, 1/(z + 1): no response at all *)
Example C78_minus_one sq tn expm bal rtol atol : let G := St (mk 1 1 (fun _ _ => - 1)) (mk 1 1 (fun _ _ => 1)) (mk 1 1 (fun _ _ => 1))
    (mk 1 1 (fun _ _ => 0)) false (Some (1 : rat)) in
  simulate_step_auto (3%:R : rat) hxse 5%:R hx_abs hx_log hx_floor (fun A => [:: (get A 0 0, 0)]) (fun _ => [::]) sq tn expm bal rtol atol G =
    Err ValueError.
Proof.
move=> G.
have [||||] := @C78_discrete_refuted Q 3%:R hxse 5%:R hx_abs hx_log hx_floor (fun A => [:: (get A 0 0, 0)]) (fun _ => [::])
  sq tn expm bal rtol atol G 1 true C78_numerics.
- by vm_compute.
- by vm_compute.
- by vm_compute.
- by right; exists (- 1, 0); vm_compute.
- by move=> _ h _; exact: h.
Qed.
