(* C79: the frequency grid of frequency_response when no frequencies are given. *)
From mathcomp Require Import all_ssreflect all_algebra zify.
From Coq Require Import String.
From Verif Require Import Base BaseTheory Spec ModelPoly PolyTheory ModelState Denote StateTheory StateProps
  ModelTransfer DenoteT TransferTheory TransferOps TransferProps ModelCtrl CtrlTheory SpecSim KalmanTheory RingTac
  ModelFreq SpecFreq FreqTheory PropsFreq SpecHorizon HorizonTheory Cplx ModelGrid SpecGrid GridTheory.

Set Implicit Arguments.
Unset Strict Implicit.
Unset Printing Implicit Defensive.

Import Order.Theory GRing.Theory Num.Theory.
Local Open Scope ring_scope.

Section Grid.
Variable R : realFieldType.
Variables (pi eps sqeps sp100 sp1000 : R) (spc rt log10 exp10 : R -> R).
Variables (cabs : R * R -> R) (clog : R * R -> R * R) (flr : R -> int).
Variable geom : R -> R -> nat -> bool -> seq R.
Variable uniq : seq (R * R) -> seq (R * R).
Local Notation grid := (auto_grid pi eps sqeps sp100 sp1000 spc rt log10 exp10 cabs clog flr geom uniq).
Local Notation sp := (splane pi sp1000 cabs clog).

(* the numerical functions are what they are called; pi, eps, sqrt(eps), ... are positive, spacing(1000) is below 1 *)
Definition grid_numerics : Prop :=
  [/\ [/\ pow10_like exp10 log10, geom_like geom, uniq_like uniq & floor_like flr],
      [/\ abs_like cabs, forall y, cabs (0, y) = `|y| & clog_like cabs clog],
      forall x, (0 <= x -> 0 <= rt x) /\ (0 < x -> 0 < rt x), forall x, 0 <= spc x &
      [/\ 0 < pi, 0 < eps, 0 < sqeps, 0 < sp100 & 0 <= sp1000 < 1]].

(* sampling periods are positive *)
Definition valid_dt (dt : option R) : Prop := if dt is Some h then 0 < h else True.
(* one of each conjugate pair, integrators left out *)
Definition relevant_mode (dt : option R) (x : R * R) : Prop := ~~ integrator dt x /\ 0 <= x.2.

Lemma keptE dt x : relevant_mode dt x -> kept dt x. Proof. by case=> h1 h2; rewrite /kept h1 -leNgt. Qed.
Lemma keptW dt x : kept dt x -> relevant_mode dt x. Proof. by case/andP=> h1; rewrite -leNgt => h2; split. Qed.

(* the grid is increasing and positive, and below the Nyquist frequency; it keeps a distance from the frequency of every
   undamped pole or zero, and contains the peak frequency of every damped one that is not too close to one of those *)
Theorem C79_grid dt pz n W : grid_numerics -> valid_dt dt -> grid false dt pz n = Ok W ->
  [/\ sorted <=%O W, forall w, w \in W -> 0 < w,
      forall h w, dt = Some h -> w \in W -> w <= 199%:R / 200%:R * (pi / h),
      forall x w, x \in pz -> relevant_mode dt x -> ratio cabs (sp dt x) < sqeps -> w \in W ->
        100%:R * eps <= `|w - cabs (sp dt x)| &
      forall x, x \in pz -> relevant_mode dt x -> sqeps <= ratio cabs (sp dt x) ->
        let w := peak rt cabs (sp dt x) in
        (forall h, dt = Some h -> w <= 199%:R / 200%:R * (pi / h)) ->
        (forall y, y \in pz -> relevant_mode dt y -> ratio cabs (sp dt y) < sqeps -> 100%:R * eps <= `|w - cabs (sp dt y)|) ->
        w \in W].
Proof.
case=> [[pw ge un fl] [ab ab2 lg] rt0 spc0 [pi0 ep0 sq0 s0 /andP[t0 t1]]] hd E.
have [N [hN so hW]] := gridP E.
split=> // [w|h w eh|x w hx /keptE kx hr|x hx /keptE kx hr w hh hy].
- rewrite hW => /andP[hh _]; move: hh => /orP[/orP[h|h]|]; [exact: (logsp_gt0 pw h) | exact: (extras_gt0 pw ge fl h) |].
  by case: (dt) => // h h'; exact: (logsp_gt0 pw h').
- by rewrite hW eh => /and3P[].
- rewrite hW => /and3P[_ _ /allP /(_ _ (modesP pi sp1000 cabs clog un hx kx))].
  by rewrite /damp -/(ratio _ _) hr.
rewrite hW; apply/and3P; split.
- have hm := modesP pi sp1000 cabs clog un hx kx.
  have m0 : 0 < cabs (sp dt x) by apply: (modes_gt0 un ab lg pi0 _ t0 hm); case: (dt) hd.
  have ec : center sqeps spc rt cabs (sp dt x) = w.
    by rewrite /center /damp -/(ratio _ _) [_ < Num.min _ _]ltNge le_minl hr.
  have w0 : 0 < w.
    rewrite /w /peak; case: ifP => // h1; apply: mulr_gt0 => //; apply: (rt0 _).2.
    have r0 : 0 <= ratio cabs (sp dt x) by rewrite divr_ge0 // ltW.
    rewrite subr_gt0 -ltr_pdivl_mull ?ltr0n // mulr1.
    rewrite (@le_lt_trans _ _ (ratio cabs (sp dt x) * 2%:R^-1)) //; first by rewrite expr2 ler_wpmul2l // ltW.
    by rewrite gtr_pmull ?invr_gt0 ?ltr0n // (lt_le_trans h1) // invf_le1 ?ler1n ?ltr0n.
  apply/orP; left; apply/orP; right; rewrite -ec; apply: (extrasP _ _ _ _ pw ge fl _).2; rewrite ?ec //.
  by rewrite by_freq_mem.
- by case: (dt) hh => // h; apply.
apply/allP => m hm; apply/implyP => hs; have [y [hy1 hy2 e]] := modes_inv un hx kx hm.
by rewrite e in hs *; apply: hy => //; apply: keptW.
Qed.

(* no point of the grid is a pole or a zero *)
Theorem C79_avoids (L : fieldType) (f : {rmorphism R -> L}) (ii : L) (expL : L -> L) dt pz n W :
  grid_numerics -> valid_dt dt -> ii ^+ 2 = -1 -> polar_like f ii expL pi cabs clog -> grid false dt pz n = Ok W ->
  forall w x, w \in W -> x \in pz -> jw f ii expL dt w != f x.1 + ii * f x.2.
Proof.
move=> nm hd i2 po E w x hw hx; have [_ /(_ w hw) w0 hn hu _] := C79_grid nm hd E.
have [_ [ab ab2 lg] _ _ [pi0 ep0 sq0 s0 /andP[t0 t1]]] := nm.
have indep a b c d : f a + ii * f b = f c + ii * f d -> (a = c) /\ (b = d).
  move=> e; have h : f ((a - c) ^+ 2 + (b - d) ^+ 2) = 0.
    have e1 : f (a - c) = - (ii * f (b - d)).
      by apply/eqP; rewrite -addr_eq0 !rmorphB /= mulrBr addrACA -opprD -e subrr.
    by rewrite rmorphD /= !rmorphX /= e1 sqrrN exprMn i2 mulN1r addNr.
  move/eqP: h; rewrite fmorph_eq0 paddr_eq0 ?sqr_ge0 // !sqrf_eq0 !subr_eq0 => /andP[/eqP h1 /eqP h2]; by [].
apply/negP => /eqP; rewrite /jw.
have fin y : x = y -> relevant_mode dt y -> (sp dt y).1 = 0 -> cabs (sp dt y) = w -> False.
  move=> exy ky e1 e2; rewrite -exy in ky e1 e2; have := hu x w hx ky.
  rewrite /ratio e1 normr0 mul0r => /(_ sq0 hw); by rewrite e2 subrr normr0 leNgt mulr_gt0 ?ltr0n.
case: dt hd E hn hu fin => [h|] hd E hn hu fin.
  have th : 0 < w * h < pi.
    rewrite mulr_gt0 // -ltr_pdivl_mulr //; apply: (le_lt_trans (hn h w erefl hw)).
    by rewrite gtr_pmull ?divr_gt0 // ltr_pdivr_mulr ?ltr0n // mul1r ltr_nat.
  have [y [-> c1 y2 ly]] := po _ th => /indep[e1 e2].
  have sE : sp (Some h) y = (0, w) by rewrite /splane c1 t1 ly /= mul0r mulfK ?gt_eqF.
  apply: (fin y); rewrite ?sE //=; first by case: (x) (y) e1 e2 => a b [c d] /= -> ->.
    split; last exact: ltW; rewrite /integrator; apply: contraTneq y2 => ->; by rewrite ltxx.
  by rewrite ab2 gtr0_norm.
rewrite -[ii * f w]add0r -(rmorph0 f) => /indep[e1 e2].
apply: (fin (0, w)) => //=; first by case: (x) e1 e2 => a b /= <- <-.
  by split; rewrite ?ltW //= /integrator; apply: contraTneq w0 => -[->]; rewrite ltxx.
by rewrite ab2 gtr0_norm.
Qed.

Lemma int_ge (z : int) (k : nat) : k%:R <= z%:~R :> R -> exists2 n : nat, z = n & (k <= n)%N.
Proof.
case: z => [n|n]; first by rewrite -pmulrn ler_nat => h; exists n.
by rewrite NegzE mulrNz -pmulrn => h; have := le_trans (ler0n _ k) h; rewrite oppr_ge0 lern0.
Qed.

Lemma ceil_ge (x : R) (k : nat) : floor_like flr -> k%:R <= x -> exists2 n : nat, - flr (- x) = n & (k <= n)%N.
Proof. by move=> fl h; apply: int_ge; apply: (le_trans h); have /andP[] := ceilP fl x. Qed.

(* continuous models: the grid exists and extends at least one decade below and above every pole and zero, if these are
   not extremely slow or fast *)
Theorem C79_range pz n x0 : grid_numerics -> (if n is Some n then (1 < n)%N else true) ->
  x0 \in pz -> relevant_mode None x0 ->
  (forall x, x \in pz -> relevant_mode None x -> [/\ sp100 <= cabs x, 112%:R * eps <= cabs x & cabs x <= 10%:R ^+ 16]) ->
  exists2 W, grid false None pz n = Ok W &
    forall x, x \in pz -> relevant_mode None x -> exists w1 w2, [/\ w1 \in W, w2 \in W, 10%:R * w1 <= cabs x & 10%:R * cabs x <= w2].
Proof.
move=> nm hn hx0 kx0 hr; have [[pw ge un fl] [ab ab2 lg] rt0 spc0 [pi0 ep0 sq0 s0 /andP[t0 t1]]] := nm.
pose ud := (ends pi sp100 sp1000 log10 cabs clog flr uniq None pz).1.
pose ld := (ends pi sp100 sp1000 log10 cabs clog flr uniq None pz).2.
have inM x : x \in pz -> relevant_mode None x -> x \in grid_modes pi sp1000 cabs clog uniq None pz.
  by move=> hx /keptE kx; have := modesP pi sp1000 cabs clog un hx kx.
have outM m : m \in grid_modes pi sp1000 cabs clog uniq None pz -> m \in pz /\ relevant_mode None m.
  by move=> /(modes_inv un hx0 (keptE kx0))[y [h1 h2 ->]]; split=> //; apply: keptW.
have lo x : x \in pz -> relevant_mode None x -> 10%:R * exp10 ld <= cabs x.
  move=> hx kx; have := low_end pi sp1000 cabs clog uniq pw fl s0 pz; rewrite -/ld ler_pdivl_mulr ?ltr0n // mulrC => h.
  apply: (le_trans h); rewrite le_maxl; have [-> _ _] := hr x hx kx; rewrite andbT.
  by have /andP[] := by_freq_ends cabs (inM x hx kx).
have hi x : x \in pz -> relevant_mode None x -> 10%:R * cabs x <= exp10 ud.
  move=> hx kx; have := high_end sp100 pw un fl ab lg pi0 t0 pz; rewrite -/ud mulrC => h.
  apply: le_trans h; rewrite ler_pmul2l ?ltr0n // le_minr; have [_ _ ->] := hr x hx kx; rewrite andbT.
  by have /andP[] := by_freq_ends cabs (inM x hx kx).
have len : 2%:R <= ud - ld.
  rewrite -(ler_add2r ld) subrK -(e10_le pw) (_ : 2%:R + ld = ld + 1 + 1); last by rewrite (natrD _ 1 1) addrC addrA.
  rewrite (e10S pw (ld + 1)) (e10S pw ld); apply: le_trans (hi _ hx0 kx0); rewrite ler_pmul2l ?ltr0n //; exact: lo.
have [k ek hk] := ceil_ge fl len.
have [N gN hN] : exists2 N, (if n is Some n then Ok n else if 15%:R * - flr (- (ud - ld)) is Posz n then Ok n else Err ValueError) = Ok N & (1 < N)%N.
  case: (n) hn => [m|] hm; first by exists m.
  by rewrite ek; exists (15 * k)%N => //; lia.
have [W eW] : exists W, grid false None pz n = Ok W.
  rewrite /auto_grid -/(ends pi sp100 sp1000 log10 cabs clog flr uniq None pz) [ends _ _ _ _ _ _ _ _ _ _]surjective_pairing -/ud -/ld.
  by rewrite gN; eexists.
exists W => // x hx kx; have [N' [hN' so hW]] := gridP eW.
have eN : N' = N.
  by case: (n) gN hN' => [m [->] //|]; rewrite -/ud -/ld ek => -[<-] [->].
have far w m : m \in grid_modes pi sp1000 cabs clog uniq None pz -> w = exp10 ld \/ w = exp10 ud -> 100%:R * eps <= `|w - cabs m|.
  move=> /outM[hm km] ew; have [_ c1 _] := hr m hm km; have l1 := lo m hm km; have h1 := hi m hm km.
  have c0 : 0 <= cabs m by apply: cabs_ge.
  apply: (@le_trans _ _ (cabs m * (9%:R / 10%:R))).
    apply: (@le_trans _ _ (112%:R * eps * (9%:R / 10%:R))); last by rewrite ler_wpmul2r ?divr_ge0 ?ler0n.
    by rewrite mulrAC ler_wpmul2r ?(ltW ep0) // mulrA -natrM ler_pdivl_mulr ?ltr0n // -natrM ler_nat.
  have e9 : cabs m * (9%:R / 10%:R) = cabs m - cabs m / 10%:R.
    rewrite -[X in _ = X - _]mulr1 -mulrBr; congr (_ * _); apply: (@mulIf _ 10%:R); first by rewrite pnatr_eq0.
    by rewrite mulrBl mulVf ?pnatr_eq0 // divfK ?pnatr_eq0 // mul1r -[1]/(1%:R) -natrB.
  rewrite e9; case: ew => ->.
    by rewrite distrC (le_trans _ (ler_norm _)) // ler_add2l ler_opp2 ler_pdivl_mulr ?ltr0n // mulrC.
  rewrite (le_trans _ (ler_norm _)) //; apply: (@le_trans _ _ (cabs m)); first by rewrite ger_addl oppr_le0 divr_ge0 ?ler0n.
  by rewrite ler_subr_addr (le_trans _ h1) // -[X in X + X]mul1r -mulrDl -[1 + 1]/(2%:R) ler_wpmul2r // ler_nat.
have inW w : w = exp10 ld \/ w = exp10 ud -> w \in W.
  move=> hw; rewrite hW eN; apply/and3P; split=> //; last by apply/allP => m hm; apply/implyP => _; apply: far.
  by apply/orP; left; apply/orP; left; case: hw => ->; [apply: logsp_start; apply: ltnW | apply: logsp_end].
by exists (exp10 ld), (exp10 ud); split; [apply: inW; left | apply: inW; right | apply: lo | apply: hi].
Qed.

(* discrete models: the grid always exists *)
Theorem C79_discrete h pz n : grid_numerics -> 0 < h -> exists W, grid false (Some h) pz n = Ok W.
Proof.
move=> nm h0; have [[pw ge un fl] [ab ab2 lg] rt0 spc0 [pi0 ep0 sq0 s0 /andP[t0 t1]]] := nm.
have [l1 _] := disc_ends sp100 sp1000 cabs clog uniq pw fl pi0 pz h0.
rewrite /auto_grid -/(ends pi sp100 sp1000 log10 cabs clog flr uniq (Some h) pz).
rewrite [ends _ _ _ _ _ _ _ _ _ _]surjective_pairing.
have [k -> hk] := ceil_ge (k := 1) fl l1.
case: n => [m|]; first by eexists.
by eexists.
Qed.

(* False of the code: a continuous model all of whose poles and zeros are extremely slow, but not integrators, has no
   grid: the exponents of the end points cross and logspace is asked for a negative number of points *)
Theorem C79_slow_refuted pz x0 : grid_numerics -> x0 \in pz -> relevant_mode None x0 ->
  (forall x, x \in pz -> relevant_mode None x -> 10%:R ^+ 5 * cabs x <= sp100) -> sp100 <= 1 ->
  grid false None pz None = Err ValueError.
Proof.
move=> nm hx0 kx0 hr s1; have [[pw ge un fl] [ab ab2 lg] rt0 spc0 [pi0 ep0 sq0 s0 /andP[t0 t1]]] := nm.
have outM m : m \in grid_modes pi sp1000 cabs clog uniq None pz -> m \in pz /\ relevant_mode None m.
  by move=> /(modes_inv un hx0 (keptE kx0))[y [h1 h2 ->]]; split=> //; apply: keptW.
have sm m : m \in grid_modes pi sp1000 cabs clog uniq None pz -> 10%:R ^+ 5 * cabs m <= sp100.
  by move=> /outM[h1 h2]; apply: hr.
have p5 : 1 <= 10%:R ^+ 5 :> R by rewrite exprn_ege1 // ler1n.
have sm1 m : m \in grid_modes pi sp1000 cabs clog uniq None pz -> cabs m <= sp100.
  by move=> /sm; apply: le_trans; rewrite ler_pemull // cabs_ge.
rewrite /auto_grid /grid_ends; set ms := by_freq _ _.
have hm : forall m, m \in ms -> m \in grid_modes pi sp1000 cabs clog uniq None pz by move=> m; rewrite by_freq_mem.
have ne : ms != [::].
  have := mode_ex pi sp1000 cabs clog uniq None pz => -[m]; rewrite -(by_freq_mem cabs) -/ms; by case: (ms).
have hd : cabs (head (0, 0) ms) <= sp100 by apply: sm1; apply: hm; case: (ms) ne => // a s _; rewrite inE eqxx.
have lm : last (0, 0) ms \in grid_modes pi sp1000 cabs clog uniq None pz.
  by apply: hm; case: (ms) ne => // a s _; rewrite [last _ _]/= mem_last.
rewrite (max_idPr hd); set a := cabs (last _ _).
have a0 : 0 < a by apply: (last_pos un ab lg pi0 t0 (dt := None)).
have a1 : a <= 10%:R ^+ 16.
  by apply: (le_trans (sm1 _ lm)); apply: (le_trans s1); rewrite exprn_ege1 // ler1n.
rewrite (min_idPl a1) /=.
have /andP[_ c1] := ceilP fl (log10 a); have /andP[_ f1] := floorP fl (log10 sp100).
have la : log10 a + 5%:R <= log10 sp100.
  rewrite -(e10_le pw) (e10K pw s0).
  have -> : log10 a + 5%:R = log10 a + 1 + 1 + 1 + 1 + 1 by rewrite (natrD _ 4 1) (natrD _ 3 1) (natrD _ 2 1) (natrD _ 1 1) !addrA.
  by rewrite !(e10S pw) (e10K pw a0); have := sm _ lm; rewrite -/a !exprS expr0 mulr1 -!mulrA.
set ud := _ + 1; set ld := _ - 1.
have neg : ud - ld < - 1.
  apply: (@lt_le_trans _ _ ((log10 a + 1 + 1) - (log10 sp100 - 1 - 1))).
    rewrite /ud /ld ltr_add ?ltr_add2r // ltr_oppl opprK ltr_add2r ltr_subl_addr //.
  have -> : log10 a + 1 + 1 - (log10 sp100 - 1 - 1) = log10 a + 5%:R - log10 sp100 - 1.
    by rewrite (natrD _ 4 1) (natrD _ 3 1) (natrD _ 2 1) (natrD _ 1 1); mc_ring R.
  by rewrite ger_addr subr_le0.
have /andP[_ f2] := fl (- (ud - ld)).
have : 1 < flr (- (ud - ld)) + 1.
  by rewrite -(ltr_int R) intrD (lt_trans _ f2) // ltr_oppr.
rewrite ltr_addr; case: (flr _) => [[|k]|k] // _.
Qed.

(* static gains: the two end points, 0.01 and 100 rad/s or one hundredth of the Nyquist frequency and that frequency *)
Theorem C79_gain dt pz : grid_numerics -> valid_dt dt ->
  grid true dt pz None = Ok (if dt is Some h then [:: pi / h / 100%:R; pi / h] else [:: 100%:R^-1; 100%:R]).
Proof.
move=> nm hd; have [[pw _ _ _] _ _ _ [pi0 _ _ _ _]] := nm.
rewrite /auto_grid /logsp /= /mkseq /= mul0r addr0 mul1r divr1 [_ + (_ - _)]addrC subrK.
have e2 x : exp10 (x - 2%:R) = exp10 x / 100%:R.
  by rewrite (natrD _ 1 1) opprD addrA !(e10N pw) -mulrA -invfM -natrM.
case: dt hd => [h|] hd.
  have n0 : 0 < pi / h by rewrite divr_gt0.
  by rewrite e2 (e10K pw n0).
have e0 : exp10 0 = 1 by case: pw.
have -> : exp10 (- 2%:R) = 100%:R^-1 by rewrite -[- _]add0r e2 e0 mul1r.
have -> : 2%:R = 0 + 1 + 1 :> R by rewrite add0r.
by rewrite !(e10S pw) e0 mulr1 -natrM.
Qed.

(* ---- frequency_response(G) ---- *)
Section Response.
Variables (L : fieldType) (f : {rmorphism R -> L}) (qr hess : arr R -> arr R * arr R) (ii : L) (expL : L -> L).
Variables (poles zeros : state R -> seq (R * R)) (polesT zerosT : tf R -> seq (R * R)).
Local Notation response := (fr_state_auto pi eps sqeps sp100 sp1000 spc rt log10 exp10 cabs clog flr geom uniq f qr hess ii expL poles zeros).
Local Notation responseT := (fr_transfer_auto pi eps sqeps sp100 sp1000 spc rt log10 exp10 cabs clog flr geom uniq f ii expL polesT zerosT).

(* the complex number x is one of the numbers in the list *)
Definition listed (s : L) (l : seq (R * R)) : Prop := exists2 x, x \in l & s = f x.1 + ii * f x.2.

Lemma below_auto dt pz n W : grid_numerics -> valid_dt dt -> grid false dt pz n = Ok W ->
  below_nyquist (2%:R * pi) dt (in_rad (2%:R * pi) "rad/s" W) = W.
Proof.
move=> nm hd E; have [_ _ hn _ _] := C79_grid nm hd E; rewrite /in_rad /=.
have [_ _ _ _ [pi0 _ _ _ _]] := nm; have p2 : 2%:R * pi / 2%:R = pi by rewrite mulrAC mulfV ?mul1r // pnatr_eq0.
case: dt hd E hn => [h|] //= hd E hn; apply/all_filterP/allP => w hw; rewrite p2.
apply: (le_trans (hn h w erefl hw)); rewrite ger_pmull ?divr_gt0 //.
by rewrite ler_pdivr_mulr ?ltr0n // mul1r ler_nat.
Qed.

(* every sample of the response of a Transfer model is the value of its transfer function at that frequency: the grid
   avoids all roots of the denominators *)
Theorem C79_transfer (G : tf R) n iu ou W : grid_numerics -> valid_dt (tdt G) -> ii ^+ 2 = -1 -> polar_like f ii expL pi cabs clog ->
  tgain G = false -> known_unit iu -> known_unit ou ->
  (forall s i j, (i < tp G)%N -> (j < tm G)%N -> ~~ dfT f G s i j -> listed s (polesT G)) ->
  grid false (tdt G) (polesT G ++ zerosT G) n = Ok W -> W != [::] ->
  exists fr, responseT G n iu ou = Ok (fr, to_unit (2%:R * pi) ou W) /\
    forall i j, (i < tp G)%N -> (j < tm G)%N ->
      samples fr i j = [seq Some (evT f G (jw f ii expL (tdt G) w) i j) | w <- W].
Proof.
move=> nm hd i2 po hg ki ko hp E W0; rewrite /fr_transfer_auto (known_ok ki) (known_ok ko) hg E [bind _ _]/=.
have eW := below_auto nm hd E.
have [|fr [-> hs]] := @fr_transferP R L f ii expL (2%:R * pi) G W "rad/s" ou hg isT ko; first by right; rewrite eW.
rewrite eW in hs *; exists fr; split=> // i j hi hj; rewrite hs //; apply/eq_in_map => w hw.
rewrite /=; case: ifP => // /negbT /(hp _ i j hi hj)[x hx e].
by have := C79_avoids nm hd i2 po E hw (x := x); rewrite mem_cat hx e eqxx => /(_ isT).
Qed.

(* State models: no sample is taken at a pole.  What is missing: the elimination without pivoting may still fail, when a
   leading minor of the computed Hessenberg form vanishes there (C45) *)
Theorem C79_state_partial (G : state R) n iu ou W : grid_numerics -> valid_dt (sdt G) -> ii ^+ 2 = -1 -> polar_like f ii expL pi cabs clog ->
  wfS G -> sgain G = false -> (0 < snn G)%N -> known_unit iu -> known_unit ou ->
  (forall i, (i < spn G)%N -> hess_req qr hess (aT (sa G)) (aT (arows (sc G) [:: i]))) ->
  (forall s, ~~ regS f G s -> listed s (poles G)) ->
  grid false (sdt G) (poles G ++ zeros G) n = Ok W -> W != [::] ->
  exists fr, response G n iu ou = Ok (fr, to_unit (2%:R * pi) ou W) /\
    forall i j k, (i < spn G)%N -> (j < smn G)%N -> (k < size W)%N ->
      let s := jw f ii expL (sdt G) (nth 0 W k) in
      regS f G s /\
      match sample fr i j k with
      | Some v => v = ev f G s i j
      | None => exists l, (l <= snn G)%N /\ lead_minor f (row_hess qr hess G i) s l = 0
      end.
Proof.
move=> nm hd i2 po w0 hg n0 ki ko hq hp E W0; rewrite /fr_state_auto (known_ok ki) (known_ok ko) hg E [bind _ _]/=.
have eW := below_auto nm hd E.
have [|fr [-> hs]] := @fr_stateP R L f qr hess ii expL (2%:R * pi) G W "rad/s" ou w0 hg n0 isT ko hq; first by right; rewrite eW.
rewrite eW in hs *; exists fr; split=> // i j k hi hj hk; have [_ /(_ k hk) h] := hs i j hi hj; split.
  apply: contraT => /hp[x hx e].
  by have := C79_avoids nm hd i2 po E (mem_nth 0 hk) (x := x); rewrite mem_cat hx e eqxx => /(_ isT).
by move: h; case: (sample _ _ _ _) => // v [].
Qed.
End Response.
End Grid.

Print Assumptions C79_grid.
Print Assumptions C79_avoids.
Print Assumptions C79_range.
Print Assumptions C79_discrete.
Print Assumptions C79_slow_refuted.
Print Assumptions C79_gain.
Print Assumptions C79_transfer.
Print Assumptions C79_state_partial.

(* ---- the hypotheses are met, over the rationals ---- *)
Local Notation Q := rat_realFieldType.
Definition gx_floor (x : Q) : int := (numq x %/ denq x)%Z.
Lemma gx_floorP : floor_like gx_floor.
Proof.
move=> x; have d0 : (0 : rat) < (denq x)%:~R by rewrite ltr0z denq_gt0.
rewrite -{2 3}(divq_num_den x) /gx_floor ler_pdivl_mulr // ltr_pdivr_mulr //.
rewrite -[1 in X in _ && X]/(1%:~R) -intrD -!intrM ler_int ltr_int.
by rewrite lez_floor ?denq_neq0 //= ltz_ceil ?denq_gt0.
Qed.
Lemma gx_floor_uniq (x : Q) (k : int) : k%:~R <= x -> x < k%:~R + 1 -> gx_floor x = k.
Proof.
move=> h1 h2; have /andP[h3 h4] := gx_floorP x.
apply/eqP; rewrite eq_le -!ltz_addr1 -!(ltr_int [numDomainType of Q]) !intrD.
by rewrite (le_lt_trans h3 h2) (le_lt_trans h1 h4).
Qed.

(* powers of ten, interpolated linearly *)
Definition gx_exp (x : Q) : Q := 10%:R ^ gx_floor x * (1 + 9%:R * (x - (gx_floor x)%:~R)).
Lemma ten0 : (10%:R : Q) != 0. Proof. by []. Qed.
Lemma ten_gt0 (k : int) : (0 : Q) < 10%:R ^ k. Proof. by rewrite exprz_gt0 ?ltr0n. Qed.
Lemma gx_expE (k : int) (t : Q) : 0 <= t -> t < 1 -> gx_exp (k%:~R + t) = 10%:R ^ k * (1 + 9%:R * t).
Proof.
move=> h1 h2; rewrite /gx_exp (@gx_floor_uniq _ k) ?ler_addl // ?ltr_add2l //.
by rewrite [_ + t]addrC addrK.
Qed.
Lemma gx_split (x : Q) : exists k t, [/\ x = k%:~R + t, 0 <= t & t < 1].
Proof.
have /andP[h1 h2] := gx_floorP x; exists (gx_floor x), (x - (gx_floor x)%:~R).
by rewrite addrC subrK subr_ge0 h1 ltr_subl_addl h2.
Qed.
Lemma gx_exp_bounds (k : int) (t : Q) : 0 <= t -> t < 1 -> 10%:R ^ k <= 10%:R ^ k * (1 + 9%:R * t) < 10%:R ^ (k + 1).
Proof.
move=> h1 h2; rewrite ler_pemulr ?(ltW (ten_gt0 _)) ?ler_addl ?mulr_ge0 ?ler0n //=.
rewrite expfzDr ?ten0 // expr1z ltr_pmul2l ?ten_gt0 // (natrD _ 1 9) ltr_add2l.
by rewrite -[X in _ < X]mulr1 ltr_pmul2l ?ltr0n.
Qed.
Lemma gx_exp_lt (x y : Q) : x < y -> gx_exp x < gx_exp y.
Proof.
have [k [t [-> t0 t1]]] := gx_split x; have [l [u [-> u0 u1]]] := gx_split y.
move=> h; rewrite !gx_expE //.
have /andP[b1 b2] := gx_exp_bounds k t0 t1; have /andP[b3 b4] := gx_exp_bounds l u0 u1.
case: (ltrP k l) => hkl.
  apply: (lt_le_trans b2); apply: le_trans b3.
  by rewrite ler_eexpz2l ?ltr1n // lez_addr1.
have ekl : k = l.
  apply/eqP; rewrite eq_le hkl andbT -ltz_addr1 -(ltr_int [numDomainType of Q]) intrD.
  by apply: (@le_lt_trans _ _ (k%:~R + t)); rewrite ?ler_addl // (lt_trans h) // ltr_add2l.
by rewrite ekl in h *; rewrite ltr_pmul2l ?ten_gt0 // ltr_add2l ltr_pmul2l ?ltr0n //; rewrite ltr_add2l in h.
Qed.
Lemma gx_exp_le (x y : Q) : (gx_exp x <= gx_exp y) = (x <= y).
Proof.
apply/idP/idP => [|]; last by rewrite le_eqVlt => /orP[/eqP ->|/gx_exp_lt/ltW].
by rewrite leNgt => h; rewrite leNgt; apply: contra h => /gx_exp_lt.
Qed.

Lemma gx_decade (x : Q) : 0 < x -> exists k : int, 10%:R ^ k <= x < 10%:R ^ (k + 1).
Proof.
move=> x0.
have big (y : Q) : 0 < y -> exists n : nat, y < 10%:R ^+ n.
  move=> y0; exists (Num.bound y); have := archi_boundP (ltW y0); move=> h; apply: (lt_le_trans h).
  by rewrite -natrX ler_nat ltnW // ltn_expl.
have [n1 h1] := big x x0; have [n2 h2] := big x^-1 (etrans (invr_gt0 _) x0).
have ex : exists j, x < 10%:R ^ (j%:Z - n2%:Z) by exists (n1 + n2)%N; rewrite PoszD addrK.
case: (ex_minnP ex) => j hj mj; exists (j%:Z - n2%:Z - 1); rewrite subrK hj andbT.
rewrite leNgt; apply/negP => hn; case: j hj mj hn => [|j] hj mj hn.
  move: hj; rewrite sub0r -exprnN ltNge => /negP; apply.
  by rewrite -[x]invrK ler_pinv ?inE ?unitfE ?expf_neq0 ?ten0 ?exprn_gt0 ?ltr0n ?invr_eq0 ?gt_eqF ?invr_gt0 //= ltW.
have e : j.+1%:Z - n2%:Z - 1 = j%:Z - n2%:Z by lia.
by rewrite e in hn; have := mj j hn; rewrite ltnn.
Qed.
Definition gx_log (x : Q) : Q :=
  if 0 < x =P true is ReflectT h then let k := xchoose (gx_decade h) in k%:~R + (x / 10%:R ^ k - 1) / 9%:R else 0.
Lemma gx_logK (x : Q) : 0 < x -> gx_exp (gx_log x) = x.
Proof.
move=> x0; rewrite /gx_log; case: eqP => // h; set k := xchoose _; have /andP[h1 h2] := xchooseP (gx_decade h).
rewrite -/k in h1 h2 *; have p0 := ten_gt0 k.
rewrite gx_expE.
- by rewrite mulrCA mulfV // mulr1 addrC subrK mulrCA mulfV ?mulr1 // gt_eqF.
- by rewrite divr_ge0 ?ler0n // subr_ge0 ler_pdivl_mulr // mul1r.
rewrite ltr_pdivr_mulr ?ltr0n // mul1r ltr_subl_addr (_ : 9%:R + 1 = 10%:R :> Q); last by apply/eqP.
rewrite ltr_pdivr_mulr // mulrC.
by move: h2; rewrite expfzDr ?ten0 // expr1z.
Qed.
Lemma gx_pow10 : pow10_like gx_exp gx_log.
Proof.
split.
- move=> x; have [k [t [-> t0 t1]]] := gx_split x; rewrite gx_expE // mulr_gt0 ?ten_gt0 //.
  by rewrite (@lt_le_trans _ _ 1) ?ltr01 // ler_addl mulr_ge0 ?ler0n.
- exact: gx_exp_le.
- exact: gx_logK.
- by rewrite -[0 : Q]addr0 -{1}[0 : Q]/(0%:~R) gx_expE // ?mulr0 ?addr0 ?mulr1 // ltr01.
move=> x; have [k [t [-> t0 t1]]] := gx_split x.
by rewrite addrAC -[1 : Q]/(1%:~R) -intrD !gx_expE // expfzDr ?ten0 // expr1z mulrCA mulrA.
Qed.

(* the absolute value is exact on the axes and on the unit circle; the upper half of the circle is parametrised by
   rational points *)
Definition gx_abs (x : Q * Q) : Q := if x.1 ^+ 2 + x.2 ^+ 2 == 1 then 1 else Num.max `|x.1| `|x.2|.
Definition gx_pi : Q := 3%:R.
Definition gx_clog (x : Q * Q) : Q * Q :=
  (gx_abs x - 1,
   if (0 < x.1) && (x.2 == 0) then 0
   else if (x.1 ^+ 2 + x.2 ^+ 2 == 1) && (0 < x.2) then let u := x.2 / (1 + x.1) in gx_pi * (u / (1 + u)) else 1).
Definition gx_point (t : Q) : Q * Q :=
  let u := t / (gx_pi - t) in ((1 - u ^+ 2) / (1 + u ^+ 2), 2%:R * u / (1 + u ^+ 2)).
Definition gx_expL (z : cpl Q) : cpl Q := of_p (gx_point (cim z)).

Lemma sq_norm1 (a b : Q) : a ^+ 2 + b ^+ 2 = 1 -> `|a| <= 1.
Proof.
move=> e; have h : `|a| ^+ 2 <= 1 ^+ 2 by rewrite expr1n real_normK ?num_real // -e ler_addl sqr_ge0.
by move: h; rewrite ler_sqr ?nnegrE ?ler01.
Qed.
Lemma gx_abs_like : abs_like gx_abs /\ forall y, gx_abs (0, y) = `|y|.
Proof.
have one (a : Q) : a ^+ 2 = 1 -> 1 = `|a| by move/eqP; rewrite sqrf_eq1 => /orP[] /eqP ->; rewrite ?normrN normr1.
split; last first.
  by move=> y; rewrite /gx_abs /= expr0n add0r; case: eqP => [/one //|_]; rewrite normr0; apply/max_idPr.
split=> [x|x||x]; rewrite /gx_abs.
- by case: eqP => [/sq_norm1|_] //; rewrite le_maxr lexx.
- by case: eqP => [|_]; [rewrite addrC => /sq_norm1 | rewrite le_maxr lexx orbT].
- by apply/eqP; vm_compute.
by rewrite /= expr0n addr0; case: eqP => [/one //|_]; rewrite normr0; apply/max_idPl.
Qed.
Lemma gx_clog_like : clog_like gx_abs gx_clog.
Proof.
move=> x x0; rewrite /gx_clog /= subr_eq0; split=> //; case h1 : (_ && _); rewrite ?eqxx //.
case: ifP => // /andP[/eqP e y0]; apply/negbTE.
have a1 : 0 < 1 + x.1.
  have := sq_norm1 e; rewrite ler_norml => /andP[h _]; rewrite lt_def -[X in _ && X]ler_subl_addl sub0r h andbT.
  apply: contraTneq y0 => h2; have ex : x.1 = -1 by apply/eqP; rewrite -subr_eq0 opprK addrC h2.
  by move: e; rewrite ex sqrrN expr1n => /eqP; rewrite -[X in _ == X]addr0 (inj_eq (addrI 1)) sqrf_eq0 => /eqP ->; rewrite ltxx.
have u0 : 0 < x.2 / (1 + x.1) by rewrite divr_gt0.
by rewrite gt_eqF // mulr_gt0 ?ltr0n // divr_gt0 // addr_gt0.
Qed.
Lemma gx_half (v : Q) : 1 + v != 0 -> 1 + (1 - v) / (1 + v) = 2%:R / (1 + v).
Proof.
move=> vn; rewrite -{1}(@divff _ (1 + v)) // -mulrDl; congr (_ / _).
by rewrite (natrD _ 1 1); mc_ring Q.
Qed.
Lemma gx_quot (v w : Q) : v != 0 -> 2%:R * w / v / (2%:R / v) = w.
Proof. by move=> vn; rewrite invfM invrK mulrACA mulVf // mulr1 mulrAC mulfV // mul1r. Qed.
Lemma gx_polar : polar_like (c_of_rmorphism Q) (Cpl 0 1) gx_expL gx_pi gx_abs gx_clog.
Proof.
move=> t /andP[t0 t1]; exists (gx_point t).
have d0 : 0 < gx_pi - t by rewrite subr_gt0.
set u := t / (gx_pi - t); have u0 : 0 < u by rewrite divr_gt0.
have s0 : 0 < 1 + u ^+ 2 by rewrite addr_gt0 ?ltr01 ?exprn_gt0.
have sn : 1 + u ^+ 2 != 0 by rewrite gt_eqF.
have y0 : 0 < (gx_point t).2 by rewrite /= -/u divr_gt0 // mulr_gt0 ?ltr0n.
have e : (gx_point t).1 ^+ 2 + (gx_point t).2 ^+ 2 = 1.
  rewrite /gx_point -/u [X in X ^+ 2 + _]/= [X in _ + X ^+ 2]/= (expr_div_n (1 - u ^+ 2)) (expr_div_n (2%:R * u)) -mulrDl.
  have -> : (1 - u ^+ 2) ^+ 2 + (2%:R * u) ^+ 2 = (1 + u ^+ 2) ^+ 2 by rewrite (natrD _ 1 1); mc_ring Q.
  by rewrite mulfV // expf_neq0.
split=> //.
- rewrite /gx_expL; have -> : cim (Cpl 0 1 * c_of_rmorphism Q t) = t.
    by change (0 * 0 + 1 * t = t); rewrite mul0r add0r mul1r.
  move: (gx_point t) => [a b]; rewrite /of_p /=; apply/eqP; apply/eqP.
  change (Cpl a b = Cpl (a + (0 * b - 1 * 0)) (0 + (0 * 0 + 1 * b))).
  by rewrite !mul0r !mulr0 subr0 addr0 !add0r mul1r.
- by rewrite /gx_abs e eqxx.
rewrite /gx_clog /gx_abs e eqxx subrr y0 (gt_eqF y0) andbF; congr (_, _).
rewrite /gx_point -/u /=.
have -> : 1 + (1 - u ^+ 2) / (1 + u ^+ 2) = 2%:R / (1 + u ^+ 2).
  exact: gx_half.
have -> : 2%:R * u / (1 + u ^+ 2) / (2%:R / (1 + u ^+ 2)) = u.
  exact: gx_quot.
have -> : 1 + u = gx_pi / (gx_pi - t).
  by apply: (@mulIf _ (gx_pi - t)); rewrite ?gt_eqF // mulrDl /u !divfK ?gt_eqF // mul1r subrK.
by rewrite /u invfM invrK mulrACA mulVf ?gt_eqF // mulr1 mulrCA mulfV ?mulr1.
Qed.

Definition gx_geom (a b : Q) (n : nat) (e : bool) : seq Q := nseq n a.
Definition gx_eps : Q := (10 * 100)%:R^-1.
Example C79_numerics : grid_numerics gx_pi gx_eps 10%:R^-1 16%:R^-1 2%:R^-1 (fun _ => 0) id gx_log gx_exp gx_abs gx_clog gx_floor gx_geom id.
Proof.
have [h1 h2] := gx_abs_like.
split; [split | split | by [] | by [] | by split; vm_compute].
- exact: gx_pow10.
- by move=> a b n e _ n0; rewrite mem_nseq n0 eqxx.
- by [].
- exact: gx_floorP.
- exact: h1.
- exact: h2.
- exact: gx_clog_like.
Qed.

(* 1/(s^2 + 1): a frequency response on a grid that extends from below 0.1 to above 10 rad/s and has no nan *)
Definition gx_G : tf Q := Tf [:: [:: [:: 1]]] [:: [:: [:: 1; 0; 1]]] false None.
Definition gx_poles (_ : tf Q) : seq (Q * Q) := [:: (0, 1); (0, -1)].
Example C79_example : exists W fr,
  fr_transfer_auto gx_pi gx_eps 10%:R^-1 16%:R^-1 2%:R^-1 (fun _ => 0) id gx_log gx_exp gx_abs gx_clog gx_floor gx_geom id
     (c_of_rmorphism Q) (Cpl 0 1) gx_expL gx_poles (fun _ => [::]) gx_G None "rad/s" "rad/s" = Ok (fr, W) /\
  [/\ exists2 w, w \in W & 10%:R * w <= 1, exists2 w, w \in W & 10%:R <= w &
      samples fr 0 0 = [seq Some (evT (c_of_rmorphism Q) gx_G (jw (c_of_rmorphism Q) (Cpl 0 1) gx_expL None w) 0 0) | w <- W]].
Proof.
have k1 : relevant_mode None ((0, 1) : Q * Q) by split.
have a1 : gx_abs (0, 1) = 1 by apply/eqP; vm_compute.
have [|x hx kx|W eW hW] := @C79_range Q gx_pi gx_eps 10%:R^-1 16%:R^-1 2%:R^-1 (fun _ => 0) id gx_log gx_exp gx_abs gx_clog gx_floor gx_geom id
  (gx_poles gx_G ++ [::]) None (0, 1) C79_numerics isT _ k1.
- by rewrite inE eqxx.
- have ex : x = (0, 1) by move: hx kx; rewrite /= !inE => /orP[] /eqP -> // [].
  by rewrite ex a1; split; [vm_compute | vm_compute | rewrite exprn_ege1 // ler1n].
have [|w1 [w2 [i1 i2 l1 l2]]] := hW (0, 1) _ k1; first by rewrite inE eqxx.
rewrite a1 ?mulr1 in l1 l2.
have W0 : W != [::] by apply: contraTneq i1 => ->.
have [||fr [E hs]] := @C79_transfer Q gx_pi gx_eps 10%:R^-1 16%:R^-1 2%:R^-1 (fun _ => 0) id gx_log gx_exp gx_abs gx_clog gx_floor gx_geom id
  (cpl_fieldType Q) (c_of_rmorphism Q) (Cpl 0 1) gx_expL gx_poles (fun _ => [::]) gx_G None "rad/s" "rad/s" W C79_numerics I _ gx_polar
  erefl isT isT _ eW W0.
- by apply/eqP; vm_compute.
- move=> s [|//] [|//] _ _; rewrite /dfT negbK /pev -polyhi_map /polyhi horner_Poly /= mul0r add0r rmorph1 rmorph0 mul1r addr0.
  rewrite -expr2 => h; have : s ^+ 2 == (Cpl 0 1) ^+ 2.
    rewrite -subr_eq0; have -> : (Cpl 0 1 : cpl Q) ^+ 2 = -1 by apply/eqP; vm_compute.
    by rewrite opprK.
  rewrite eqf_sqr => /orP[] /eqP ->; [exists (0, 1) | exists (0, -1)]; rewrite ?inE ?eqxx ?orbT //; apply/eqP; vm_compute.
exists W, fr; split; first exact: E.
split; [by exists w1 | by exists w2 | exact: hs].
Qed.

(* a single slow pole, at most spacing(100)/10^5 when that number is 1/16: no grid *)
Example C79_slow_example (x : Q) : 0 < x -> 10%:R ^+ 5 * x <= 16%:R^-1 ->
  auto_grid gx_pi gx_eps 10%:R^-1 16%:R^-1 2%:R^-1 (fun _ => 0) id gx_log gx_exp gx_abs gx_clog gx_floor gx_geom id
    false None [:: (- x, 0)] None = Err ValueError.
Proof.
move=> x0; have kx : relevant_mode None ((- x, 0) : Q * Q).
  by split; [rewrite /integrator xpair_eqE oppr_eq0 gt_eqF | exact: lexx].
have ax : gx_abs (- x, 0) = x by have [[_ _ _ ->] _] := gx_abs_like; rewrite normrN gtr0_norm.
have mx : ((- x, 0) : Q * Q) \in [:: (- x, 0) : Q * Q] by exact: mem_head.
have s1 : 16%:R^-1 <= 1 :> Q by vm_compute.
move=> hx; apply: (C79_slow_refuted C79_numerics mx kx); last exact: s1.
move=> y; rewrite inE => /eqP -> _; rewrite ax; exact: hx.
Qed.
