(* C66: the H2 norm returned by system_norm. *)
From mathcomp Require Import all_ssreflect all_algebra zify.
From Coq Require Import String.
From Verif Require Import Base BaseTheory Spec ModelPoly ModelState Denote StateTheory StateProps ModelTransfer TransferTheory SpecSim ModelFreq
  ModelLyap SpecLyap PropsLyap ModelNorm SpecNorm NormTheory AuxTheory.

Set Implicit Arguments.
Unset Strict Implicit.
Unset Printing Implicit Defensive.

Import Order.Theory GRing.Theory Num.Theory.
Local Open Scope ring_scope.

Local Notation Q := rat_realFieldType.

Section H2.
Variables (R : realFieldType) (L : fieldType) (f : {rmorphism R -> L}).
Variables (qr hess : arr R -> arr R * arr R) (ii : L) (expL : L -> L) (twopi : R).
Variables (tol : R) (schur : arr R -> arr R * arr R) (qz : arr R -> arr R -> arr R * arr R * arr R * arr R).
Variable X0 : nat -> arr R.
Variables (sq : R -> R) (atol sqeps : R).
Variable eigs : arr R -> seq (R * R).
Variable cabs : R * R -> R.
Variable norm2 : arr L -> R.
Variable poles : state R -> seq (R * R).
Variable stable : state R -> bool.
Local Notation mx := (mxof [rmorphism of @idfun R]).
Local Notation norm := (system_norm f qr hess ii expL twopi tol schur qz X0 sq atol sqeps eigs cabs norm2 poles stable).
Implicit Types (G : state R).

(* the matrices of a model *)
Local Notation A_ G := (mx (snn G) (snn G) (sa G)).
Local Notation B_ G := (mx (snn G) (smn G) (sb G)).
Local Notation C_ G := (mx (spn G) (snn G) (sc G)).
Local Notation D_ G := (mx (spn G) (smn G) (sd G)).

(* memory returned by np.empty_like has the right shape; scipy's real Schur form of A' *)
Definition h2_req G : Prop :=
  (nr (X0 (snn G)) = snn G /\ nc (X0 (snn G)) = snn G) /\
  real_schur (snn G) (aT (sa G)) (schur (aT (sa G))).1 (schur (aT (sa G))).2.

Lemma atraceE n (M : arr R) : nr M = n -> atrace M = \tr (mx n n M).
Proof. by move=> <-; rewrite /atrace sumNE; apply: eq_bigr => i _; rewrite mxE. Qed.

Lemma azeroP (D : arr R) : reflect (forall i j, (i < nr D)%N -> (j < nc D)%N -> `|get D i j| <= atol) (azero_like atol D).
Proof.
apply: (iffP allP) => [h i j hi hj|h i].
  have hi' : i \in iota 0 (nr D) by rewrite mem_iota.
  by have /allP h' := h i hi'; apply: h'; rewrite mem_iota.
by rewrite mem_iota => hi; apply/allP => j; rewrite mem_iota => hj; apply: h.
Qed.

Lemma h2_data G : wfS G -> sgain G = false -> h2_req G ->
  data (snn G) (aT (sa G)) (amul (sb G) (aT (sb G))) (X0 (nr (sa G))).
Proof.
move=> w g [h0 hS]; have [[wa wb wc wd] [ca rb cc rc cb]] := wfS_dyn w g.
split=> //; [by split=> //=; exact: wfa_mk | by split=> //=; exact: wfa_mk |].
rewrite /symmetric (@mxof_mul _ _ _ (snn G) (smn G)) //= (@mxof_T _ _ _ (snn G) (smn G)) //.
by rewrite trmx_mul trmxK.
Qed.

Lemma mx_cxc G X : wfS G -> sgain G = false -> square (snn G) X ->
  mx (spn G) (spn G) (amul (amul (sc G) X) (aT (sc G))) = C_ G *m mx (snn G) (snn G) X *m (C_ G)^T.
Proof.
move=> w g [wX rX cX]; have [[wa wb wc wd] [ca rb cc rc cb]] := wfS_dyn w g.
rewrite (@mxof_mul _ _ _ (spn G) (snn G)) //= (@mxof_mul _ _ _ (spn G) (snn G)) //.
by rewrite (@mxof_T _ _ _ (spn G) (snn G)).
Qed.

(* the gramian *)
Definition gram_d G (X : 'M[R]_(snn G)) := A_ G *m X *m (A_ G)^T - X + B_ G *m (B_ G)^T = 0.
Definition gram_c G (X : 'M[R]_(snn G)) := A_ G *m X + X *m (A_ G)^T + B_ G *m (B_ G)^T = 0.

Lemma tends_ge0 (u : nat -> R) l : (forall N, 0 <= u N) -> tends u l -> 0 <= l.
Proof.
move=> u0 h; rewrite leNgt; apply/negP => l0.
have [|N0 H] := h (- l); first by rewrite oppr_gt0.
have := H N0 (leqnn _); rewrite ltNge => /negP; apply.
apply: (@le_trans _ _ (u N0 - l)); last exact: ler_norm.
by rewrite ler_addr.
Qed.
Lemma energy_ge0 n m p (A : 'M[R]_n) (B : 'M[R]_(n, m)) (C : 'M[R]_(p, n)) (D : 'M[R]_(p, m)) N : 0 <= energy A B C D N.
Proof. by apply: sumr_ge0 => k _; apply: frob2_ge0. Qed.

(* stable discrete models whose feedthrough is zero up to atol: the square of the result is the energy of the
   impulse responses, and the trace formula with the gramian holds *)
Theorem C66_discrete_partial G h et v : wfS G -> sgain G = false -> sdt G = Some h -> stable G -> powers_vanish (A_ G) ->
  (forall i j, (i < spn G)%N -> (j < smn G)%N -> `|get (sd G) i j| <= atol) ->
  h2_req G -> (forall t, 0 <= t -> tends (energy (A_ G) (B_ G) (C_ G) (D_ G)) t -> is_sqrt t (sq t)) ->
  norm G P2 et = Ok v ->
  exists x, [/\ v = NVal x, 0 <= x, tends (energy (A_ G) (B_ G) (C_ G) (D_ G)) (x ^+ 2) &
    exists X, [/\ X^T = X, gram_d X & x ^+ 2 = \tr (C_ G *m X *m (C_ G)^T + D_ G *m (D_ G)^T)]].
Proof.
move=> w g hd st pv d0 rq hsq; rewrite /norm /norm_2 st /=.
have -> : azero_like atol (sd G) by apply/azeroP.
rewrite hd /= => E; have [X EX {}E] := bindOk E.
have [[wa wb wc wd] [ca rb cc rc cb]] := wfS_dyn w g.
have [qX sX hX] := C54_discrete (h2_data w g rq) rq.2 (or_introl erefl) EX.
have [wX rX cX] := qX.
have <- : NVal (sq (atrace (aadd (amul (amul (sc G) X) (aT (sc G))) (amul (sd G) (aT (sd G)))))) = v by case: E.
have gX : gram_d (mx (snn G) (snn G) X).
  move: hX; rewrite /lyap_d /gram_d (@mxof_T _ _ _ (snn G) (snn G)) // trmxK.
  by rewrite (@mxof_mul _ _ _ (snn G) (smn G)) //= (@mxof_T _ _ _ (snn G) (smn G)).
rewrite (@atraceE (spn G)) //= (@mxof_add _ _ _ (spn G) (spn G)) // mx_cxc //.
rewrite (@mxof_mul _ _ _ (spn G) (smn G)) //= (@mxof_T _ _ _ (spn G) (smn G)) //.
set t := \tr _; have ht : tends (energy (A_ G) (B_ G) (C_ G) (D_ G)) t.
  by rewrite /t linearD /= -frob2E; apply: energy_tends.
have [s0 s2] := hsq t (tends_ge0 (energy_ge0 _ _ _ _) ht) ht.
exists (sq t); rewrite s2; split=> //; exists (mx (snn G) (snn G) X); split=> //.
Qed.

(* stable continuous models whose feedthrough is zero up to atol *)
Theorem C66_continuous G et v : wfS G -> sgain G = false -> sdt G = None -> stable G ->
  (forall i j, (i < spn G)%N -> (j < smn G)%N -> `|get (sd G) i j| <= atol) ->
  h2_req G -> norm G P2 et = Ok v ->
  exists X, [/\ X^T = X, gram_c X & v = NVal (sq (\tr (C_ G *m X *m (C_ G)^T)))].
Proof.
move=> w g hd st d0 rq; rewrite /norm /norm_2 st /=.
have -> : azero_like atol (sd G) by apply/azeroP.
rewrite hd /= => E; have [X EX {}E] := bindOk E.
have [[wa wb wc wd] [ca rb cc rc cb]] := wfS_dyn w g.
have [qX sX hX] := C53_continuous (h2_data w g rq) rq.2 (or_introl erefl) EX.
have <- : NVal (sq (atrace (amul (amul (sc G) X) (aT (sc G))))) = v by case: E.
exists (mx (snn G) (snn G) X); split=> //; last by rewrite (@atraceE (spn G)) //= mx_cxc.
move: hX; rewrite /lyap_c /gram_c (@mxof_T _ _ _ (snn G) (snn G)) // trmxK.
by rewrite (@mxof_mul _ _ _ (snn G) (smn G)) //= (@mxof_T _ _ _ (snn G) (smn G)) // [X in X + _]addrC.
Qed.

(* infinite exactly for unstable models and models with feedthrough *)
Theorem C66_infinite G et : norm G P2 et = Ok NInf <->
  ~~ stable G \/ exists i j, [/\ (i < spn G)%N, (j < smn G)%N & atol < `|get (sd G) i j|].
Proof.
rewrite /norm /norm_2; case: (boolP (stable G)) => st; last by split=> _; [left | rewrite orbT].
rewrite orbF; case: (boolP (azero_like atol (sd G))) => [/azeroP h|h]; split=> //=.
- case: (sdt G) => [dt|] E; by have [X _ {}E] := bindOk E; case: E.
- by case=> // -[i [j [hi hj]]]; rewrite ltNge h.
move=> _; right; move: h => /allPn [i]; rewrite mem_iota => hi /allPn [j]; rewrite mem_iota -ltNge => hj hij.
by exists i, j.
Qed.

(* other values of p are refused *)
Theorem C66_other G et : norm G POther et = Err ValueError. Proof. by []. Qed.

(* False for discrete models with feedthrough: the result is inf although the energy of the impulse responses has
   the finite limit of the trace formula *)
Theorem C66_feedthrough_refuted G h et i j X : wfS G -> sgain G = false -> sdt G = Some h -> powers_vanish (A_ G) ->
  (i < spn G)%N -> (j < smn G)%N -> atol < `|get (sd G) i j| -> gram_d X ->
  norm G P2 et = Ok NInf /\
  tends (energy (A_ G) (B_ G) (C_ G) (D_ G)) (\tr (C_ G *m X *m (C_ G)^T + D_ G *m (D_ G)^T)).
Proof.
move=> w g hd pv hi hj hij gX; split; first by apply/C66_infinite; right; exists i, j.
by rewrite linearD /= -frob2E; apply: energy_tends.
Qed.

(* False for the zero static gain, whose norm is 0: the Lyapunov solver refuses the empty matrices *)
Theorem C66_gain_refuted G et : wfS G -> sgain G -> stable G ->
  (forall i j, (i < spn G)%N -> (j < smn G)%N -> get (sd G) i j = 0) -> 0 <= atol ->
  norm G P2 et = Err ValueError.
Proof.
move=> w g st d0 a0; rewrite /norm /norm_2 st /=; have [n0 ca /pair_equal_spec[rb cb] _ wd] := wfS_gain w g.
have -> : azero_like atol (sd G) by apply/azeroP => i j hi hj; rewrite d0 // normr0.
have hh form : form = "c"%string \/ form = "d"%string ->
  lyapunov_eq_solver id tol schur qz (aT (sa G)) (amul (sb G) (aT (sb G))) None form (X0 (nr (sa G))) = Err ValueError.
  rewrite /lyapunov_eq_solver /solve_c /solve_d /c_mini /d_mini /asize /= /shp /= -/(snn G) ca n0 rb.
  by case=> -> /=.
by case: (sdt G) => [?|] /=; rewrite hh //; [right | left].
Qed.
End H2.
Print Assumptions C66_discrete_partial.
Print Assumptions C66_continuous.
Print Assumptions C66_infinite.
Print Assumptions C66_other.
Print Assumptions C66_feedthrough_refuted.
Print Assumptions C66_gain_refuted.

Section Examples.
Local Notation mx := (mxof [rmorphism of @idfun Q]).
Definition nA : arr Q := of_rows [:: [:: 0; 0; 0]; [:: 1; 0; 0]; [:: 0; 1; 0]].
Definition nB : arr Q := of_rows [:: [:: 1]; [:: 0]; [:: 0]].
Definition nC : arr Q := of_rows [:: [:: 1; 2%:R; 2%:R]].
(* a moving average of the input: the impulse response is 0, 1, 2, 2, 0, ... *)
Definition exN : state Q := St nA nB nC (azeros 1 1) false (Some 1).
(* the same with feedthrough 1 *)
Definition exND : state Q := St nA nB nC (aeye 1) false (Some 1).
(* 3/(s + 1/2) *)
Definition exNc : state Q := St (of_rows [:: [:: - (1 / 2%:R)]]) (of_rows [:: [:: 3%:R]]) (aeye 1) (azeros 1 1) false None.
Definition nsq (t : Q) : Q := if t == 9%:R then 3%:R else 0.
Definition nnorm := system_norm [rmorphism of @idfun Q] (fun A => (A, A)) (fun A => (A, A)) 1 id 1 0
  (fun A : arr Q => (A, aeye (nr A) : arr Q)) lqz (fun n => azeros n n) nsq 0 0 (fun _ => [::]) (fun _ => 0) (fun _ => 0) (fun _ => [::]) (fun _ => true).

Lemma nA3 : mpow (mx 3 3 nA) 3 = 0.
Proof.
rewrite /mpow /= mulmx1 -!(@mxof_mul _ _ _ 3 3 3) //; apply/matrixP => i j; rewrite [LHS]mxE [RHS]mxE /=.
by case: i => [[|[|[|i]]] // hi]; case: j => [[|[|[|j]]] // hj]; apply/eqP; vm_compute.
Qed.
Lemma nvanish : powers_vanish (mx 3 3 nA).
Proof.
move=> i j e e0; exists 3%N => N hN; rewrite subr0 [X in `|X|](_ : _ = 0) ?normr0 //.
have -> : N = (N - 3 + 3)%N by rewrite subnK.
rewrite /mpow iterD -/(mpow _ 3) nA3; have -> k : iter k (mulmx (mx 3 3 nA)) 0 = 0; last by rewrite mxE.
by elim: k => //= k ->; rewrite mulmx0.
Qed.
Lemma nreq (G : state Q) : (sa G = nA /\ snn G = 3%N) \/ (snn G = 1%N /\ nc (sa G) = 1%N /\ wfa (sa G)) ->
  h2_req (fun A : arr Q => (A, aeye (nr A) : arr Q)) (fun n => azeros n n) G.
Proof.
move=> hG; split=> //=.
have [n [e1 e2 e3 e4] nle] : exists2 n, [/\ snn G = n, nr (sa G) = n, nc (sa G) = n & wfa (sa G)] &
    quasi_triangular n (aT (sa G)).
  case: hG => [[e n3]|[n1 [n2 n4]]].
    exists 3%N; first by rewrite e.
    rewrite e; split=> [i j hij|i hi].
      have [-> ->] : i = 2%N /\ j = 0%N by move: hij; clear; lia.
      by apply/eqP; vm_compute.
    have -> : i = 0%N by move: hi; clear; lia.
    by move=> /eqP h; exfalso; apply: h; apply/eqP; vm_compute.
  by exists 1%N => //; split=> [i j hij|//]; exfalso; move: hij; clear; lia.
rewrite e1; split=> //; [by split=> //=; exact: wfa_mk | by split=> //=; exact: wfa_mk | |].
  by rewrite /orthogonal e3 mxof_eye trmx1 mulmx1.
by rewrite /= e3 mxof_eye trmx1 mulmx1 mul1mx.
Qed.
Lemma ev_uniq (u : nat -> Q) l1 l2 : tends u l1 -> tends u l2 -> l1 = l2.
Proof.
move=> h1 h2; apply/eqP/negPn/negP => ne; pose e := `|l1 - l2| / 2%:R.
have e0 : 0 < e by rewrite divr_gt0 // normr_gt0 subr_eq0.
have [N1 H1] := h1 e e0; have [N2 H2] := h2 e e0.
have := ler_norm_add (l1 - u (maxn N1 N2)) (u (maxn N1 N2) - l2).
rewrite addrA subrK leNgt => /negP; apply.
rewrite -normrN opprB [X in _ < X](_ : _ = e + e); last by rewrite /e -mulrDl -mulr2n -[_ *+ 2]mulr_natr mulfK.
by apply: ltr_add; [apply: H1; rewrite leq_maxl | apply: H2; rewrite leq_maxr].
Qed.

Lemma ngram : mx 3 3 nA *m mx 3 3 (aeye 3) *m (mx 3 3 nA)^T - mx 3 3 (aeye 3) + mx 3 1 nB *m (mx 3 1 nB)^T = 0.
Proof.
rewrite -(@mxof_T _ _ _ 3 3) // -(@mxof_T _ _ _ 3 1) // -!(@mxof_mul _ _ _ 3 3 3) // -(@mxof_mul _ _ _ 3 1 3) //.
rewrite -(@mxof_sub _ _ _ 3 3) // -(@mxof_add _ _ _ 3 3) //; apply/matrixP => i j; rewrite [LHS]mxE [RHS]mxE.
by case: i => [[|[|[|i]]] // hi]; case: j => [[|[|[|j]]] // hj]; apply/eqP; vm_compute.
Qed.

(* the hypotheses of C66_discrete_partial are met, and the result is 3 *)
Example C66_ex : [/\ wfS exN && ~~ sgain exN, powers_vanish (mx 3 3 (sa exN)),
    h2_req (fun A : arr Q => (A, aeye (nr A) : arr Q)) (fun n => azeros n n) exN,
    tends (energy (mx 3 3 (sa exN)) (mx 3 1 (sb exN)) (mx 1 3 (sc exN)) (mx 1 1 (sd exN))) 9%:R /\
    (forall t, 0 <= t -> tends (energy (mx 3 3 (sa exN)) (mx 3 1 (sb exN)) (mx 1 3 (sc exN)) (mx 1 1 (sd exN))) t -> is_sqrt t (nsq t)) &
    if nnorm exN P2 0 is Ok (NVal v) then v == 3%:R else false].
Proof.
have hX : tends (energy (mx 3 3 (sa exN)) (mx 3 1 (sb exN)) (mx 1 3 (sc exN)) (mx 1 1 (sd exN))) 9%:R.
  have := @energy_tends _ 3 1 1 (mx 3 3 nA) (mx 3 1 nB) (mx 1 3 nC) (mx 1 1 (azeros 1 1)) _ ngram nvanish.
  rewrite mxof_zeros frob2E mul0mx linear0 addr0.
  rewrite -(@mxof_T _ _ _ 1 3) // -(@mxof_mul _ _ _ 1 3 3) // -(@mxof_mul _ _ _ 1 3 1) // /mxtrace big_ord1 mxE.
  by rewrite [X in tends _ X](_ : _ = 9%:R) //; apply/eqP; vm_compute.
split; [by vm_compute | exact: nvanish | by apply: nreq; left | | by vm_compute].
split=> // t t0 ht; rewrite (ev_uniq ht hX) /nsq eqxx; split=> //.
Qed.

(* the same model with D = 1: the energy is 10, the result is inf *)
Example C66_feedthrough_ex : [/\ wfS exND && ~~ sgain exND, powers_vanish (mx 3 3 (sa exND)), exists X, @gram_d _ exND X &
    if nnorm exND P2 0 is Ok NInf then true else false].
Proof.
split; [by vm_compute | exact: nvanish | exists (mx 3 3 (aeye 3)); exact: ngram | by vm_compute].
Qed.

Example C66_continuous_ex : [/\ wfS exNc && ~~ sgain exNc, sdt exNc = None,
    h2_req (fun A : arr Q => (A, aeye (nr A) : arr Q)) (fun n => azeros n n) exNc &
    if nnorm exNc P2 0 is Ok (NVal v) then v == 3%:R else false].
Proof. by split; [vm_compute | by [] | apply: nreq; right | vm_compute]. Qed.

Example C66_gain_ex : let G := St (e00 Q) (e00 Q) (e00 Q) (azeros 2 1) true None in
  wfS G /\ if nnorm G P2 0 is Err ValueError then true else false.
Proof. by split; vm_compute. Qed.
End Examples.
