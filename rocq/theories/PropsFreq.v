(* Properties C45, C46 and C64: frequency_response on a user-given grid, hessenberg_realization.
   Notation: ev f G s i j is the entry (i,j) of D + C (sI - A)^-1 B and regS says that sI - A is invertible
   (Denote.v); evT, dfT the same for Transfer models (DenoteT.v); wfS, wfT: consistent objects.
   L plays the complex numbers with the embedding f of the reals, ii the imaginary unit, expL the exponential,
   twopi the number 2 pi.  qr and hess are scipy's factorisations; hess_req (FreqTheory.v) says that they meet
   the contracts qr_ok and hess_ok (SpecFreq.v) on the matrices they are called with. *)
From mathcomp Require Import all_ssreflect all_algebra zify.
From Coq Require Import String.
From Verif Require Import Base BaseTheory Spec ModelPoly PolyTheory ModelState Denote StateTheory StateProps
  ModelTransfer DenoteT TransferTheory TransferOps TransferProps ModelCtrl CtrlTheory SpecSim KalmanTheory RingTac
  ModelFreq SpecFreq FreqTheory.

Set Implicit Arguments.
Unset Strict Implicit.
Unset Printing Implicit Defensive.

Import Order.TTheory GRing.Theory Num.Theory.
Local Open Scope ring_scope.

Local Notation Q := rat_realFieldType.

(* ------------------------------------------------------------------ C45 *)
(* the elimination at one point s: for an upper Hessenberg A of any order it returns the last row of
   (sI - A)^-1 B, scaled, exactly when no leading principal minor of sI - A vanishes *)
Theorem C45_elimination (R : realFieldType) (L : fieldType) (f : {rmorphism R -> L}) n (A B : arr R) (c : R) (s : L) :
  shp A = (n, n) -> nr B = n -> (0 < n)%N -> upper_hess A ->
  ((exists r, state_freq_resp f A B c s = Some r) <-> (forall k, (k <= n)%N -> lead_minor f A s k != 0)) /\
  forall r, state_freq_resp f A B c s = Some r -> size r = nc B /\
    forall (i : 'I_n) (k : 'I_(nc B)), (i : nat) = n.-1 ->
      nth 0 r k = (invmx (s%:M - mxof f n n A) *m mxof f n (nc B) B) i k * f c.
Proof.
move=> h1 h2 h3 h4; have := sfrP f c s h1 h2 h3 h4; case: state_freq_resp => [r [m1 m2 m3]|[k [hk mk0]]].
  by split; [split=> // _; exists r | move=> r' [<-]].
by split; [split=> [[]//|/(_ k hk)]; rewrite mk0 eqxx | ].
Qed.
Print Assumptions C45_elimination.

(* every sample that is a number is the transfer function at that frequency, which is then no pole; a sample is
   not a number only when a leading minor of sI - A, A in the computed Hessenberg form, is zero *)
Section FreqState.
Variables (R : realFieldType) (L : fieldType) (f : {rmorphism R -> L}) (qr hess : arr R -> arr R * arr R).
Variables (ii : L) (expL : L -> L) (twopi : R).

Lemma freq_gridE w iu dt : let W := below_nyquist twopi dt (in_rad twopi iu w) in
  freq_grid twopi w iu dt = if (dt != None) && (W == [::]) then Err ValueError else Ok W.
Proof.
rewrite /= /freq_grid -/(in_rad twopi iu w); move: (in_rad twopi iu w) => {}w; case: dt => [h|] //=.
case: (eqVneq w [::]) => [-> //|nw]; rewrite /=; set q := _ / h.
suff -> : (if q < lmax w then [seq x <- w | x <= q] else w) = [seq x <- w | x <= q].
  by case: eqVneq.
case: ltP => // hq; symmetry; apply/all_filterP/allP => x hx.
apply: le_trans hq; rewrite /lmax; move: (head 0 w) => z; clear nw.
elim: w hx => //= y w IH; rewrite inE => /orP [/eqP->|/IH h']; first by rewrite le_maxr lexx.
by rewrite le_maxr h' orbT.
Qed.

Lemma known_ok u : known_unit u -> unit_ok u.
Proof. by rewrite /known_unit /unit_ok => /orP [] /String.eqb_spec ->. Qed.

Lemma out_gridE u w : known_unit u -> out_grid twopi u w = to_unit twopi u w.
Proof. by rewrite /known_unit /out_grid /to_unit => /orP [] /String.eqb_spec ->. Qed.

Lemma aany0 (A : arr R) i j : aany A = false -> (i < nr A)%N -> (j < nc A)%N -> get A i j = 0.
Proof.
move=> h hi hj; apply/eqP; apply: contraFT h => ne; apply/hasP; exists i; first by rewrite mem_iota.
by apply/hasP; exists j; rewrite ?mem_iota.
Qed.

Lemma jwE dt x : fr_point f ii expL dt x = jw f ii expL dt x.
Proof. by case: dt => [h|] /=; rewrite mulrC // [h * x]mulrC. Qed.

Lemma nth_mkseq2 (A : Type) (g : nat -> nat -> seq (option A)) p m i j : (i < p)%N -> (j < m)%N ->
  samples (mkseq (fun i => mkseq (g i) m) p) i j = g i j.
Proof. by move=> hi hj; rewrite /samples nth_mkseq // nth_mkseq. Qed.

(* the computed observer Hessenberg form of the state matrix used for row i *)
Definition row_hess (G : state R) i : arr R :=
  (hess_core qr hess (sa G) (sb G) (arows (sc G) [:: i]) true true).1.1.1.

Lemma fr_stateP (G : state R) w iu ou :
  wfS G -> sgain G = false -> (0 < snn G)%N -> known_unit iu -> known_unit ou ->
  (forall i, (i < spn G)%N -> hess_req qr hess (aT (sa G)) (aT (arows (sc G) [:: i]))) ->
  let W := below_nyquist twopi (sdt G) (in_rad twopi iu w) in
  (sdt G = None \/ W != [::]) ->
  exists fr, fr_state f qr hess ii expL twopi G w iu ou = Ok (fr, to_unit twopi ou W) /\
    forall i j, (i < spn G)%N -> (j < smn G)%N ->
      size (samples fr i j) = size W /\
      forall k, (k < size W)%N -> let s := jw f ii expL (sdt G) (nth 0 W k) in
        match sample fr i j k with
        | Some v => [/\ regS f G s, v = ev f G s i j & forall l, (l <= snn G)%N -> lead_minor f (row_hess G i) s l != 0]
        | None => exists l, (l <= snn G)%N /\ lead_minor f (row_hess G i) s l = 0
        end.
Proof.
move=> w0 hg n0 ki ko hr W hW; rewrite /fr_state (known_ok ki) (known_ok ko) /= freq_gridE -/W.
have -> : (sdt G != None) && (W == [::]) = false by case: hW => [->//|/negbTE->]; rewrite andbF.
rewrite /= hg out_gridE //; eexists; split; first reflexivity.
move=> i j hi hj; rewrite /sample -/(samples _ i j).
have := @fr_row R L f qr hess G i _ w0 hg n0 hi (hr i hi).
rewrite /samples (nth_mkseq _ _ hi) /row_hess; case: hess_core => [[[aa bb] cc] T] /= H.
rewrite nth_mkseq // !size_map; split=> // k hk.
have := H (jw f ii expL (sdt G) (nth 0 W k)); case=> _.
rewrite (nth_map None) ?size_map // (nth_map 0) // jwE; case: state_freq_resp => [r /= [h1 h2 _ h4]|] //=.
split=> //; rewrite -h4 //; congr (_ + _); case: ifP => // h; rewrite aany0 ?rmorph0 //.
Qed.

End FreqState.

Theorem C45_state_partial (R : realFieldType) (L : fieldType) (f : {rmorphism R -> L}) qr hess (ii : L) expL (twopi : R)
    (G : state R) w iu ou fr wo :
  wfS G -> sgain G = false -> (0 < snn G)%N -> known_unit iu -> known_unit ou ->
  (forall i, (i < spn G)%N -> hess_req qr hess (aT (sa G)) (aT (arows (sc G) [:: i]))) ->
  fr_state f qr hess ii expL twopi G w iu ou = Ok (fr, wo) ->
  let W := below_nyquist twopi (sdt G) (in_rad twopi iu w) in
  forall i j k, (i < spn G)%N -> (j < smn G)%N -> (k < size W)%N ->
    let s := jw f ii expL (sdt G) (nth 0 W k) in
    match sample fr i j k with
    | Some v => [/\ regS f G s, v = ev f G s i j & forall l, (l <= snn G)%N -> lead_minor f (row_hess qr hess G i) s l != 0]
    | None => exists l, (l <= snn G)%N /\ lead_minor f (row_hess qr hess G i) s l = 0
    end.
Proof.
move=> h1 h2 h3 h4 h5 h6 E W i j k hi hj hk.
have hW : sdt G = None \/ W != [::] by right; case: (W) hk.
have [fr' [E' H]] := @fr_stateP R L f qr hess ii expL twopi G w iu ou h1 h2 h3 h4 h5 h6 hW.
by move: E'; rewrite E => -[-> _]; have [_ /(_ k hk)] := H i j hi hj.
Qed.
Print Assumptions C45_state_partial.


(* a computable form of the contracts, for the examples *)
Section Check.
Variable R : realFieldType.
Local Notation mx := (mxof [rmorphism of @idfun R]).

Definition qr_okb (b : arr R) (q : arr R * arr R) : bool :=
  let n := nr b in let m := nc b in
  [&& [&& wfa q.1, shp q.1 == (n, n), wfa q.2 & shp q.2 == (n, m)], aeq (amul (aT q.1) q.1) (aeye n),
      aeq (amul q.1 q.2) b & all (fun i => all (fun j => (i <= j)%N || (get q.2 i j == 0)) (iota 0 m)) (iota 0 n)].
Definition hess_okb (A : arr R) (h : arr R * arr R) : bool :=
  let n := nr A in
  [&& [&& wfa h.1, shp h.1 == (n, n), wfa h.2 & shp h.2 == (n, n)], aeq (amul (aT h.2) h.2) (aeye n),
      aeq (amul (amul h.2 h.1) (aT h.2)) A,
      all (fun i => all (fun j => (i <= j.+1)%N || (get h.1 i j == 0)) (iota 0 n)) (iota 0 n) &
      all (fun i => get h.2 i 0 == (i == 0%N)%:R) (iota 0 n)].
Definition hess_reqb qr hess (a b : arr R) : bool :=
  qr_okb b (qr b) && let ab := amul (amul (aT (qr b).1) a) (qr b).1 in hess_okb ab (hess ab).

Lemma allP2 n m (p : nat -> nat -> bool) : all (fun i => all (p i) (iota 0 m)) (iota 0 n) ->
  forall i j, (i < n)%N -> (j < m)%N -> p i j.
Proof.
move=> /allP h i j hi hj; have hi' : i \in iota 0 n by rewrite mem_iota.
by have /allP := h i hi'; apply; rewrite mem_iota.
Qed.

Lemma qr_okbP b q : wfa b -> qr_okb b q -> qr_ok b q.
Proof.
move=> wb /and4P[/and4P[w1 /eqP s1 w2 /eqP s2] /(aeqP (wfa_mul _ _) (wfa_mk _ _ _)) o /(aeqP (wfa_mul _ _) wb) e /allP2 z]; have [[r1 c1] [r2 c2]] := (s1, s2).
split=> //.
- by rewrite -(@mxof_T _ _ _ (nr b) (nr b)) // -(@mxof_mul _ _ _ _ (nr b)) //= o ?mxof_eye.
- by rewrite -(@mxof_mul _ _ _ _ (nr b)) //= e.
move=> i j hij; case: (ltnP i (nr b)) => hi; last by rewrite get_out_r ?r2.
case: (ltnP j (nc b)) => hj; last by rewrite get_out_c ?c2.
by have := z i j hi hj; rewrite leqNgt hij /= => /eqP.
Qed.
Lemma hess_okbP A h : wfa A -> nc A = nr A -> hess_okb A h -> hess_ok A h.
Proof.
move=> wA sA /and5P[/and4P[w1 /eqP s1 w2 /eqP s2] /(aeqP (wfa_mul _ _) (wfa_mk _ _ _)) o /(aeqP (wfa_mul _ _) wA) e /allP2 z /allP y]; have [[r1 c1] [r2 c2]] := (s1, s2).
split=> //.
- by rewrite -(@mxof_T _ _ _ (nr A) (nr A)) // -(@mxof_mul _ _ _ _ (nr A)) //= o ?mxof_eye.
- by rewrite -(@mxof_T _ _ _ (nr A) (nr A)) // -!(@mxof_mul _ _ _ _ (nr A)) //= e.
- move=> i j hi hij; rewrite r1 in hi; have hj : (j < nr A)%N by move: hi hij; clear; lia.
  by have := z i j hi hj; rewrite leqNgt hij /= => /eqP.
- by move=> i hi; apply/eqP/y; rewrite mem_iota.
Qed.
Lemma hess_reqbP qr hess a b : wfa b -> nc a = nr a -> nr b = nr a -> hess_reqb qr hess a b -> hess_req qr hess a b.
Proof.
move=> wb sa sb /andP[/qr_okbP h1 h2]; split; first exact: h1.
have [[_ [q1 q2] _ _] _ _ _] := h1 wb.
by apply: hess_okbP; rewrite ?wfa_mul //= q2.
Qed.
End Check.

(* factors that are good whenever b is upper triangular, and those of LAPACK for the column (3,4) *)
Definition iqr (b : arr Q) : arr Q * arr Q := (aeye (nr b), b).
Definition ihess (A : arr Q) : arr Q * arr Q := (A, aeye (nr A)).

(* y'' + 3 y' + 2 y = u, the output is y + u *)
Definition fG : state Q := St (qa [:: [:: 0; 1]; [:: -2%:Q; -3%:Q]]) (qa [:: [:: 0]; [:: 1]]) (qa [:: [:: 1; 0]])
  (qa [:: [:: 1]]) false None.
Example C45_state_ex : [/\ wfS fG, sgain fG = false, (0 < snn fG)%N, known_unit "Hz" & known_unit "rad/s"] /\
  (forall i, (i < spn fG)%N -> hess_req iqr ihess (aT (sa fG)) (aT (arows (sc fG) [:: i]))) /\
  if fr_state [rmorphism of @idfun Q] iqr ihess 1 id 6%:Q fG [:: 1; 2%:Q] "rad/s" "rad/s" is Ok (fr, _)
  then (if sample fr 0 0 0 is Some v then v == 7%:Q / 6%:Q else false) &&
       (if sample fr 0 0 1 is Some v then v == 13%:Q / 12%:Q else false) else false.
Proof.
split; first by split.
split; last by vm_compute.
by case=> [|i] // _; apply: hess_reqbP => //; vm_compute.
Qed.

(* the undamped oscillator y'' + k y = u *)
Definition osc (R : realFieldType) (k : R) : state R :=
  St (of_rows [:: [:: 0; 1]; [:: - k; 0]]) (of_rows [:: [:: 0]; [:: 1]]) (of_rows [:: [:: 1; 0]])
     (of_rows [:: [:: 0]]) false None.

Lemma osc_minor (R : realFieldType) (L : fieldType) (f : {rmorphism R -> L}) qr hess (k : R) :
  hess_req qr hess (aT (sa (osc k))) (aT (arows (sc (osc k)) [:: 0%N])) ->
  lead_minor f (row_hess qr hess (osc k) 0) 0 1 = 0.
Proof.
set c := arows _ _; set A := sa _ => -[rq rh]; rewrite /row_hess.
have sA : shp (aT A) = (2, 2)%N by [].
have sB : shp (aT c) = (2, 1)%N by [].
have sC : shp (aT (sb (osc k))) = (1, 2)%N by [].
have := hess_coreP true sA sB sC rq rh; have := hess_single sA sB (erefl _) rq rh.
have -> : hess_core qr hess (sa (osc k)) (sb (osc k)) c true true =
  let: (ah, bh, ch, T) := hess_core qr hess (aT A) (aT c) (aT (sb (osc k))) false true in (aT ah, aT ch, aT bh, T).
  by rewrite /hess_core; case: (qr _) => qq bh; case: (hess _) => ah qh.
case: hess_core => [[[ah bh] ch] T] /=; set Q := mxof _ 2 2 _; set H := mxof _ 2 2 _.
move=> e0 [[_ [[h1 h2] [b1 b2] _ _]] _ [eA eB _] _ hz]; rewrite e0 in eB.
move: (Q *m H *m Jmx R 2) eA eB => P eA eB.
have [_ /(_ 0%N (erefl _) (erefl _)) z0] := hz 0%N 0%N (erefl _) (erefl _).
have /matrixP /(_ 0 0) := eB; rewrite !mxE /= z0 !big_ord_recl big_ord0 !mxE /= !get_mk //=.
rewrite /get /= mulr1 mulr0 !addr0 => p0.
have /matrixP /(_ 0 0) := eA; rewrite !mxE /= !big_ord_recl !big_ord0 !mxE !big_ord_recl !big_ord0 /= !mxE /=.
rewrite !get_mk //= /get /= -p0 !(mul0r, mulr0, add0r, addr0) => a0.
rewrite /lead_minor det_mx11 !mxE /= get_mk ?h1 ?h2 // /get a0 rmorph0 subr0 //.
Qed.

(* the elimination does not pivot: the response of the oscillator at frequency 0 is 1/k, yet whatever the
   factorisation routines return within their contracts the sample is not a number *)
Theorem C45_refuted (R : realFieldType) (L : fieldType) (f : {rmorphism R -> L}) qr hess (ii : L) expL (twopi : R) (k : R) :
  k != 0 -> hess_req qr hess (aT (sa (osc k))) (aT (arows (sc (osc k)) [:: 0%N])) ->
  [/\ regS f (osc k) 0, ev f (osc k) 0 0 0 = f k^-1 &
      exists fr, fr_state f qr hess ii expL twopi (osc k) [:: 0] "rad/s" "rad/s" = Ok (fr, [:: 0]) /\ sample fr 0 0 0 = None].
Proof.
move=> k0 rq; have fk : f k != 0 by rewrite fmorph_eq0.
pose I2 := \matrix_(i < 2, j < 2) (if (i == 0) && (j == 1) then f k^-1 else if (i == 1) && (j == 0) then -1 else 0).
have hI : (0%:M - mxof f (snn (osc k)) (snn (osc k)) (sa (osc k))) *m I2 = 1%:M.
  apply/matrixP => i j; rewrite !mxE /= !big_ord_recl big_ord0 !mxE /=.
  case: i => [[|[|i]] //= hi]; case: j => [[|[|j]] //= hj]; rewrite /get /= ?rmorph0 ?rmorph1 ?rmorphN;
    rewrite ?(mul0r, mulr0, add0r, addr0, sub0r, oppr0, opprK, mulN1r, mulr1, mul1r) //=.
  by rewrite -rmorphM mulfV ?rmorph1.
have [uA _] := mulmx1_unit hI.
have eI : invmx (0%:M - mxof f (snn (osc k)) (snn (osc k)) (sa (osc k))) = I2.
  by rewrite -[LHS]mulmx1 -hI mulmxA mulVmx // mul1mx.
split; first exact: uA.
- rewrite /ev eI !mxE /= !big_ord_recl big_ord0 !mxE !big_ord_recl !big_ord0 !mxE /= /get /= !rmorph0 !rmorph1.
  by rewrite !(mul0r, mulr0, add0r, addr0, mulr1, mul1r).
have hg : sgain (osc k) = false by [].
have w : wfS (osc k) by [].
have hr i : (i < spn (osc k))%N -> hess_req qr hess (aT (sa (osc k))) (aT (arows (sc (osc k)) [:: i])) by case: i.
have [|fr [E H]] := @fr_stateP R L f qr hess ii expL twopi (osc k) [:: 0] "rad/s" "rad/s" w hg isT isT isT hr; first by left.
exists fr; split; first exact: E.
have [_ /(_ 0%N isT)] := H 0%N 0%N isT isT; case: (sample fr 0 0 0) => // v [_ _ /(_ 1%N isT)].
by rewrite /= rmorph0 mulr0 osc_minor // eqxx.
Qed.
Print Assumptions C45_refuted.
Example C45_refuted_ex : hess_req iqr ihess (aT (sa (osc (4%:Q : Q)))) (aT (arows (sc (osc (4%:Q : Q))) [:: 0%N])).
Proof. by apply: hess_reqbP => //; vm_compute. Qed.

(* Transfer models with dynamics: each sample is num/den at the frequency, and it is a number exactly when the
   denominator does not vanish there *)
Section FreqTransfer.
Variables (R : realFieldType) (L : fieldType) (f : {rmorphism R -> L}) (ii : L) (expL : L -> L) (twopi : R).

Lemma pevE (p : seq R) (x : L) : polyval [seq f c | c <- p] x = pev f p x.
Proof.
by rewrite polyvalE polyhi_map.
Qed.

Lemma fr_quotE (G : tf R) i j x : fr_quot f (ent (tn G) i j) (ent (td G) i j) x =
  if dfT f G x i j then Some (evT f G x i j) else None.
Proof. by rewrite /fr_quot !pevE /dfT /evT; case: eqVneq. Qed.

Lemma fr_transferP (G : tf R) w iu ou :
  tgain G = false -> known_unit iu -> known_unit ou ->
  let W := below_nyquist twopi (tdt G) (in_rad twopi iu w) in
  (tdt G = None \/ W != [::]) ->
  exists fr, fr_transfer f ii expL twopi G w iu ou = Ok (fr, to_unit twopi ou W) /\
    forall i j, (i < tp G)%N -> (j < tm G)%N ->
      samples fr i j = [seq (let s := jw f ii expL (tdt G) x in if dfT f G s i j then Some (evT f G s i j) else None) | x <- W].
Proof.
move=> hg ki ko W hW; rewrite /fr_transfer (known_ok ki) (known_ok ko) /= freq_gridE -/W.
have -> : (tdt G != None) && (W == [::]) = false by case: hW => [->//|/negbTE->]; rewrite andbF.
rewrite /= hg /= out_gridE //; eexists; split; first reflexivity.
by move=> i j hi hj; rewrite nth_mkseq2 //; apply: eq_map => x; rewrite fr_quotE jwE.
Qed.
End FreqTransfer.

Theorem C45_transfer (R : realFieldType) (L : fieldType) (f : {rmorphism R -> L}) (ii : L) expL (twopi : R) (G : tf R) w iu ou fr wo :
  tgain G = false -> known_unit iu -> known_unit ou ->
  fr_transfer f ii expL twopi G w iu ou = Ok (fr, wo) ->
  let W := below_nyquist twopi (tdt G) (in_rad twopi iu w) in
  forall i j k, (i < tp G)%N -> (j < tm G)%N -> (k < size W)%N ->
    let s := jw f ii expL (tdt G) (nth 0 W k) in
    sample fr i j k = if dfT f G s i j then Some (evT f G s i j) else None.
Proof.
move=> h1 h2 h3 E W i j k hi hj hk.
have hW : tdt G = None \/ W != [::] by right; case: (W) hk.
have [fr' [E' H]] := @fr_transferP R L f ii expL twopi G w iu ou h1 h2 h3 hW.
by move: E'; rewrite E => -[-> _]; rewrite /sample -/(samples _ i j) H // (nth_map 0).
Qed.
Print Assumptions C45_transfer.

(* ------------------------------------------------------------------ C46 *)
(* models with dynamics: the call succeeds, the returned grid is the requested one without the frequencies above
   Nyquist and in the requested unit, and every entry has one sample per frequency of it; a discrete model with no
   frequency left raises a ValueError *)
Theorem C46_dynamic_partial (R : realFieldType) (L : fieldType) (f : {rmorphism R -> L}) qr hess (ii : L) expL (twopi : R) w iu ou :
  known_unit iu -> known_unit ou ->
  (forall G : state R, wfS G -> sgain G = false -> (0 < snn G)%N ->
    (forall i, (i < spn G)%N -> hess_req qr hess (aT (sa G)) (aT (arows (sc G) [:: i]))) ->
    let W := below_nyquist twopi (sdt G) (in_rad twopi iu w) in
    if (sdt G != None) && (W == [::]) then fr_state f qr hess ii expL twopi G w iu ou = Err ValueError
    else exists fr, fr_state f qr hess ii expL twopi G w iu ou = Ok (fr, to_unit twopi ou W) /\
      forall i j, (i < spn G)%N -> (j < smn G)%N -> size (samples fr i j) = size W) /\
  (forall G : tf R, tgain G = false ->
    let W := below_nyquist twopi (tdt G) (in_rad twopi iu w) in
    if (tdt G != None) && (W == [::]) then fr_transfer f ii expL twopi G w iu ou = Err ValueError
    else exists fr, fr_transfer f ii expL twopi G w iu ou = Ok (fr, to_unit twopi ou W) /\
      forall i j, (i < tp G)%N -> (j < tm G)%N -> size (samples fr i j) = size W).
Proof.
move=> ki ko; split=> [G w0 hg n0 hr W|G hg W].
  case: ifP => [h|/negbT]; first by rewrite /fr_state (known_ok ki) (known_ok ko) /= freq_gridE -/W h.
  rewrite negb_and negbK => hW.
  have [|fr [E H]] := @fr_stateP R L f qr hess ii expL twopi G w iu ou w0 hg n0 ki ko hr.
    by case/orP: hW => [/eqP|]; [left|right].
  by exists fr; split=> // i j hi hj; have [] := H i j hi hj.
case: ifP => [h|/negbT]; first by rewrite /fr_transfer (known_ok ki) (known_ok ko) /= freq_gridE -/W h.
rewrite negb_and negbK => hW.
have [|fr [E H]] := @fr_transferP R L f ii expL twopi G w iu ou hg ki ko.
  by case/orP: hW => [/eqP|]; [left|right].
by exists fr; split=> // i j hi hj; rewrite H // size_map.
Qed.
Print Assumptions C46_dynamic_partial.

(* same unit in and out: the returned grid is the requested list itself, for a continuous model *)
Theorem C46_same_unit (R : realFieldType) (twopi : R) (w : seq R) u : twopi != 0 ->
  to_unit twopi u (below_nyquist twopi None (in_rad twopi u w)) = w.
Proof.
move=> h; rewrite /to_unit /in_rad /=; case: String.eqb => //.
by rewrite -map_comp -[RHS]map_id; apply: eq_map => x /=; rewrite mulfK.
Qed.
Print Assumptions C46_same_unit.

(* static gains: whatever the requested grid is, every entry has exactly two samples *)
Theorem C46_gain_refuted (R : realFieldType) (L : fieldType) (f : {rmorphism R -> L}) qr hess (ii : L) expL (twopi : R) w iu ou :
  (forall (G : state R) fr wo, sgain G -> fr_state f qr hess ii expL twopi G w iu ou = Ok (fr, wo) ->
     forall i j, (i < spn G)%N -> (j < smn G)%N -> samples fr i j = nseq 2 (Some (f (get (sd G) i j)))) /\
  (forall (G : tf R) fr wo, tgain G -> fr_transfer f ii expL twopi G w iu ou = Ok (fr, wo) ->
     forall i j, (i < tp G)%N -> (j < tm G)%N -> size (samples fr i j) = 2%N).
Proof.
split=> [G fr wo hg|G fr wo hg]; rewrite /fr_state /fr_transfer.
  case: ifP => // _ E; have [W _ {}E] := bindOk E; move: E; rewrite hg => -[<- _] i j hi hj; by rewrite nth_mkseq2.
case: ifP => // _ E; have [W _ {}E] := bindOk E; have [fr' E' {}E] := bindOk E; case: E => <- _ i j hi hj; move: E'; rewrite hg; case: ifP => [sis [<-]|_].
  have [e1 e2] : tp G = 1%N /\ tm G = 1%N by move: sis; rewrite /tSISO => /andP [/eqP ? /eqP ?].
  by move: hi hj; rewrite e1 e2; case: i j => [|i] // [|j].
by move=> E; have [A _ {}E] := bindOk E; case: E => <-; rewrite nth_mkseq2.
Qed.
Print Assumptions C46_gain_refuted.

(* and for a one-by-one static Transfer a/b the samples are a *)
Theorem C46_gain_value_refuted (R : realFieldType) (L : fieldType) (f : {rmorphism R -> L}) (ii : L) expL (twopi : R) w iu ou
    (G : tf R) (a b : R) fr wo :
  tgain G -> tSISO G -> ent (tn G) 0 0 = [:: a] -> ent (td G) 0 0 = [:: b] -> a != 0 -> b != 0 -> b != 1 ->
  fr_transfer f ii expL twopi G w iu ou = Ok (fr, wo) ->
  sample fr 0 0 0 = Some (f a) /\ forall s, evT f G s 0 0 = f (a / b) /\ evT f G s 0 0 != f a.
Proof.
move=> hg hs ea eb a0 b0 b1; rewrite /fr_transfer; case: ifP => // _ E; have [W _ {}E] := bindOk E; have [fr' E' {}E] := bindOk E; case: E => <- _; move: E'.
rewrite hg hs ea => -[<-]; split=> // s.
have e : evT f G s 0 0 = f (a / b) by rewrite /evT ea eb !pev1 fmorph_div.
split=> //; rewrite e; apply: contra b1 => /eqP /fmorph_inj h; apply/eqP.
by rewrite -[b](mulKf a0) -[in X in _ * (X * _)]h divfK // mulVf.
Qed.
Print Assumptions C46_gain_value_refuted.
Example C46_gain_ex : [/\ wfS exK, sgain exK & if fr_state [rmorphism of @idfun Q] iqr ihess 1 id 6%:Q exK [:: 1; 2%:Q; 3%:Q] "Hz" "Hz"
    is Ok (fr, wo) then (size (samples fr 0 0), size wo) == (2, 3)%N else false].
Proof. by split; vm_compute. Qed.
Example C46_gain_value_ex : let G := Tf [:: [:: [:: 3%:Q]]] [:: [:: [:: 2%:Q]]] true None in
  [/\ wfT G, tgain G, tSISO G & if fr_transfer [rmorphism of @idfun Q] 1 id 6%:Q G [:: 1] "Hz" "Hz"
    is Ok (fr, wo) then (if sample fr 0 0 0 is Some v then v == 3%:Q else false) else false].
Proof. by split; rewrite ?wfTE; vm_compute. Qed.

(* unit names are accepted in any case but compared exactly: 'hz' input is read as rad/s, and 'RAD/S' output
   gives Hz *)
Theorem C46_unit_case_refuted (R : realFieldType) (L : fieldType) (f : {rmorphism R -> L}) qr hess (ii : L) expL (twopi : R) w u (G : state R) (H : tf R) :
  [/\ fr_state f qr hess ii expL twopi G w "hz" u = fr_state f qr hess ii expL twopi G w "rad/s" u,
      fr_transfer f ii expL twopi H w "hz" u = fr_transfer f ii expL twopi H w "rad/s" u,
      fr_state f qr hess ii expL twopi G w u "RAD/S" = fr_state f qr hess ii expL twopi G w u "Hz" &
      fr_transfer f ii expL twopi H w u "RAD/S" = fr_transfer f ii expL twopi H w u "Hz"].
Proof. by split; rewrite /fr_state /fr_transfer /unit_ok /= ?andbT. Qed.
Print Assumptions C46_unit_case_refuted.

(* ------------------------------------------------------------------ C64 *)
(* a computable evaluation of D + C (sI - A)^-1 B at a real point, for the examples *)
Definition evq (R : realFieldType) (G : state R) (s : R) : res (arr R) :=
  do X <- np_solve (asub (ascale s (aeye (snn G))) (sa G)) (sb G); Ok (aadd (amul (sc G) X) (sd G)).
Lemma evqP (R : realFieldType) (G : state R) (s : R) V : wfS G -> sgain G = false -> evq G s = Ok V ->
  regS [rmorphism of @idfun R] G s /\
  forall i j, (i < spn G)%N -> (j < smn G)%N -> ev [rmorphism of @idfun R] G s i j = get V i j.
Proof.
move=> w hg; have [[wa wb wc wd] [e1 e2 e3 e4 e5]] := wfS_dyn w hg; rewrite /evq => E; have [X EX {}E] := bindOk E.
have [wX x1 x2 uA eX] := @np_solve_ok _ _ [rmorphism of @idfun R] (snn G) (smn G) (asub (ascale s (aeye (snn G))) (sa G)) (sb G) X (erefl _) e5 EX.
have eA : mxof [rmorphism of @idfun R] (snn G) (snn G) (asub (ascale s (aeye (snn G))) (sa G)) =
  s%:M - mxof [rmorphism of @idfun R] (snn G) (snn G) (sa G).
  by rewrite mxof_sub // mxof_scale // mxof_eye /= scale_scalar_mx mulr1.
rewrite eA in uA eX; split; first exact: uA.
move=> i j hi hj; case: E => <-; rewrite get_mk ?e4 //= ?x2 // -(evalSE [rmorphism of @idfun R] G s (Ordinal hi) (Ordinal hj)).
rewrite /evalS /tfmx mxE [X in X + _]mxE /= addrC; congr (_ + _).
by rewrite -mulmxA -eX -(@mxof_mul _ _ _ _ (snn G)) // mxE.
Qed.

Section HessSingle.
Variables (R : realFieldType) (qr hess : arr R -> arr R * arr R).
Local Notation mx := (mxof [rmorphism of @idfun R]).

Lemma rot_single n (a b : arr R) : shp a = (n, n) -> shp b = (n, 1)%N -> wfa b -> (0 < n)%N ->
  hess_req qr hess a b -> amul (hess_rot qr hess a b) b = b.
Proof.
move=> sa sb wb n0 rq; have [[r1 r2] e] := rotE sa sb rq; have [b1 b2] := sb.
apply: (@mxof_inj _ _ [rmorphism of @idfun R] n 1); rewrite ?wfa_mul //=.
by rewrite (@mxof_mul _ _ _ n n 1) // e; case: rq => q1 q2; apply: hess_single.
Qed.

Lemma hess_ref_single (G : state R) (formo : bool) :
  wfS G -> sgain G = false -> (0 < snn G)%N -> (if formo then spn G else smn G) = 1%N ->
  hess_req qr hess (if formo then aT (sa G) else sa G) (if formo then aT (sc G) else sb G) ->
  hess_ref qr hess G formo = St (sa G) (sb G) (sc G) (azeros (spn G) (smn G)) false (sdt G).
Proof.
move=> w hg n0 h1 rq; have [[wa wb wc wd] [e1 e2 e3 e4 e5]] := wfS_dyn w hg.
rewrite /hess_ref; case: formo h1 rq => h1 rq; congr St.
  have [] // := @rotE R qr hess (snn G) (spn G) (aT (sa G)) (aT (sc G)); try by rewrite /shp /= ?e1 ?e3 ?e4.
  case=> r1 r2 _; rewrite -[in X in amul X _](aTK wc) -aT_mul /= ?e3 ?r2 //.
  by rewrite (@rot_single (snn G)) ?aTK ?wfa_T //; rewrite /shp /= ?e1 ?e3 ?e4 ?h1.
by rewrite (@rot_single (snn G)) //; rewrite /shp /= ?e1 ?e2 ?e5 ?h1.
Qed.
End HessSingle.

(* G with one input (form 'c') or one output (form 'o'): the result has the shape, sampling period and poles of G and
   the transfer matrix of G minus the feedthrough; with invert as well *)
Theorem C64_single_partial (R : realFieldType) qr hess (G : state R) (formo inv : bool) :
  wfS G -> sgain G = false -> (0 < snn G)%N -> (if formo then spn G else smn G) = 1%N ->
  hess_req qr hess (if formo then aT (sa G) else sa G) (if formo then aT (sc G) else sb G) ->
  exists K T, [/\ hessenberg_realization qr hess G formo inv = Ok (K, T), wfS K, sshape K = sshape G, sdt K = sdt G &
    forall (L : fieldType) (f : {rmorphism R -> L}) (s : L), regS f K s = regS f G s /\
      forall i j, (i < spn G)%N -> (j < smn G)%N -> ev f K s i j + f (get (sd G) i j) = ev f G s i j].
Proof.
move=> w hg n0 h1 rq; have [K [T [P [E [wK gK dK [sK _]] _ sim _]]]] := hessS inv w hg rq.
exists K, T; split=> // L f s; have [rg vl] := similar_tf f s sim.
have [[wa wb wc wd] [e1 e2 e3 e4 e5]] := wfS_dyn w hg.
have sp : spn (hess_ref qr hess G formo) = spn G by rewrite /spn /hess_ref; case: (formo) => /=.
have sm : smn (hess_ref qr hess G formo) = smn G by rewrite /smn /hess_ref; case: (formo) => /=.
split; first by rewrite rg /hess_ref.
move=> i j hi hj; rewrite vl ?sp ?sm // (hess_ref_single w hg n0 h1 rq) /ev /= get_mk // rmorph0 add0r addrC.
by [].
Qed.
Print Assumptions C64_single_partial.

(* so a feedthrough is lost: the value differs from that of G wherever D has a nonzero entry *)
Theorem C64_feedthrough_refuted (R : realFieldType) qr hess (G : state R) (formo inv : bool) i j :
  wfS G -> sgain G = false -> (0 < snn G)%N -> (if formo then spn G else smn G) = 1%N ->
  hess_req qr hess (if formo then aT (sa G) else sa G) (if formo then aT (sc G) else sb G) ->
  (i < spn G)%N -> (j < smn G)%N -> get (sd G) i j != 0 ->
  exists K T, hessenberg_realization qr hess G formo inv = Ok (K, T) /\
    forall (L : fieldType) (f : {rmorphism R -> L}) (s : L), ev f K s i j != ev f G s i j.
Proof.
move=> w hg n0 h1 rq hi hj d0; have [K [T [E _ _ _ H]]] := C64_single_partial inv w hg n0 h1 rq.
exists K, T; split=> // L f s; have [_ /(_ i j hi hj) <-] := H L f s.
by rewrite -subr_eq0 opprD addrA subrr sub0r oppr_eq0 fmorph_eq0.
Qed.
Print Assumptions C64_feedthrough_refuted.

(* the model that is really returned, for any number of inputs and outputs: same shape, sampling period and poles, with
   B replaced by W B (form 'c', C by C W' for form 'o') and D by zero, W = Q H Q' built from the two factorisations *)
Theorem C64_represents (R : realFieldType) qr hess (G : state R) (formo inv : bool) :
  wfS G -> sgain G = false ->
  hess_req qr hess (if formo then aT (sa G) else sa G) (if formo then aT (sc G) else sb G) ->
  exists K T, [/\ hessenberg_realization qr hess G formo inv = Ok (K, T), wfS K, sshape K = sshape G, sdt K = sdt G &
    forall (L : fieldType) (f : {rmorphism R -> L}) (s : L), regS f K s = regS f G s /\
      forall i j, (i < spn G)%N -> (j < smn G)%N -> ev f K s i j =
        ev f (if formo
              then St (sa G) (sb G) (amul (sc G) (aT (hess_rot qr hess (aT (sa G)) (aT (sc G))))) (azeros (spn G) (smn G)) false (sdt G)
              else St (sa G) (amul (hess_rot qr hess (sa G) (sb G)) (sb G)) (sc G) (azeros (spn G) (smn G)) false (sdt G)) s i j].
Proof.
move=> w hg rq; have [K [T [P [E [wK gK dK [sK _]] _ sim _]]]] := hessS inv w hg rq.
exists K, T; split=> // L f s; have [rg vl] := similar_tf f s sim.
have sp : spn (hess_ref qr hess G formo) = spn G by rewrite /spn /hess_ref; case: (formo) => /=.
have sm : smn (hess_ref qr hess G formo) = smn G by rewrite /smn /hess_ref; case: (formo) => /=.
split; first by rewrite rg /hess_ref.
by move=> i j hi hj; rewrite vl ?sp ?sm // /hess_ref; case: (formo).
Qed.
Print Assumptions C64_represents.

(* the shape that gives the form its name, form 'c': A upper Hessenberg and B upper triangular, or with invert A lower
   Hessenberg and B zero above the last rows; form 'o' is the transpose of this *)
Theorem C64_pattern (R : realFieldType) qr hess (G : state R) (inv : bool) K T :
  wfS G -> sgain G = false -> hess_req qr hess (sa G) (sb G) ->
  hessenberg_realization qr hess G false inv = Ok (K, T) ->
  forall i, (i < snn G)%N ->
    (forall j, (j < snn G)%N -> (if inv then i.+1 < j else j.+1 < i)%N -> get (sa K) i j = 0) /\
    (forall l, (l < smn G)%N -> (if inv then l < (snn G).-1 - i else l < i)%N -> get (sb K) i l = 0).
Proof.
move=> w hg [rq rh]; have [[wa wb wc wd] [e1 e2 e3 e4 e5]] := wfS_dyn w hg.
have sA : shp (sa G) = (snn G, snn G) by rewrite /shp /= e1.
have sB : shp (sb G) = (snn G, smn G) by rewrite /shp e2 e5.
have sC : shp (sc G) = (spn G, snn G) by rewrite /shp e3 e4.
have := hess_coreP inv sA sB sC rq rh; rewrite /hessenberg_realization.
case: hess_core => [[[ah bh] ch] T'] /= [[_ [[h1 h2] [b1 b2] [c1 c2] _]] _ _ _ hz].
rewrite mkS3 //=; [|by rewrite h1 h2|by rewrite b1 h1|by rewrite c2 h1|exact: wfS_dt w].
move=> [<- _] i hi; split=> [j hj|l hl] h; have [z1 z2] := hz i _ hi (leq_ltn_trans (leq0n _) hi).
  by have [-> //] := hz i j hi hj.
exact: z2.
Qed.
Print Assumptions C64_pattern.

(* the returned T: orthogonal, and T' A T is the state matrix of the result, without invert *)
Theorem C64_T_partial (R : realFieldType) qr hess (G : state R) (formo : bool) :
  wfS G -> sgain G = false ->
  hess_req qr hess (if formo then aT (sa G) else sa G) (if formo then aT (sc G) else sb G) ->
  exists K T, [/\ hessenberg_realization qr hess G formo false = Ok (K, T), shp T = (snn G, snn G),
    (amx (snn G) (snn G) T)^T *m amx (snn G) (snn G) T = 1%:M &
    amx (snn G) (snn G) (sa K) = (amx (snn G) (snn G) T)^T *m Amx G *m amx (snn G) (snn G) T].
Proof.
move=> w hg rq; have [K [T [P [E [wK gK dK [sK sT]] oP sim eT]]]] := hessS false w hg rq.
exists K, T; have {}eT := eT isT.
have eT' : amx (snn G) (snn G) T = P by exact: eT.
rewrite eT'; split=> //; case: sim => uP _ [eA _ _] _.
have iP : invmx P = P^T by rewrite -[RHS]mulmx1 -[1%:M](mulmxV uP) mulmxA oP mul1mx.
by rewrite -iP; exact: eA.
Qed.
Print Assumptions C64_T_partial.

Example C64_single_ex : [/\ wfS fG, sgain fG = false, (0 < snn fG)%N & spn fG = 1%N] /\
  hess_req iqr ihess (aT (sa fG)) (aT (sc fG)).
Proof. by split; [split | apply: hess_reqbP => //; vm_compute]. Qed.

(* three states, two inputs; qr leaves the triangular B alone, the Householder reflector of the column (3,4) is used in
   the Hessenberg reduction: the second column of B is not transformed and the transfer matrix changes *)
Definition hG : state Q := St (qa [:: [:: 0; 0; 0]; [:: 3%:Q; 0; 0]; [:: 4%:Q; 0; 0]])
  (qa [:: [:: 1; 0]; [:: 0; 1]; [:: 0; 0]]) (qa [:: [:: 0; 1; 0]]) (qa [:: [:: 0; 0]]) false None.
Definition hH : arr Q := qa [:: [:: 1; 0; 0]; [:: 0; - (3%:Q / 5%:Q); - (4%:Q / 5%:Q)]; [:: 0; - (4%:Q / 5%:Q); 3%:Q / 5%:Q]].
Definition hhess (A : arr Q) : arr Q * arr Q := (amul (amul (aT hH) A) hH, hH).
Theorem C64_multi_input_refuted : exists (G K : state Q) (T : arr Q) (s : Q),
  [/\ wfS G /\ sgain G = false, hess_req iqr hhess (sa G) (sb G), aany (sd G) = false /\
      hessenberg_realization iqr hhess G false false = Ok (K, T),
      regS [rmorphism of @idfun Q] G s && regS [rmorphism of @idfun Q] K s &
      exists i j, [/\ (i < spn G)%N, (j < smn G)%N & ev [rmorphism of @idfun Q] K s i j != ev [rmorphism of @idfun Q] G s i j]].
Proof.
have rq : hess_req iqr hhess (sa hG) (sb hG) by apply: hess_reqbP => //; vm_compute.
have w : wfS hG by vm_compute.
have [K [T [E wK sK dK _]]] := @C64_represents Q iqr hhess hG false false w erefl rq.
have gK : sgain K = false.
  have [K' [T' [P [E' [_ gK' _ _] _ _ _]]]] := @hessS Q iqr hhess hG false false w erefl rq.
  by move: E'; rewrite E => -[-> _].
have c1 : (if evq hG 1 is Ok V then get V 0 1 == 1 else false) by vm_compute.
have c2 : (if hessenberg_realization iqr hhess hG false false is Ok (K, _) then
  if evq K 1 is Ok V then get V 0 1 == - (3%:Q / 5%:Q) else false else false) by vm_compute.
rewrite E in c2.
move: c1 c2; case E1: (evq hG 1) => [V1|] // /eqP v1; case E2: (evq K 1) => [V2|] // /eqP v2.
have [r1 x1] := evqP w erefl E1; have [r2 x2] := evqP wK gK E2.
exists hG, K, T, 1; split; [by split; [exact: w|] | exact: rq | split; [by vm_compute | exact: E] | by rewrite r1 r2 |].
have [h1 h2] := sK.
have p1 : (0 < spn K)%N by rewrite /spn h1.
have m1 : (1 < smn K)%N by rewrite /smn h2.
exists 0%N, 1%N; split; [by [] | by [] |].
by rewrite (x1 0%N 1%N isT isT) (x2 0%N 1%N p1 m1) v1 v2; vm_compute.
Qed.
Print Assumptions C64_multi_input_refuted.

(* with invert the returned T is flipped on the wrong side: T' A T is not the state matrix of the result *)
Definition h2Q : arr Q := qa [:: [:: - (3%:Q / 5%:Q); - (4%:Q / 5%:Q)]; [:: - (4%:Q / 5%:Q); 3%:Q / 5%:Q]].
Definition h2qr (b : arr Q) : arr Q * arr Q := (h2Q, amul (aT h2Q) b).
Definition h2G : state Q := St (qa [:: [:: 1; 2%:Q]; [:: 0; 1]]) (qa [:: [:: 3%:Q]; [:: 4%:Q]]) (qa [:: [:: 1; 0]])
  (qa [:: [:: 0]]) false None.
Theorem C64_T_invert_refuted : exists (G K : state Q) (T : arr Q),
  [/\ wfS G, sgain G = false, hess_req h2qr ihess (sa G) (sb G),
      hessenberg_realization h2qr ihess G false true = Ok (K, T) &
      amx (snn G) (snn G) (sa K) <> (amx (snn G) (snn G) T)^T *m Amx G *m amx (snn G) (snn G) T].
Proof.
have rq : hess_req h2qr ihess (sa h2G) (sb h2G) by apply: hess_reqbP => //; vm_compute.
have w : wfS h2G by vm_compute.
have [K [T [E wK sK dK _]]] := @C64_represents Q h2qr ihess h2G false true w erefl rq.
have sT : shp T = (2, 2)%N.
  have [K' [T' [P [E' [_ _ _ [_ sT]] _ _ _]]]] := @hessS Q h2qr ihess h2G false true w erefl rq.
  by move: E'; rewrite E => -[_ ->].
have c : (if hessenberg_realization h2qr ihess h2G false true is Ok (K, T) then
  get (sa K) 0 0 != get (amul (amul (aT T) (sa h2G)) T) 0 0 else false) by vm_compute.
rewrite E in c; exists h2G, K, T; split=> // /matrixP /(_ 0 0).
rewrite [LHS]mxE /= => h; case/eqP: c; rewrite h.
have [t1 t2] := sT.
rewrite -(@mxof_T _ _ [rmorphism of @idfun Q] 2 2) // -!(@mxof_mul _ _ [rmorphism of @idfun Q] 2 2 2) //.
by rewrite mxE.
Qed.
Print Assumptions C64_T_invert_refuted.
