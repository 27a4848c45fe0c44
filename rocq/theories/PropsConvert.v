(* Properties C31 and C32: transfer_to_state.
   Notation: evT f G s i j is num_ij(s)/den_ij(s), dfT says that den_ij(s) is not zero (DenoteT.v);
   ev f K s i j is the entry (i,j) of D + C (sI - A)^-1 B and regS says that sI - A is invertible
   (Denote.v); wfT and wfS say that the models are consistent objects.
   sca, svd stand for matrix_balance and the singular value decomposition inside haroldlcm (contracts
   sca_ok and svd_ok as in C08); eps is the clean-up threshold, np.spacing(100.) in the code: remainder
   coefficients smaller than eps are replaced by 0.  clean_ok eps G (ConvertState.v) says that the
   divisions of G have no nonzero remainder coefficient smaller than eps. *)
From mathcomp Require Import all_ssreflect all_algebra.
From Verif Require Import Base BaseTheory Spec ModelPoly PolyTheory PolyOps LcmTheory ModelState Denote StateTheory StateProps
  ModelTransfer DenoteT TransferTheory TransferOps TransferProps ConvertTheory ConvertOps ConvertMimo ConvertState.

Set Implicit Arguments.
Unset Strict Implicit.
Unset Printing Implicit Defensive.

Import Order.TTheory GRing.Theory Num.Theory.
Local Open Scope ring_scope.

Local Notation Q := rat_realFieldType.

(* ------------------------------------------------------------------ C31 *)
(* Full statement: for every causal SISO G the result is a State model with the same value at every s
   where den(s) is not zero.  Proved for every G whose division has no tiny remainder coefficient; the
   model has at most deg(den) states. *)
Theorem C31_siso_partial (R : realFieldType) lcmf (eps : R) (G : tf R) :
  wfT G -> tSISO G -> tgain G = false ->
  (size (polyhi (ent (tn G) 0 0)) = size (polyhi (ent (td G) 0 0)) ->
   forall k, let c := (polyhi (ent (tn G) 0 0) %% polyhi (ent (td G) 0 0))`_k / head 0 (ent (td G) 0 0) in
     c = 0 \/ eps <= `|c|) ->
  exists K, [/\ transfer_to_state lcmf eps G = Ok K, wfS K, sshape K = (1, 1)%N, sdt K = tdt G &
    (snn K <= (size (polyhi (ent (td G) 0 0))).-1)%N /\
    forall (L : fieldType) (f : {rmorphism R -> L}) (s : L), dfT f G s 0 0 ->
      regS f K s /\ ev f K s 0 0 = evT f G s 0 0].
Proof.
move=> w hS hg ha; have [p1 m1] : tp G = 1%N /\ tm G = 1%N by move: hS; rewrite wfT_siso // => /andP[/eqP ? /eqP].
have h0 : head 0 (ent (td G) 0 0) != 0 by case: (wfTP w) => _ hd _ _ _; apply: hd; rewrite ?p1 ?m1.
have hsz : size (polyhi (ent (td G) 0 0)) = size (ent (td G) 0 0).
  by rewrite size_polyhi_trim //; case: (ent (td G) 0 0) h0 => //=; rewrite eqxx.
rewrite hsz in ha *; apply: tts_sisoP => // e k; have := ha e k; rewrite /= /remS coefZ mulrC.
have -> // : lead_coef (polyhi (ent (td G) 0 0)) = head 0 (ent (td G) 0 0).
by case: (ent (td G) 0 0) h0 => [|c d] /=; rewrite ?eqxx // => c0; rewrite lead_coef_polyhi.
Qed.
Print Assumptions C31_siso_partial.

(* in particular for every strictly proper G, whatever the threshold *)
Theorem C31_siso_strictly_proper (R : realFieldType) lcmf (eps : R) (G : tf R) :
  wfT G -> tSISO G -> tgain G = false ->
  (size (polyhi (ent (tn G) 0 0)) < size (polyhi (ent (td G) 0 0)))%N ->
  exists K, [/\ transfer_to_state lcmf eps G = Ok K, wfS K, sshape K = (1, 1)%N, sdt K = tdt G &
    (snn K <= (size (polyhi (ent (td G) 0 0))).-1)%N /\
    forall (L : fieldType) (f : {rmorphism R -> L}) (s : L), dfT f G s 0 0 ->
      regS f K s /\ ev f K s 0 0 = evT f G s 0 0].
Proof. by move=> w hS hg hlt; apply: C31_siso_partial => // e; move: hlt; rewrite e ltnn. Qed.
Print Assumptions C31_siso_strictly_proper.

(* constants become static gains, SISO or not *)
Theorem C31_gain (R : realFieldType) lcmf (eps : R) (G : tf R) :
  wfT G -> tgain G ->
  (forall i j, (i < tp G)%N -> (j < tm G)%N -> size (ent (tn G) i j) = 1%N) ->
  exists K, [/\ transfer_to_state lcmf eps G = Ok K, wfS K && sgain K, sshape K = tshape G, sdt K = tdt G &
    forall (L : fieldType) (f : {rmorphism R -> L}) (s : L) i j, (i < tp G)%N -> (j < tm G)%N ->
      ev f K s i j = evT f G s i j].
Proof. exact: tts_gainP. Qed.
Print Assumptions C31_gain.

(* False without the condition on the remainder: whatever the threshold, 1 + e/(s+1) with 0 < |e| < eps
   is converted to a model that is 1 everywhere *)
Lemma small_lost (R : realFieldType) lcmf (eps e : R) : e != 0 -> `|e| < eps ->
  exists K, transfer_to_state lcmf eps (Tf [:: [:: [:: 1; 1 + e]]] [:: [:: [:: 1; 1]]] false None) = Ok K /\
    forall s, ev [rmorphism of @idfun R] K s 0 0 = 1.
Proof.
move=> e0 he; have [|q [r [E eq hr /andP[hq hr1]]]] := @polydivP R [:: 1; 1 + e] [:: 1; 1]; first by rewrite /= oner_neq0.
have p2 (a b : R) : polyhi [:: a; b] = a *: 'X + b%:P.
  by apply/polyP => k; rewrite coef_polyhi coefD coefZ coefX coefC; case: k => [|[|k]] //=; rewrite ?mulr0 ?mulr1 ?add0r ?addr0.
have sd : size (polyhi [:: 1; 1 : R]) = 2%N by rewrite -size_trimf /= oner_eq0.
have hd : polyhi [:: 1; 1 + e] = 1 * polyhi [:: 1; 1] + e%:P by rewrite !p2 polyCD mul1r addrA.
have [q1 r1] : polyhi q = 1 /\ polyhi r = e%:P.
  have h1 : (size (e%:P)%R < size (polyhi [:: 1; 1 : R]%R))%N by rewrite sd size_polyC e0.
  split; last first.
    by have := congr1 (fun P => P %% polyhi [:: 1; 1]) eq; rewrite hd !modpD !modp_mull !add0r !modp_small.
  by have := congr1 (fun P => P %/ polyhi [:: 1; 1]) eq; rewrite hd !divpD !mulpK -?size_poly_gt0 ?sd // !(divp_small h1, divp_small hr) !addr0.
have rE : r = [:: e].
  have := size_polyhi_trim hr1; rewrite r1 size_polyC e0; case: r hr1 r1 {E eq hr} => [|x []] //= _.
  by rewrite polyhi1 => /polyC_inj ->.
have qE : q = [:: 1].
  have := size_polyhi_trim hq; rewrite q1 size_poly1; case: q hq q1 {E eq} => [|x []] //= _.
  by rewrite polyhi1 -polyC1 => /polyC_inj ->.
rewrite /transfer_to_state /tts_abcd [tgain _]/= [is11 _]/= /tts_siso companion_compm /= ?oner_neq0 //= ?eqxx /=.
rewrite !oner_eq0 /= !divr1 E qE rE /= he /= /awrite /=.
rewrite /mk_state /st_validate /=; eexists; split; first reflexivity.
move=> s; rewrite /ev /= get_mk //=.
set M := (X in 1 + X); have -> : M = 0; last by rewrite addr0.
rewrite /M -mulmxA mxE big1 // => k _; rewrite mxE /= (_ : get _ _ _ = 0) ?mul0r //.
by have := ltn_ord k; case: (nat_of_ord k).
Qed.

Theorem C31_small_remainder_refuted (R : realFieldType) lcmf (eps e : R) : e != 0 -> `|e| < eps ->
  let G := Tf [:: [:: [:: 1; 1 + e]]] [:: [:: [:: 1; 1]]] false None in
  wfT G /\ exists K, transfer_to_state lcmf eps G = Ok K /\
    forall s : R, s != -1 -> ev [rmorphism of @idfun R] K s 0 0 = 1 /\ evT [rmorphism of @idfun R] G s 0 0 = 1 + e / (s + 1).
Proof.
move=> e0 he G; split.
  by rewrite /wfT /tp /tm /tshape /= oner_neq0 /= /ent /= -size_trimf /= oner_eq0.
have [K [E H]] := small_lost lcmf e0 he; exists K; split=> // s hs; split; first exact: H.
have s1 : s + 1 != 0 by rewrite addr_eq0.
rewrite /evT /pev /ent /= !map_poly_id //.
have p2 (a b : R) : polyhi [:: a; b] = a *: 'X + b%:P.
  by apply/polyP => k; rewrite coef_polyhi coefD coefZ coefX coefC; case: k => [|[|k]] //=; rewrite ?mulr0 ?mulr1 ?add0r ?addr0.
by rewrite !p2 !hornerD !hornerZ !hornerC hornerX !mul1r addrA mulrDl divff.
Qed.
Print Assumptions C31_small_remainder_refuted.

(* (s+3)/(s^2+3s+2) and (2s+1)/(s+1) meet the hypotheses and are converted *)
Example C31_ex : wfT tH && tSISO tH && ~~ tgain tH && (size (trimf (ent (tn tH) 0 0)) < size (trimf (ent (td tH) 0 0)))%N
  && (if transfer_to_state exl (1 / 100%:~R) tH is Ok K then snn K == 2%N else false).
Proof. by rewrite wfTE; vm_compute. Qed.
Example C31_ex_biproper : wfT tB && tSISO tB && ~~ tgain tB &&
  (if transfer_to_state exl (1 / 100%:~R) tB is Ok K then (snn K == 1%N) && (get (sd K) 0 0 == 2%:~R) else false).
Proof. by rewrite wfTE; vm_compute. Qed.
Example C31_ex_gain : wfT tK && tgain tK && (size (ent (tn tK) 0 0) == 1%N).
Proof. by rewrite wfTE; vm_compute. Qed.

(* ------------------------------------------------------------------ C32 *)
(* Full statement: for every causal G with several inputs or outputs the result is a State model with
   the same value wherever no denominator vanishes.  Whenever a result is returned it is right (both
   branches, tall and fat), as long as the clean-up touches no remainder. *)
Theorem C32_mimo_partial (R : realFieldType) (sca : arr R -> seq R) svd (eps : R) (G : tf R) K :
  (forall a, sca_ok a (sca a)) -> (forall C, wfa C -> svd_ok C (svd C)) ->
  wfT G -> ~~ tSISO G -> tgain G = false -> clean_ok eps G ->
  transfer_to_state (haroldlcm sca svd 0) eps G = Ok K ->
  [/\ wfS K, sshape K = tshape G, sdt K = tdt G &
    forall (L : fieldType) (f : {rmorphism R -> L}) (s : L),
      (forall i j, (i < tp G)%N -> (j < tm G)%N -> dfT f G s i j) ->
      regS f K s /\ forall i j, (i < tp G)%N -> (j < tm G)%N -> ev f K s i j = evT f G s i j].
Proof. by move=> h1 h2; apply: tts_mimo_value; exact: haroldlcm_okf. Qed.
Print Assumptions C32_mimo_partial.

(* and a result is returned when each numerator is a nonempty list that either is shorter than its
   denominator, has the same degree, or has a constant denominator *)
Theorem C32_mimo_returns_partial (R : realFieldType) (sca : arr R -> seq R) svd (eps : R) (G : tf R) :
  (forall a, sca_ok a (sca a)) -> (forall C, wfa C -> svd_ok C (svd C)) ->
  wfT G -> ~~ tSISO G -> tgain G = false ->
  (forall i j, (i < tp G)%N -> (j < tm G)%N ->
     let n := ent (tn G) i j in let d := ent (td G) i j in
     n != [::] /\ ((size n < size d) || (size (polyhi n) == size d) || (size d == 1))%N) ->
  exists K, transfer_to_state (haroldlcm sca svd 0) eps G = Ok K.
Proof. by move=> h1 h2; apply: tts_mimo_exists; exact: haroldlcm_okf. Qed.
Print Assumptions C32_mimo_returns_partial.

(* False without that condition: [0 s + 1, 1] over the common denominator s + 2 is a causal model, yet
   its conversion fails, and so does the constructor, which converts MIMO models *)
Definition tZ : tf Q := Tf [:: [:: [:: 0; 1]; [:: 1]]] [:: [:: [:: 1; 2%:~R]; [:: 1; 2%:~R]]] false None.
Theorem C32_leading_zero_refuted lcmf (eps : Q) :
  wfT tZ /\ transfer_to_state lcmf eps tZ = Err ValueError /\
  mk_tf lcmf eps (TLL (tn tZ)) (TLL (td tZ)) None = Err ValueError /\
  is_ok (mk_tf lcmf eps (TLL [:: [:: [:: 1]; [:: 1]]]) (TLL (td tZ)) None) = true.
Proof. by rewrite wfTE; do !split; vm_compute. Qed.
Print Assumptions C32_leading_zero_refuted.

(* a 2-by-2 model with different denominators, one of them constant; and a 1-by-2 one *)
Definition tF : tf Q := Tf [:: [:: [:: 1; 3%:~R]; [:: 2%:~R; 1]]] [:: [:: [:: 1; 3%:~R; 2%:~R]; [:: 1; 1]]] false None.
Example C32_ex : wfT tM && ~~ tSISO tM && ~~ tgain tM &&
  (if transfer_to_state exl (1 / 100%:~R) tM is Ok K then (sshape K == (2, 2)%N) && (0 < snn K)%N else false).
Proof. by rewrite wfTE; vm_compute. Qed.
Example C32_ex_fat : wfT tF && ~~ tSISO tF && ~~ tgain tF &&
  (if transfer_to_state exl (1 / 100%:~R) tF is Ok K then (sshape K == (1, 2)%N) && (0 < snn K)%N else false).
Proof. by rewrite wfTE; vm_compute. Qed.
Lemma clean_ex (R : realFieldType) (eps a b c d : R) : a != 0 ->
  eps <= `|d - c / a * b| -> above eps (polyhi [:: c; d] %% polyhi [:: a; b]).
Proof.
move=> a0 h k.
have p2 (x y : R) : polyhi [:: x; y] = x *: 'X + y%:P.
  by apply/polyP => i; rewrite coef_polyhi coefD coefZ coefX coefC; case: i => [|[|i]] //=; rewrite ?mulr0 ?mulr1 ?add0r ?addr0.
have sD : size (polyhi [:: a; b]) = 2%N by rewrite -size_trimf /= (negbTE a0).
have -> : polyhi [:: c; d] %% polyhi [:: a; b] = (d - c / a * b)%:P.
  have -> : polyhi [:: c; d] = (c / a)%:P * polyhi [:: a; b] + (d - c / a * b)%:P.
    by rewrite !p2 mulrDr mul_polyC scalerA divfK // -addrA -polyCM -polyCD [c / a * b + _]addrC subrK.
  by rewrite modpD modp_mull add0r modp_small // sD; apply: leq_ltn_trans (size_polyC_leq1 _) _.
by rewrite coefC; case: ifP => _; [right | left].
Qed.
Lemma proper_ex (R : realFieldType) (eps : R) (n d : seq R) : (size (trimf n) < size d)%N ->
  size (polyhi n) = size d -> above eps (polyhi n %% polyhi d).
Proof. by rewrite size_trimf => /[swap] ->; rewrite ltnn. Qed.
Example C32_ex_clean : clean_ok (1 / 100%:~R) tM /\ clean_ok (1 / 100%:~R) tF.
Proof.
split.
  case=> [|[|i]] // [|[|j]] // _ _ _.
  - by apply: proper_ex; vm_compute.
  - by move=> _; apply: clean_ex; vm_compute.
case=> [|i] // [|[|j]] // _ _ _.
- by apply: proper_ex; vm_compute.
- by move=> _; apply: clean_ex; vm_compute.
Qed.
