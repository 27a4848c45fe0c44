(* A Transfer that meets the hypotheses of C85_hinf: 1/(s+1) over any real closed field R, with the complex numbers R[i]. *)
From mathcomp Require Import all_ssreflect all_algebra zify.
From mathcomp Require Import complex.
From Coq Require Import String.
From Verif Require Import Base BaseTheory Spec ModelPoly PolyTheory PolyOps LcmTheory ModelState Denote StateTheory StateProps ModelTransfer DenoteT
  TransferTheory TransferProps ConvertOps ConvertMimo ConvertState SpecConvert PropsConvert ModelFeedback ModelFeedbackT SpecFeedbackT
  FeedbackTheory FeedbackTTheory SpecSim ModelFreq SpecFreq FreqTheory PropsFreq ModelLyap SpecLyap SpecDiff PropsLyap ModelNorm SpecNorm NormTheory PropsNorm
  PropsNormInf PropsNormMimo PropsNormEx PropsNormMimoEx ModelDiscT SpecDiscT DiscTTheory SpecNormT PropsNormT.

Set Implicit Arguments.
Unset Strict Implicit.
Unset Printing Implicit Defensive.

Import Order.Theory GRing.Theory Num.Theory.
Local Open Scope ring_scope.
Local Open Scope complex_scope.

Section Ex.
Variable R : rcfType.
Let L := [fieldType of R[i]].
Let f : {rmorphism R -> L} := [rmorphism of @real_complex_def R (Phant R)].
Let cj : {rmorphism L -> L} := [rmorphism of @conjc R].
Let ii : L := 'i.
Variables (sca : arr R -> seq R) (svd : arr R -> arr R * arr R * arr R).
Hypotheses (hsca : forall a, sca_ok a (sca a)) (hsvd : forall C, wfa C -> svd_ok C (svd C)).
Definition tex : tf R := Tf [:: [:: [:: 1]]] [:: [:: [:: 1; 1]]] false None.

Lemma tex_conv lcmf (eps : R) : transfer_to_state lcmf eps tex = Ok (gex R).
Proof.
rewrite /transfer_to_state /tts_abcd /= /tts_siso /haroldcompanion /= /trimf /= !oner_eq0 /=.
rewrite invr1 !mul1r /mk_state /= /mk /=; congr Ok; rewrite /gex /of_rows /=.
Qed.
Lemma tex_ev s : s + 1 != 0 -> all_def f tex s /\ evT f tex s 0 0 = (s + 1)^-1.
Proof.
have e : pev f [:: 1; 1] s = s + 1 by rewrite /pev polyhi2 rmorphD /= linearZ /= map_polyX map_polyC /= rmorph1 scale1r !hornerE.
have e1 : pev f [:: 1] s = 1 by rewrite /pev polyhi1 map_polyC /= rmorph1 hornerC.
move=> s0; split; last by rewrite /evT -[ent (tn tex) 0 0]/[:: 1] -[ent (td tex) 0 0]/[:: 1; 1] e e1 mul1r.
move=> i j; have -> : tp tex = 1%N by []. have -> : tm tex = 1%N by [].
by rewrite !ltnS !leqn0 => /eqP -> /eqP ->; rewrite /dfT -[ent (td tex) 0 0]/[:: 1; 1] e.
Qed.
Lemma tex_hyp (eps : R) : convertible eps tex /\ dynamic (XT tex).
Proof.
split.
- split=> //; first by rewrite wfTE /wfTc /= /trimf /= !oner_eq0.
  by move=> _; rewrite /ent /= polyhi1 size_polyC oner_eq0.
by exists 0%N, 0%N; split=> //; rewrite coef_polyhi /= mul0r scale0r head_polyhi //= oner_eq0.
Qed.
Lemma tex_resp (w : R) : respT f tex (ii * f w) = resp f (gex R) (ii * f w).
Proof.
apply: mk_ext => -[|i] [|j] // _ _; rewrite (tex_ev _).2; first by rewrite ex_ev.
exact: (@ex_s _ _ w).
Qed.
Lemma tex_induced (w : R) : induced_norm f cj (\matrix_(i < tp tex, j < tm tex) evT f tex (ii * f w) i j) (@exabs R (respT f tex (ii * f w))).
Proof.
rewrite tex_resp; have [h0 h1] := ex_modulus w; have [_ e1] := tex_ev (@ex_s _ _ w erefl).
rewrite -[tp tex]/1%N -[tm tex]/1%N.
have e (u : 'cV[L]_1) : sqnorm cj ((\matrix_(i < 1, j < 1) evT f tex (ii * f w) i j) *m u) = f (@exabs R (resp f (gex R) (ii * f w)) ^+ 2) * sqnorm cj u.
  have -> : \matrix_(i < 1, j < 1) evT f tex (ii * f w) i j = (ii * f w + 1)^-1%:M :> 'M[L]_1.
    by apply/matrixP => i j; rewrite !ord1 !mxE eqxx mulr1n -e1.
  rewrite mul_scalar_mx /sqnorm !mxE !big_ord1 !mxE h1 /resp get_mk // ex_ev rmorphM.
  by rewrite mulrACA [cj (ii * f w + 1)^-1 * _]mulrC.
split=> //; last by exists 1; rewrite ?oner_neq0.
by move=> u; exists 0 => //; rewrite e subrr rmorph0.
Qed.

(* system_norm(Transfer(1, [1, 1]), inf) with sqrt(eps) = 1 returns 2, and what C85_hinf says of it *)
Definition tnorm := @system_norm_t R L f (@exqr R) (@exhess R) ii id 1 0 (fun A => (A, A)) (fun A B => (A, B, A, B)) (fun n => azeros n n)
  Num.sqrt 0 1 (@exeigs R) (fun z => Num.sqrt (z.1 ^+ 2 + z.2 ^+ 2)) (@exabs R) (fun=> [:: (-1, 0)]) xpredT (haroldlcm sca svd 0) 0 tex PInf 0.
Example C85_ex_value : tnorm = Ok (NVal 2%:R).
Proof. by rewrite /tnorm /system_norm_t tex_conv; exact: ex_norm. Qed.
Example C85_ex : exists l, [/\ 2%:R = l * (1 + 1),
  l = @exabs R (respT_inf f tex) \/ (exists w : R, l = @exabs R (respT f tex (ii * f w))) &
  forall w : R, @exabs R (respT f tex (ii * f w)) < l * (1 + 2%:R * 1)].
Proof.
have [hc hd] := tex_hyp 0.
apply: (@C85_hinf R L f (@exqr R) (@exhess R) ii id 1 0 (fun A => (A, A)) (fun A B => (A, B, A, B)) (fun n => azeros n n)
  Num.sqrt 0 1 (@exeigs R) (fun z => Num.sqrt (z.1 ^+ 2 + z.2 ^+ 2)) (@exabs R) (fun=> [:: (-1, 0)]) xpredT cj sca svd 0 hsca hsvd
  tex (gex R) 0 2%:R (@ex_complexes R) (@ex2_cart R) hc hd erefl (tex_conv _ _) (@ex_freq R) ltr01 (lexx _) (@ex_eigs R) tex_induced
  _ _ C85_ex_value _); last by rewrite pnatr_eq0.
- by rewrite /exabs sqrtr_ge0.
by move=> w; exact: (tex_ev (@ex_s _ _ w erefl)).1.
Qed.
End Ex.
Print Assumptions C85_ex.

(* 3/z: the impulse response is 0, 3, 0, ..., its energy 9, the 2-norm 3; the hypotheses of C85_h2_discrete_partial hold *)
Section ExD.
Local Notation Q := rat_realFieldType.
Local Notation mx := (mxof [rmorphism of @idfun Q]).
Variables (sca : arr Q -> seq Q) (svd : arr Q -> arr Q * arr Q * arr Q).
Definition t3 : tf Q := Tf [:: [:: [:: 3%:R]]] [:: [:: [:: 1; 0]]] false (Some 1).
Definition k3z : state Q := St (of_rows [:: [:: 0]]) (of_rows [:: [:: 1]]) (of_rows [:: [:: 3%:R]]) (of_rows [:: [:: 0]]) false (Some 1).
Definition nnorm_t := system_norm_t [rmorphism of @idfun Q] (fun A => (A, A)) (fun A => (A, A)) 1 id 1 0
  (fun A : arr Q => (A, aeye (nr A) : arr Q)) lqz (fun n => azeros n n) nsq 0 0 (fun _ => [::]) (fun _ => 0) (fun _ => 0) (fun _ => [::]) (fun _ => true)
  (haroldlcm sca svd 0) (1 / 100%:~R).
Definition h3 (i j k : nat) : Q := if k == 1%N then 3%:R else 0.

Lemma t3_solves : impulse_response_of t3 h3.
Proof.
move=> i j; have -> : tp t3 = 1%N by []. have -> : tm t3 = 1%N by [].
rewrite !ltnS !leqn0 => /eqP -> /eqP -> N k _.
rewrite -[ent (tn t3) 0 0]/[:: 3%:R] -[ent (td t3) 0 0]/[:: 1; 0] polyhi1 !big_ord_recl !big_ord0 /= !coefC /=.
rewrite mul1r mul0r !addr0 mul0r add0r /past /h3 subn0 leq0n; case: k => [|[|k]] /=; rewrite ?mulr0 ?mulr1 //.
Qed.
Lemma t3_energy h : impulse_response_of t3 h -> tends (energyT t3 h) 9%:R.
Proof.
move=> hh e e0; exists 2%N => N hN.
have E k : h 0%N 0%N k = h3 0%N 0%N k.
  have := @PropsSimT.C82_unique Q 0 0 (lexx 0) (lexx 0) [:: 3%:R] [:: 1; 0] _ _ _ k.+1 (oner_neq0 _) (hh 0%N 0%N isT isT k.+1) (@t3_solves 0%N 0%N isT isT k.+1) k (leqnn _).
  exact.
rewrite [X in X - _](_ : _ = 9%:R) ?subrr ?normr0 //; rewrite /energyT -[tp t3]/1%N -[tm t3]/1%N.
under eq_bigr => k _ do rewrite !big_ord1 E.
case: N hN => [|[|N]] // _; rewrite !big_ord_recl big1 ?addr0 /h3 //=.
Qed.

Example C85_ex_discrete : [/\ convertible (1 / 100%:~R) t3 /\ dynamic (XT t3), powers_vanish (mx 1 1 (sa k3z)),
    PropsNorm.h2_req (fun A : arr Q => (A, aeye (nr A) : arr Q)) (fun n => azeros n n) k3z,
    forall h t, impulse_response_of t3 h -> 0 <= t -> tends (energyT t3 h) t -> is_sqrt t (nsq t) &
    (if transfer_to_state (haroldlcm sca svd 0) (1 / 100%:~R) t3 is Ok K then
       [&& aeq (sa K) (sa k3z), aeq (sb K) (sb k3z), aeq (sc K) (sc k3z) & aeq (sd K) (sd k3z)] else false) &&
    (if nnorm_t t3 P2 0 is Ok (NVal v) then v == 3%:R else false)].
Proof.
split.
- split.
    split=> //; first by rewrite wfTE; vm_compute.
    by move=> _; rewrite -[ent (tn t3) 0 0]/[:: 3%:R] -[ent (td t3) 0 0]/[:: 1; 0] polyhi1 size_polyC => h; exfalso; move: h; case: (_ != 0).
  by exists 0%N, 0%N; split=> //; rewrite coef_polyhi /= mul0r scale0r head_polyhi //=.
- move=> i j e e0; exists 1%N => -[|N] // _; rewrite /mpow /= [mx 1 1 _](_ : _ = 0) ?mul0mx ?mxE ?subr0 ?normr0 //.
  by apply/matrixP => a b; rewrite !ord1 !mxE.
- by apply: nreq; right.
- by move=> h t hh t0 /(ev_uniq (t3_energy hh)) <-; split=> //; apply/eqP; vm_compute.
by vm_compute.
Qed.
End ExD.

(* the static gain 0 meets the hypotheses of C85_gain_refuted *)
Definition t0g : tf rat_realFieldType := Tf [:: [:: [:: 0]]] [:: [:: [:: 1]]] true None.
Example C85_ex_gain : [/\ convertible (1 / 100%:~R) t0g, tgain t0g & forall i j, (i < tp t0g)%N -> (j < tm t0g)%N -> at_inf t0g i j = 0].
Proof.
have h i j : (i < tp t0g)%N -> (j < tm t0g)%N -> i = 0%N /\ j = 0%N.
  have -> : tp t0g = 1%N by []. have -> : tm t0g = 1%N by [].
  by rewrite !ltnS !leqn0 => /eqP -> /eqP ->.
split=> //.
  split=> //; first by rewrite wfTE; vm_compute.
  - by move=> _ i j hi hj; have [-> ->] := h i j hi hj.
  by move=> _; rewrite -[ent (tn t0g) 0 0]/[:: 0] -[ent (td t0g) 0 0]/[:: 1] polyhi1 polyC0 size_poly0.
by move=> i j hi hj; have [-> ->] := h i j hi hj; rewrite /at_inf -[ent (tn t0g) 0 0]/[:: 0] polyhi1 coefC /= mul0r.
Qed.
