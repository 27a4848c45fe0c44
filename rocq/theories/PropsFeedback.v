(* Properties C34, C35: the feedback interconnection of State models, arrays and numbers.
   evalS f p m G s is the p-by-m transfer matrix D + C (sI - A)^-1 B of G at s, regS f G s says that
   s is not a pole of G (Denote.v).  ill is the singular value test of line 84; exact
   arithmetic makes it the test for a singular matrix. *)
From mathcomp Require Import all_ssreflect all_algebra.
From Verif Require Import Base BaseTheory Spec ModelState Denote StateTheory StateOps StateProps ModelFeedback FeedbackTheory.

Set Implicit Arguments.
Unset Strict Implicit.
Unset Printing Implicit Defensive.

Import Order.TTheory GRing.Theory Num.Theory.
Local Open Scope ring_scope.

(* ------------------------------------------------------------------ C34 *)
(* feedback(G, H, negative=False): (I - G H) K = G wherever G and H are defined and K has no pole
   there; K has a pole at such a point exactly if I - H G is singular. *)
Theorem C34_positive_feedback_partial (R : realFieldType) (ill : arr R -> bool) (G H : state R) :
  wfS G -> wfS H -> sdt G = sdt H -> spn G = smn H -> smn G = spn H ->
  (forall M, ill M = (adet M == 0)) ->
  adet (asub (aeye (smn G)) (amul (sd H) (sd G))) != 0 ->
  (sgain G && sgain H -> aany (sd G) && aany (sd H)) ->
  exists K, [/\ feedback ill (FState G) (FState H) false = Ok K, wfS K, sshape K = sshape G,
     sdt K = sdt G & snn K = (snn G + snn H)%N] /\
  forall (L : fieldType) (f : {rmorphism R -> L}) (s : L), regS f G s -> regS f H s ->
   let Gs := evalS f (spn G) (smn G) G s in let Hs := evalS f (smn G) (spn G) H s in
   let Ks := evalS f (spn G) (smn G) K s in
   regS f K s = (1%:M - Hs *m Gs \in unitmx) /\ (regS f K s -> (1%:M - Gs *m Hs) *m Ks = Gs).
Proof. exact: positive_feedback. Qed.
Print Assumptions C34_positive_feedback_partial.

(* an ill-posed loop, different sampling periods and nonconforming shapes are refused *)
Theorem C34_ill_posed (R : realFieldType) (ill : arr R -> bool) (G H : state R) :
  wfS G -> wfS H -> sdt G = sdt H -> spn G = smn H -> smn G = spn H ->
  (forall M, ill M = (adet M == 0)) ->
  adet (asub (aeye (smn G)) (amul (sd H) (sd G))) = 0 ->
  feedback ill (FState G) (FState H) false = Err ValueError.
Proof. exact: positive_illposed. Qed.
Print Assumptions C34_ill_posed.

Theorem C34_mismatch (R : realFieldType) (ill : arr R -> bool) (G H : state R) neg :
  sdt G != sdt H \/ spn G != smn H \/ smn G != spn H ->
  feedback ill (FState G) (FState H) neg = Err ValueError.
Proof. exact: mismatch. Qed.
Print Assumptions C34_mismatch.

(* numbers and arrays are static gains with the sampling period of the other operand *)
Theorem C34_array_operands (R : realFieldType) (ill : arr R -> bool) (G : state R) (A : arr R) neg :
  wfS G ->
  exists H, mkGain A (sdt G) = Ok H /\
  feedback ill (FState G) (FArr A) neg = feedback ill (FState G) (FState H) neg /\
  feedback ill (FArr A) (FState G) neg = feedback ill (FState H) (FState G) neg.
Proof. exact: array_operands. Qed.
Print Assumptions C34_array_operands.

(* False of the code: a static loop with a zero gain leaves the variable mat of line 90
   unassigned, for both signs.  The missing case of C34_positive_feedback_partial. *)
Theorem C34_zero_gain_refuted (R : realFieldType) (ill : arr R -> bool) (G H : state R) neg :
  wfS G -> wfS H -> sdt G = sdt H -> spn G = smn H -> smn G = spn H ->
  ~~ ill (asub (aeye (smn G)) (amul (sd H) (sd G))) -> sgain G -> sgain H ->
  ~~ aany (sd G) || ~~ aany (sd H) ->
  feedback ill (FState G) (FState H) neg = Err UnboundLocalError.
Proof. exact: zero_gain. Qed.
Print Assumptions C34_zero_gain_refuted.

(* ------------------------------------------------------------------ C35 *)
(* Full statement: the same as C34 with (I + G H) K = G and the test on I + D_H D_G.  It holds when
   the loop has no algebraic part (D_H D_G = 0) ... *)
Theorem C35_negative_feedback_partial (R : realFieldType) (ill : arr R -> bool) (G H : state R) :
  wfS G -> wfS H -> sdt G = sdt H -> spn G = smn H -> smn G = spn H ->
  (forall M, ill M = (adet M == 0)) ->
  ~~ (sgain G && sgain H) -> amul (sd H) (sd G) = azeros (smn G) (smn G) ->
  exists K, [/\ feedback ill (FState G) (FState H) true = Ok K, wfS K, sshape K = sshape G,
     sdt K = sdt G & snn K = (snn G + snn H)%N] /\
  forall (L : fieldType) (f : {rmorphism R -> L}) (s : L), regS f G s -> regS f H s ->
   let Gs := evalS f (spn G) (smn G) G s in let Hs := evalS f (smn G) (spn G) H s in
   let Ks := evalS f (spn G) (smn G) K s in
   regS f K s = (1%:M + Hs *m Gs \in unitmx) /\ (regS f K s -> (1%:M + Gs *m Hs) *m Ks = Gs).
Proof. exact: negative_feedback. Qed.
Print Assumptions C35_negative_feedback_partial.

(* ... and is false otherwise, because line 78 uses I - D_H D_G for both signs: every static
   scalar loop with d n different from 0 and 1 gets a wrong gain, ... *)
Theorem C35_static_loop_refuted (R : realFieldType) (ill : arr R -> bool) (G H : state R) :
  wfS G -> wfS H -> sdt G = sdt H -> sgain G -> sgain H -> sSISO G -> sSISO H ->
  (forall M, ill M = (adet M == 0)) ->
  let d := get (sd G) 0 0 in let n := get (sd H) 0 0 in
  d * n != 0 -> d * n != 1 ->
  exists K, feedback ill (FState G) (FState H) true = Ok K /\ (1 + d * n) * get (sd K) 0 0 != d.
Proof. exact: negative_static. Qed.
Print Assumptions C35_static_loop_refuted.

(* ... the loops with I - D_H D_G singular are refused although I + D_H D_G is then not zero
   (scalar loops: d n = 1), ... *)
Theorem C35_well_posed_rejected_refuted (R : realFieldType) (ill : arr R -> bool) (G H : state R) :
  wfS G -> wfS H -> sdt G = sdt H -> sSISO G -> sSISO H ->
  (forall M, ill M = (adet M == 0)) ->
  get (sd G) 0 0 * get (sd H) 0 0 = 1 ->
  feedback ill (FState G) (FState H) true = Err ValueError /\ 1 + get (sd G) 0 0 * get (sd H) 0 0 != 0.
Proof. exact: negative_rejected. Qed.
Print Assumptions C35_well_posed_rejected_refuted.

(* ... and the ill-posed scalar loops (d n = -1) are accepted. *)
Theorem C35_ill_posed_accepted_refuted (R : realFieldType) (ill : arr R -> bool) (G H : state R) :
  wfS G -> wfS H -> sdt G = sdt H -> sSISO G -> sSISO H ->
  (forall M, ill M = (adet M == 0)) ->
  get (sd G) 0 0 * get (sd H) 0 0 = -1 ->
  is_ok (feedback ill (FState G) (FState H) true).
Proof. exact: negative_accepted. Qed.
Print Assumptions C35_ill_posed_accepted_refuted.

(* Concrete cases *)
Definition fbill (M : arr Q) : bool := adet M == 0.
Definition exL : state Q :=
  St (qa [:: [:: -1]]) (qa [:: [:: 1; 3%:Q]]) (qa [:: [:: 1]; [:: 0]; [:: 2%:Q]])
     (qa [:: [:: 0; 1]; [:: 1; 0]; [:: 5%:Q; 1]]) false None.
Example C34_ex : [/\ wfS exM, wfS exL, adet (asub (aeye (smn exM)) (amul (sd exL) (sd exM))) != 0 &
  is_ok (feedback fbill (FState exM) (FState exL) false)].
Proof. by split; vm_compute. Qed.
Example C35_ex : [/\ wfS exG, wfS exH, aeq (amul (sd exH) (sd exG)) (azeros 1 1) &
  is_ok (feedback fbill (FState exG) (FState exH) true)].
Proof. by split; vm_compute. Qed.
Definition exg2 : state Q := St (e00 _) (e00 _) (e00 _) (qa [:: [:: 2%:Q]]) true None.
Definition exg3 : state Q := St (e00 _) (e00 _) (e00 _) (qa [:: [:: 3%:Q]]) true None.
Example C35_ex_static : [/\ wfS exg2, wfS exg3, sSISO exg2, sSISO exg3 &
  if feedback fbill (FState exg2) (FState exg3) true is Ok K then get (sd K) 0 0 == 22%:Q / 5%:Q else false].
Proof. by split; vm_compute. Qed.
Example C35_ex_rejected : [/\ wfS exH, sSISO exH &
  if feedback fbill (FState exH) (FState exH) true is Err ValueError then true else false].
Proof. by split; vm_compute. Qed.
