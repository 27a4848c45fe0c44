(* Properties C23 - C30 and C67 of the Transfer class.
   Notation (DenoteT.v): evT f G s i j is num_ij(s)/den_ij(s) at a point s of an extension field, dfT
   says that den_ij(s) is not zero, wfT G that G is a consistent Transfer object; tp, tm, tshape, tdt
   are its numbers of outputs and inputs, shape and sampling period.
   sca, svd stand for matrix_balance and the singular value decomposition inside haroldlcm
   (contracts sca_ok, svd_ok as in C08); eps is the clean-up threshold of transfer_to_state. *)
From mathcomp Require Import all_ssreflect all_algebra.
From Verif Require Import Base BaseTheory Spec ModelPoly PolyTheory PolyOps LcmTheory ModelState ModelTransfer
  DenoteT TransferTheory TransferOps TransferProps.

Set Implicit Arguments.
Unset Strict Implicit.
Unset Printing Implicit Defensive.

Import Order.TTheory GRing.Theory Num.Theory.
Local Open Scope ring_scope.

Local Notation Q := rat_realFieldType.

(* ------------------------------------------------------------------ C23 *)
(* Full statement: every accepted pair is causal, every causal pair is accepted.  Acceptance implies
   causality for every form of the arguments as long as no denominator is stored with a leading zero. *)
Theorem C23_accepted_causal_partial (R : realFieldType) lcmf eps (num den : targ R) dt G :
  mk_tf lcmf eps num den dt = Ok G ->
  all (fun d => head 0 d != 0) (flatten (td G)) ->
  forall i j, (i < tp G)%N -> (j < tm G)%N ->
  (size (polyhi (ent (tn G) i j)) <= size (polyhi (ent (td G) i j)))%N.
Proof. exact: mk_tf_causal. Qed.
Print Assumptions C23_accepted_causal_partial.

(* in that case the object is consistent *)
Theorem C23_accepted_wf_partial (R : realFieldType) lcmf eps (num den : targ R) dt G :
  mk_tf lcmf eps num den dt = Ok G -> all (fun d => head 0 d != 0) (flatten (td G)) -> wfT G.
Proof. exact: mk_tf_wfT. Qed.
Print Assumptions C23_accepted_wf_partial.

(* flat lists: accepted if and only if causal *)
Theorem C23_flat_lists_partial (R : realFieldType) lcmf eps (n d : seq R) dt :
  n != [::] -> polyhi d != 0 -> posdt dt ->
  is_ok (mk_tf lcmf eps (TFlat n) (TFlat d) dt) = (size (polyhi n) <= size (polyhi d))%N.
Proof. exact: flat_accept. Qed.
Print Assumptions C23_flat_lists_partial.

(* lists of lists pass the validation if and only if every entry is causal *)
Theorem C23_mimo_lists_partial (R : realFieldType) p m (N D : seq (seq (seq R))) :
  (0 < p)%N -> (0 < m)%N -> (p, m) != (1, 1)%N -> rect p m N -> rect p m D ->
  is_ok (tf_validate (TLL N) (TLL D)) =
  all (fun i => all (fun j => (size (polyhi (ent N i j)) <= size (polyhi (ent D i j)))%N) (iota 0 m)) (iota 0 p).
Proof. exact: mimo_accept. Qed.
Print Assumptions C23_mimo_lists_partial.

(* False of the code for arrays: s^2 / (0 s^2 + s + 2) is accepted *)
Theorem C23_noncausal_accepted_refuted lcmf (eps : Q) :
  is_ok (mk_tf lcmf eps (trow [:: 1; 0; 0]) (trow [:: 0; 1; 2%:~R]) None) = true /\
  (size (polyhi [:: 0; 1; 2%:~R : Q]%R) < size (polyhi [:: 1; 0; 0 : Q]%R))%N = true.
Proof. by rewrite -!size_trimf; split; vm_compute. Qed.
Print Assumptions C23_noncausal_accepted_refuted.

(* and the constants [[0 s + 1, 1]] over 2 are rejected *)
Theorem C23_causal_rejected_refuted lcmf (eps : Q) :
  is_ok (mk_tf lcmf eps (TLL [:: [:: [:: 0; 1]; [:: 1]]]) (TFlat [:: 2%:~R]) None) = false /\
  (size (polyhi [:: 0; 1 : Q]%R) <= size (polyhi [:: 2%:~R : Q]%R))%N = true.
Proof. by rewrite -!size_trimf; split; vm_compute. Qed.
Print Assumptions C23_causal_rejected_refuted.

Example C23_ex : is_ok (mk_tf exl (0 : Q) (TLL (tn tM)) (TLL (td tM)) (tdt tM)).
Proof. by vm_compute. Qed.

(* ------------------------------------------------------------------ C24 *)
(* Full statement: after every history the flag agrees with the data.  It does, and the object stays
   consistent even when an assignment raises, as long as the denominator is not assigned. *)
Theorem C24_history_partial (R : realFieldType) lcmf eps (G : tf R) (l : seq (tassign R)) :
  wfT G -> all (fun a => if a is ADen _ then false else true) l ->
  [/\ wfT (trun lcmf eps G l), tshape (trun lcmf eps G l) = tshape G & td (trun lcmf eps G l) = td G].
Proof. exact: trun_wf. Qed.
Print Assumptions C24_history_partial.

(* with all assignments the shape of num and den and the validity of the sampling period are kept *)
Theorem C24_shape_history_partial (R : realFieldType) lcmf eps (G : tf R) (l : seq (tassign R)) :
  rect (tp G) (tm G) (tn G) && rect (tp G) (tm G) (td G) -> posdt (tdt G) ->
  let K := trun lcmf eps G l in
  [/\ rect (tp K) (tm K) (tn K) && rect (tp K) (tm K) (td K), tshape K = tshape G & posdt (tdt K)].
Proof. exact: trun_rect. Qed.
Print Assumptions C24_shape_history_partial.

(* False of the code: 3/5 with its denominator set to s+1 still counts as a static gain *)
Theorem C24_gain_flag_refuted lcmf (eps : Q) :
  let K := trun lcmf eps tK [:: ADen (TFlat [:: 1; 1])] in
  [&& wfT tK, (if (tstep lcmf eps tK (ADen (TFlat [:: 1; 1]))).2 is None then true else false), tgain K & td K == [:: [:: [:: 1; 1]]]].
Proof. by rewrite /= wfTE; vm_compute. Qed.
Print Assumptions C24_gain_flag_refuted.

(* and an assignment that raises can change the object: 2/(s+1) with the denominator set to 2 *)
Theorem C24_raise_refuted lcmf (eps : Q) :
  let r := tstep lcmf eps tG (ADen (TNum 2%:~R)) in
  [&& wfT tG, (if r.2 is Some ValueError then true else false) & td r.1 != td tG].
Proof. by rewrite /= wfTE; vm_compute. Qed.
Print Assumptions C24_raise_refuted.

(* ------------------------------------------------------------------ C25 *)
Theorem C25_transfer_add (R : realFieldType) (sca : arr R -> seq R) svd eps (G H K : tf R) :
  (forall a, sca_ok a (sca a)) -> (forall C, wfa C -> svd_ok C (svd C)) ->
  wfT G -> wfT H -> tshape G = tshape H -> tf_add (haroldlcm sca svd 0) eps G (PTf H) = Ok K ->
  [/\ wfT K, tshape K = tshape G & tdt K = tdt G] /\
  forall (L : fieldType) (f : {rmorphism R -> L}) s i j, (i < tp G)%N -> (j < tm G)%N ->
    dfT f G s i j -> dfT f H s i j ->
    dfT f K s i j /\ evT f K s i j = evT f G s i j + evT f H s i j.
Proof. by move=> h1 h2; apply: tf_addTP; exact: haroldlcm_okf. Qed.
Print Assumptions C25_transfer_add.

Example C25_ex : [&& wfT tG, wfT tH, tshape tG == tshape tH & is_ok (tf_add exl 0 tG (PTf tH))].
Proof. by rewrite !wfTE; vm_compute. Qed.
Example C25_ex_mimo : wfT tM && is_ok (tf_add exl 0 tM (PTf tM)).
Proof. by rewrite wfTE; vm_compute. Qed.

(* ------------------------------------------------------------------ C26 *)
(* Full statement: SISO + MIMO Transfer adds to every entry.  False of the code for every pair that is
   not two static gains (AttributeError), and for a SISO gain plus a MIMO gain. *)
Theorem C26_mixed_add_refuted (R : realFieldType) lcmf eps (G H : tf R) :
  tSISO G != tSISO H -> tdt G = tdt H -> tgain G && tgain H = false ->
  tf_add lcmf eps G (PTf H) = Err AttributeError.
Proof. exact: add_mixed. Qed.
Print Assumptions C26_mixed_add_refuted.

Theorem C26_mixed_gain_refuted (R : realFieldType) lcmf eps (G H : tf R) :
  wfT G -> wfT H -> tSISO G -> ~~ tSISO H -> tgain G -> tgain H -> ~~ is_ok (tf_add lcmf eps G (PTf H)).
Proof. exact: add_mixed_gain. Qed.
Print Assumptions C26_mixed_gain_refuted.

(* Numbers and arrays do broadcast *)
Theorem C26_add_scalar_partial (R : realFieldType) (sca : arr R -> seq R) svd eps (G K : tf R) x :
  (forall a, sca_ok a (sca a)) -> (forall C, wfa C -> svd_ok C (svd C)) ->
  wfT G -> tf_add (haroldlcm sca svd 0) eps G (PScal x) = Ok K ->
  [/\ wfT K, tshape K = tshape G & tdt K = tdt G] /\
  forall (L : fieldType) (f : {rmorphism R -> L}) s i j, (i < tp G)%N -> (j < tm G)%N -> dfT f G s i j ->
    dfT f K s i j /\ evT f K s i j = evT f G s i j + f x.
Proof. by move=> h1 h2; apply: tf_add_scalP; exact: haroldlcm_okf. Qed.
Print Assumptions C26_add_scalar_partial.

Theorem C26_add_array_partial (R : realFieldType) (sca : arr R -> seq R) svd eps (G K : tf R) (A : arr R) :
  (forall a, sca_ok a (sca a)) -> (forall C, wfa C -> svd_ok C (svd C)) ->
  wfT G -> (0 < nr A)%N -> (0 < nc A)%N -> tshape G = (1, 1)%N \/ tshape G = (nr A, nc A) ->
  tf_add (haroldlcm sca svd 0) eps G (PArr2 A) = Ok K ->
  [/\ wfT K, tshape K = (nr A, nc A) & tdt K = tdt G] /\
  forall (L : fieldType) (f : {rmorphism R -> L}) s i j, (i < nr A)%N -> (j < nc A)%N ->
    let i' := if tshape G == (1, 1)%N then 0%N else i in
    let j' := if tshape G == (1, 1)%N then 0%N else j in
    dfT f G s i' j' -> dfT f K s i j /\ evT f K s i j = evT f G s i' j' + f (get A i j).
Proof.
move=> h1 h2 w r c sh; apply: tf_add_arrP => //; first exact: haroldlcm_okf.
by rewrite /tSISO /is11 -/(tshape G) /shp; case: sh => ->; rewrite eqxx ?orbT.
Qed.
Print Assumptions C26_add_array_partial.

Example C26_ex : [&& wfT tG, wfT tM, tSISO tG != tSISO tM & tdt tG == tdt tM].
Proof. by rewrite !wfTE; vm_compute. Qed.
Example C26_ex_num : is_ok (tf_add exl 0 tG (PArr2 (of_rows [:: [:: 1; 2%:~R]; [:: 0; 5%:~R]]))) &&
  is_ok (tf_add exl 0 tM (PScal 7%:~R)).
Proof. by vm_compute. Qed.

(* ------------------------------------------------------------------ C27 *)
(* Full statement: without the hypothesis on SISO static gains.  The shape and the value are those
   of the entrywise product, a 1-by-1 factor is used for every entry (bsiso). *)
Theorem C27_transfer_mul_partial (R : realFieldType) lcmf eps (G H K : tf R) :
  wfT G -> wfT H -> (tgain G -> tshape G = (1, 1)%N -> ent (td G) 0 0 = [:: 1]) ->
  tf_mul lcmf eps G (PTf H) = Ok K ->
  [/\ wfT K, tshape K = (if tshape G == (1, 1)%N then tshape H else tshape G) & tdt K = tdt G] /\
  forall (L : fieldType) (f : {rmorphism R -> L}) s i j, (i < tp K)%N -> (j < tm K)%N ->
    let gi k := if tshape G == (1, 1)%N then 0%N else k in
    let hi k := if tshape H == (1, 1)%N then 0%N else k in
    dfT f G s (gi i) (gi j) -> dfT f H s (hi i) (hi j) ->
    dfT f K s i j /\ evT f K s i j = evT f G s (gi i) (gi j) * evT f H s (hi i) (hi j).
Proof.
move=> wG wH hg h; have [gG sG|[w1 w2 w3] hv] := tf_mulTP wG wH _ h; first by apply: hg => //; exact/eqP.
by split=> // L f s i j hi hj; apply: hv; [move: hi; rewrite /tp w2|move: hj; rewrite /tm w2].
Qed.
Print Assumptions C27_transfer_mul_partial.

(* False of the code: the denominator of a SISO static gain is ignored *)
Theorem C27_gain_den_ignored_refuted (R : realFieldType) lcmf eps (a b : R) (H K : tf R) :
  wfT H -> tf_mul lcmf eps (Tf [:: [:: [:: a]]] [:: [:: [:: b]]] true (tdt H)) (PTf H) = Ok K ->
  forall (L : fieldType) (f : {rmorphism R -> L}) s i j, (i < tp H)%N -> (j < tm H)%N -> dfT f H s i j ->
  evT f K s i j = f a * evT f H s i j.
Proof. exact: mul_gain_ignores_den. Qed.
Print Assumptions C27_gain_den_ignored_refuted.

(* numbers and arrays *)
Theorem C27_scale (R : realFieldType) lcmf eps (G K : tf R) x :
  wfT G -> tf_mul lcmf eps G (PScal x) = Ok K ->
  [/\ wfT K, tshape K = tshape G & tdt K = tdt G] /\
  forall (L : fieldType) (f : {rmorphism R -> L}) s i j, (i < tp G)%N -> (j < tm G)%N -> dfT f G s i j ->
    dfT f K s i j /\ evT f K s i j = f x * evT f G s i j.
Proof. exact: tf_scaleP. Qed.
Print Assumptions C27_scale.

Example C27_ex : [&& wfT tG, wfT tM, ~~ tgain tG, is_ok (tf_mul exl 0 tG (PTf tM)) & is_ok (tf_mul exl 0 tM (PTf tM))].
Proof. by rewrite !wfTE; vm_compute. Qed.
(* 3/5 * 2/(s+1) is 6/(s+1) *)
Example C27_ex_refuted : wfT tK && if tf_mul exl 0 tK (PTf tG) is Ok K
  then (tn K == [:: [:: [:: 6%:~R]]]) && (td K == [:: [:: [:: 1; 1]]]) else false.
Proof. by rewrite wfTE; vm_compute. Qed.

(* ------------------------------------------------------------------ C28 *)
(* Full statement: without the hypothesis that constant denominators of G are written as 1, and for
   array @ G also for discrete-time models. *)
Theorem C28_matmul_partial (R : realFieldType) (sca : arr R -> seq R) svd eps (G H K : tf R) :
  (forall a, sca_ok a (sca a)) -> (forall C, wfa C -> svd_ok C (svd C)) ->
  wfT G -> wfT H -> tm G = tp H ->
  (forall i k, (i < tp G)%N -> (k < tm G)%N -> size (ent (td G) i k) = 1%N -> ent (td G) i k = [:: 1]) ->
  tf_matmul (haroldlcm sca svd 0) eps G (PTf H) = Ok K ->
  [/\ wfT K, tshape K = (tp G, tm H) & tdt K = tdt G] /\
  forall (L : fieldType) (f : {rmorphism R -> L}) s i j, (i < tp G)%N -> (j < tm H)%N ->
    (forall k, (k < tm G)%N -> dfT f G s i k /\ dfT f H s k j) ->
    dfT f K s i j /\ evT f K s i j = \sum_(k < tm G) evT f G s i k * evT f H s k j.
Proof. by move=> h1 h2; apply: tf_matmulP; exact: haroldlcm_okf. Qed.
Print Assumptions C28_matmul_partial.

Theorem C28_matmul_array (R : realFieldType) (sca : arr R -> seq R) svd eps (G K : tf R) (A : arr R) :
  (forall a, sca_ok a (sca a)) -> (forall C, wfa C -> svd_ok C (svd C)) ->
  wfT G -> tm G = nr A -> (0 < nc A)%N ->
  tf_matmul (haroldlcm sca svd 0) eps G (PArr2 A) = Ok K ->
  [/\ wfT K, tshape K = (tp G, nc A) & tdt K = tdt G] /\
  forall (L : fieldType) (f : {rmorphism R -> L}) s i j, (i < tp G)%N -> (j < nc A)%N ->
    (forall k, (k < tm G)%N -> dfT f G s i k) ->
    dfT f K s i j /\ evT f K s i j = \sum_(k < tm G) evT f G s i k * f (get A k j).
Proof. by move=> h1 h2; apply: tf_matmul_arrP; exact: haroldlcm_okf. Qed.
Print Assumptions C28_matmul_array.

Theorem C28_array_matmul_partial (R : realFieldType) (sca : arr R -> seq R) svd eps (G K : tf R) (A : arr R) :
  (forall a, sca_ok a (sca a)) -> (forall C, wfa C -> svd_ok C (svd C)) ->
  wfT G -> tdt G = None -> nc A = tp G -> (0 < nr A)%N ->
  tf_rmatmul (haroldlcm sca svd 0) eps G (PArr2 A) = Ok K ->
  [/\ wfT K, tshape K = (nr A, tm G) & tdt K = None] /\
  forall (L : fieldType) (f : {rmorphism R -> L}) s i j, (i < nr A)%N -> (j < tm G)%N ->
    (forall k, (k < tp G)%N -> dfT f G s k j) ->
    dfT f K s i j /\ evT f K s i j = \sum_(k < tp G) f (get A i k) * evT f G s k j.
Proof. by move=> h1 h2; apply: rmatmulP; exact: haroldlcm_okf. Qed.
Print Assumptions C28_array_matmul_partial.

(* False of the code: array @ discrete-time model always raises *)
Theorem C28_array_matmul_discrete_refuted (R : realFieldType) lcmf eps (G : tf R) (A : arr R) h :
  tdt G = Some h -> asize A != 1%N -> tf_rmatmul lcmf eps G (PArr2 A) = Err ValueError.
Proof. exact: rmatmul_discrete. Qed.
Print Assumptions C28_array_matmul_discrete_refuted.

(* False of the code: (3/5) @ 2/(s+1) is 6/(s+1) *)
Theorem C28_matmul_gain_den_refuted lcmf (eps : Q) : wfT tK && wfT tG &&
  if tf_matmul lcmf eps tK (PTf tG) is Ok K
  then (tn K == [:: [:: [:: 6%:~R]]]) && (td K == [:: [:: [:: 1; 1]]]) else false.
Proof. by rewrite !wfTE; vm_compute. Qed.
Print Assumptions C28_matmul_gain_den_refuted.

Example C28_ex : [&& wfT tM, is_ok (tf_matmul exl 0 tM (PTf tM)), is_ok (tf_matmul exl 0 tM (PArr2 (aones 2 3))) &
  all (fun d => (size d == 1%N) ==> (d == [:: 1])) (flatten (td tM))].
Proof. by rewrite !wfTE; vm_compute. Qed.

(* ------------------------------------------------------------------ C29 *)
Theorem C29_neg (R : realFieldType) lcmf eps (G K : tf R) :
  wfT G -> tf_neg lcmf eps G = Ok K ->
  [/\ wfT K, tshape K = tshape G & tdt K = tdt G] /\
  forall (L : fieldType) (f : {rmorphism R -> L}) s i j, (i < tp G)%N -> (j < tm G)%N ->
    dfT f K s i j = dfT f G s i j /\ evT f K s i j = - evT f G s i j.
Proof. exact: tf_negP. Qed.
Print Assumptions C29_neg.

(* a SISO model that the constructor accepts can be negated *)
Theorem C29_neg_total (R : realFieldType) lcmf eps (G : tf R) :
  wfT G -> tSISO G -> (size (ent (tn G) 0 0) <= size (ent (td G) 0 0))%N ->
  is_ok (tf_recalc lcmf eps G) -> is_ok (tf_neg lcmf eps G).
Proof. exact: neg_total. Qed.
Print Assumptions C29_neg_total.

(* 1/G of a biproper SISO model exists and is the inverse *)
Theorem C29_inverse (R : realFieldType) lcmf eps (G : tf R) :
  wfT G -> tshape G = (1, 1)%N -> head 0 (ent (tn G) 0 0) != 0 ->
  size (ent (tn G) 0 0) = size (ent (td G) 0 0) ->
  exists2 K, tf_rtruediv_siso lcmf eps G (PScal 1) = Ok K &
  [/\ wfT K, tshape K = (1, 1)%N & tdt K = tdt G] /\
  forall (L : fieldType) (f : {rmorphism R -> L}) s, pev f (ent (tn G) 0 0) s != 0 ->
    dfT f K s 0 0 /\ evT f K s 0 0 = (evT f G s 0 0)^-1.
Proof.
move=> w sh h0 es; have sG : tSISO G by exact/eqP.
case E: (tf_rtruediv_siso _ _ _ _) (inv_total lcmf eps w sG h0 es) => [K|] // _; exists K => //.
exact: (tf_rtruedivP w sG h0 E).
Qed.
Print Assumptions C29_inverse.

(* strictly proper models are rejected, when their numerator is stored without leading zeros *)
Theorem C29_improper_inverse_partial (R : realFieldType) lcmf eps (G : tf R) o :
  wfT G -> tshape G = (1, 1)%N -> head 1 (ent (tn G) 0 0) != 0 ->
  size (polyhi (ent (tn G) 0 0)) != size (polyhi (ent (td G) 0 0)) ->
  tf_rtruediv_siso lcmf eps G o = Err ValueError.
Proof.
move=> w sh h0 hs; case: (wfTP w) => -[hp hm _ _] hd _ _ _.
have h1 : head 1 (ent (td G) 0 0) != 0 by move: (hd 0%N 0%N hp hm); case: (ent (td G) 0 0) => //=; rewrite eqxx.
by move: hs; rewrite !size_polyhi_trim // /tf_rtruediv_siso => /negbTE->.
Qed.
Print Assumptions C29_improper_inverse_partial.

(* False of the code: (0s^2+s+1)/(s^2+2s+1) is accepted by the constructor and inverted *)
Theorem C29_improper_inverse_refuted lcmf (eps : Q) :
  if mk_tf lcmf eps (trow [:: 0; 1; 1]) (trow [:: 1; 2%:~R; 1]) None is Ok G
  then wfT G && is_ok (tf_rtruediv_siso lcmf eps G (PScal 1)) else false.
Proof.
set X := mk_tf _ _ _ _ _; have : if X is Ok G then wfTc G && is_ok (tf_rtruediv_siso lcmf eps G (PScal 1)) else false.
  by vm_compute.
by case: X => // G; rewrite wfTE.
Qed.
Print Assumptions C29_improper_inverse_refuted.

Example C29_ex : [&& wfT tM, is_ok (tf_neg exl 0 tM), wfT tB, tshape tB == (1, 1)%N, head 0 (ent (tn tB) 0 0) != 0 &
  is_ok (tf_recalc exl 0 tB)].
Proof. by rewrite !wfTE; vm_compute. Qed.

(* ------------------------------------------------------------------ C30 *)
(* a selection of rows rs and columns cs *)
Theorem C30_getitem (R : realFieldType) lcmf eps (G K : tf R) (rs cs : seq nat) :
  wfT G -> tf_getitem lcmf eps G rs cs = Ok K ->
  (tSISO G -> size rs = 1%N /\ size cs = 1%N) ->
  [/\ wfT K, tshape K = (size rs, size cs) & tdt K = tdt G] /\
  forall (L : fieldType) (f : {rmorphism R -> L}) s i j, (i < size rs)%N -> (j < size cs)%N ->
    dfT f K s i j = dfT f G s (nth 0%N rs i) (nth 0%N cs j) /\
    evT f K s i j = evT f G s (nth 0%N rs i) (nth 0%N cs j).
Proof. exact: tf_getitemP. Qed.
Print Assumptions C30_getitem.

(* one entry *)
Theorem C30_getij (R : realFieldType) lcmf eps (G K : tf R) i j :
  wfT G -> tf_getij lcmf eps G i j = Ok K ->
  [/\ (i < tp G)%N, (j < tm G)%N, wfT K, tshape K = (1, 1)%N & tdt K = tdt G] /\
  ent (tn K) 0 0 = ent (tn G) i j /\ ent (td K) 0 0 = ent (td G) i j.
Proof. exact: tf_getijP. Qed.
Print Assumptions C30_getij.

(* False of the code: an existing entry may not be selectable; here entry (0,0) is (0s+1)/(s+2) *)
Theorem C30_getij_total_refuted lcmf (eps : Q) :
  if mk_tf lcmf eps (TLL [:: [:: [:: 0; 1]; [:: 1]]; [:: [:: 1]; [:: 1]]]) (TFlat [:: 1; 2%:~R]) None is Ok G
  then wfT G && ~~ is_ok (tf_getij lcmf eps G 0 0) else false.
Proof.
set X := mk_tf _ _ _ _ _; have : if X is Ok G then wfTc G && ~~ is_ok (tf_getij lcmf eps G 0 0) else false.
  by vm_compute.
by case: X => // G; rewrite wfTE.
Qed.
Print Assumptions C30_getij_total_refuted.

Example C30_ex : [&& wfT tM, is_ok (tf_getij exl 0 tM 1 0) & is_ok (tf_getitem exl 0 tM [:: 1%N] [:: 1; 0; 1]%N)].
Proof. by rewrite !wfTE; vm_compute. Qed.

(* ------------------------------------------------------------------ C67 *)
(* False of the code: the sum of two models of equal shape and sampling period exists.  Here
   1/(s+1) + (-1)/(s+2). *)
Theorem C67_add_total_refuted (sca : arr Q -> seq Q) svd (eps : Q) :
  (forall a, sca_ok a (sca a)) -> (forall C, wfa C -> svd_ok C (svd C)) ->
  [/\ wfT fG, wfT fH, tshape fG = tshape fH & tdt fG = tdt fH] /\
  tf_add (haroldlcm sca svd 0) eps fG (PTf fH) = Err ValueError.
Proof.
by move=> h1 h2; have /andP[w1 w2] := fGH_wf; split=> //; apply: add_fail; exact: haroldlcm_okf.
Qed.
Print Assumptions C67_add_total_refuted.
