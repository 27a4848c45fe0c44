(* Examples for C76 over the rationals, with exact numerics, and a comparison with Transfer.dcgain. *)
From mathcomp Require Import all_ssreflect all_algebra zify.
From Coq Require Import String.
From Verif Require Import Base BaseTheory Spec ModelState Denote StateTheory ModelAux ModelTransfer AuxTheory SpecSim SimTheory KalmanTheory SpecReach
  ModelMin SpecMin StairTheory PropsStair MinTheory PropsMin PropsMinEx ModelDc ModelDcS SpecDcS DcSTheory PropsDcS.

Set Implicit Arguments.
Unset Strict Implicit.
Unset Printing Implicit Defensive.

Import Order.TTheory GRing.Theory Num.Theory.
Local Open Scope ring_scope.

(* an input direction that is an eigenvector reaches only its own multiples *)
Lemma eig_line (F : fieldType) n p (A : 'M[F]_n) (b : 'cV[F]_n) (C : 'M[F]_(p, n)) l : A *m b = l *: b -> unobs_line A b C.
Proof.
move=> e.
have on x : from_rest_to A b x -> exists c, x = c *: b.
  case=> N [u <-]; elim: N => [|N [c IH]] /=; first by exists 0; rewrite scale0r.
  exists (c * l + u N 0 0); rewrite IH -scalemxAr e scalerA scalerDl; congr (_ + _).
  by apply/matrixP => i j; rewrite !mxE big_ord1 mulrC (ord1 j).
move=> x y /on[c ->] /on[d ->] _ _; have [->|c0] := eqVneq c 0.
  by exists 1, 0; split; [case=> /eqP; rewrite oner_eq0 | rewrite !scale0r scaler0 addr0].
exists d, (- c); split; last by rewrite !scalerA -scalerDl mulNr mulrC subrr scale0r.
by case=> _ /eqP; rewrite oppr_eq0 (negbTE c0).
Qed.

Local Notation Q := rat_realFieldType.
Definition qbig : Q := Eval vm_compute in 100%:~R.

Definition eqF (x y : fval Q) : bool :=
  match x, y with Fin a, Fin b => a == b | Inf a, Inf b => a == b | _, _ => false end.
Lemma eqFP x y : eqF x y -> x = y. Proof. by case: x y => [a|a] [b|b] //= /eqP->. Qed.

(* an integrator and a lag side by side: the inner loop, line 563, finds the only infinite entry *)
Definition d2 : state Q := Eval vm_compute in
  St (zq [:: [:: 0; 0]; [:: 0; -1]]) (zq [:: [:: 1; 0]; [:: 0; 1]]) (zq [:: [:: 1; 0]; [:: 0; 1]]) (zq [:: [:: 7; 0]; [:: 0; 3]]) false None.
Lemma d2_min (i j : nat) : (i < 2)%N -> (j < 2)%N ->
  min_chk qsvd teps (@gdist Q) qbal qtol (sa d2) (acols (sb d2) [:: j]) (arows (sc d2) [:: i]).
Proof. by case: i => [|[|//]]; case: j => [|[|//]] _ _; vm_compute. Qed.
Lemma d2_one : Bmx d2 = 1%:M /\ Cmx d2 = 1%:M.
Proof. by split; apply/matrixP => -[[|[|//]] hi] [[|[|//]] hj]; rewrite !mxE; apply/eqP; vm_compute. Qed.
Lemma d2_eig (j : 'I_2) : Amx d2 *m col j (Bmx d2) = (if j == 0 then 0 else -1) *: col j (Bmx d2).
Proof.
rewrite d2_one.1 -[Amx d2 *m _]/(Amx d2 *m (col j 1%:M)) colE mul1mx -colE.
by case: j => -[|[|//]] hj; apply/matrixP => -[[|[|//]] hi] k; rewrite (ord1 k) !mxE; apply/eqP; vm_compute.
Qed.
Example C76_value_ex : wfS d2 /\ bal_ok qbal (snn d2) (sa d2) /\ cdist_ok (@gdist Q) qtol /\
  min_exact qsvd teps (@gdist Q) qbal qtol (sa d2) (sb d2) (sc d2) /\
  [/\ 0 <= teps, min_good (snn d2) (smn d2) (spn d2) (sa d2) (sb d2) (sc d2),
    forall i j, channel_good qsvd teps (@gdist Q) qbal qtol (G := d2) i j &
  if state_dcgain qsvd teps (@gdist Q) qbal qtol qbig d2 is Ok V then
    [&& eqF (dc_ent V 0 0) (Inf Q true), eqF (dc_ent V 0 1) (Fin (0 : Q)), eqF (dc_ent V 1 0) (Fin (0 : Q)) & eqF (dc_ent V 1 1) (Fin (4%:~R : Q))] else false].
Proof.
have [eB eC] := d2_one.
split; [by [] | split; [exact: qbal_ok | split; [exact: qcd | split; [by apply: min_chkP; vm_compute | split]]]].
- by [].
- by right; split; [by [] | exact: etrans (congr1 mxrank eB) (mxrank1 _ _) | exact: etrans (congr1 mxrank eC) (mxrank1 _ _)].
- move=> i j; split; first by apply: min_chkP; apply: d2_min.
    left; split; last by apply: (leq_ltn_trans (rank_leq_row _)).
    move/matrixP/(_ j 0); rewrite !mxE; case: j => -[|[|//]] hj /eqP; by apply/negP; vm_compute.
  by apply: eig_line; apply: d2_eig.
by vm_compute.
Qed.

(* no pole at 0: 3 + 1/4 *)
Definition d1 : state Q := Eval vm_compute in St (zq [:: [:: -4]]) (zq [:: [:: 1]]) (zq [:: [:: 1]]) (zq [:: [:: 3]]) false None.
Example C76_regular_ex : wfS d1 /\ bal_ok qbal (snn d1) (sa d1) /\
  min_exact qsvd teps (@gdist Q) qbal qtol (sa d1) (sb d1) (sc d1) /\
  [/\ min_good (snn d1) (smn d1) (spn d1) (sa d1) (sb d1) (sc d1),
    forall i j, channel_good qsvd teps (@gdist Q) qbal qtol (G := d1) i j, (lowfreq d1)%:M - Amx d1 \in unitmx &
  if state_dcgain qsvd teps (@gdist Q) qbal qtol qbig d1 is Ok V then eqF (dc_ent V 0 0) (Fin (13%:~R / 4%:~R : Q)) else false].
Proof.
have one (M : arr Q) : aeq M (zq [:: [:: 1]]) -> wfa M -> amx 1 1 M = 1%:M.
  move=> e w; have -> : M = zq [:: [:: 1]] by apply/aeqP => //; vm_compute.
  by apply/matrixP => -[[|//] hi] [[|//] hj]; rewrite !mxE; apply/eqP; vm_compute.
have mg b c : amx 1 1 b = 1%:M -> amx 1 1 c = 1%:M -> min_good 1 1 1 (sa d1) b c.
  by move=> eb ec; right; rewrite eb ec mxrank1.
split; [by [] | split; [exact: qbal_ok | split; [by apply: min_chkP; vm_compute | split]]].
- by apply: mg; apply: one; vm_compute.
- move=> [[|//] hi] [[|//] hj]; split; [by apply: min_chkP; vm_compute | by apply: mg; apply: one; vm_compute |].
  apply: (@eig_line _ _ _ _ _ _ (-4%:~R)); apply/matrixP => a b; rewrite !mxE !big_ord1 !mxE.
  by case: a => -[|//] ha; apply/eqP; vm_compute.
- by rewrite unitmxE unitfE [(_ - _)]mx11_scalar det_scalar1 !mxE; vm_compute.
by vm_compute.
Qed.

(* -2/s: the Transfer model gives -inf, the State model of the same system gives +inf *)
Definition ssvd (M : arr Q) : arr Q * seq Q * arr Q :=
  if get M 0 0 < 0 then (zq [:: [:: -1]], [:: - get M 0 0], aeye 1) else qsvd M.
Definition d3 : state Q := Eval vm_compute in St (zq [:: [:: 0]]) (zq [:: [:: 1]]) (zq [:: [:: -2]]) (zq [:: [:: 0]]) false None.
Theorem C76_sign_refuted : exists npsvd (spac : Q) cdist balance tol big (G : state Q) (T : tf Q),
  [/\ wfS G, bal_ok balance (snn G) (sa G), cdist_ok cdist tol & min_exact npsvd spac cdist balance tol (sa G) (sb G) (sc G)] /\
  [/\ min_good (snn G) (smn G) (spn G) (sa G) (sb G) (sc G),
    forall s i j, s != 0 -> (Dmx G + Cmx G *m invmx (s%:M - Amx G) *m Bmx G) i j = -2%:~R / s,
    T = Tf [:: [:: [:: -2%:~R]]] [:: [:: [:: 1; 0]]] false None,
    state_dcgain npsvd spac cdist balance tol big G = Ok (DcInf Q) & tf_dcgain tol T = Ok [:: [:: Inf Q false]]].
Proof.
exists ssvd, teps, (@gdist Q), qbal, qtol, qbig, d3, (Tf [:: [:: [:: -2%:~R]]] [:: [:: [:: 1; 0]]] false None).
split; first by split; [by [] | exact: qbal_ok | exact: qcd | apply: min_chkP; vm_compute].
have eA : Amx d3 = 0 by apply/matrixP => -[[|//] hi] [[|//] hj]; rewrite !mxE; apply/eqP; vm_compute.
have eB : Bmx d3 = 1%:M by apply/matrixP => -[[|//] hi] [[|//] hj]; rewrite !mxE; apply/eqP; vm_compute.
have eC : Cmx d3 = (-2%:~R)%:M by apply/matrixP => -[[|//] hi] [[|//] hj]; rewrite !mxE; apply/eqP; vm_compute.
have eD : Dmx d3 = 0 by apply/matrixP => -[[|//] hi] [[|//] hj]; rewrite !mxE; apply/eqP; vm_compute.
split.
- right; split; [by [] | exact: etrans (congr1 mxrank eB) (mxrank1 _ _) |].
  by apply: (etrans (congr1 mxrank eC)); rewrite -scalemx1 mxrank_scale_nz ?mxrank1.
- move=> s i j s0; rewrite eA eB eC eD subr0 add0r.
  have -> : (-2%:~R)%:M *m invmx (s%:M : 'M[Q]_1) *m (1%:M : 'M_1) = (-2%:~R / s)%:M.
    by rewrite mulmx1 invmx_scalar mul_scalar_mx scale_scalar_mx.
  by move: i j => [[|//] hi] [[|//] hj]; rewrite mxE.
- by [].
- have : (if state_dcgain ssvd teps (@gdist Q) qbal qtol qbig d3 is Ok (DcInf) then true else false) by vm_compute.
  by case: state_dcgain => // -[].
have : (if tf_dcgain qtol (Tf [:: [:: [:: -2%:~R]]] [:: [:: [:: 1; 0]]] false None) is Ok [:: [:: x]] then eqF x (Inf Q false) else false) by vm_compute.
by case: tf_dcgain => // -[|[|x []] []] // /eqFP->.
Qed.
Print Assumptions C76_sign_refuted.

(* the hypotheses of C76_zero_input_refuted and C76_full_output_refuted are met by g4 and g5 of C62 *)
Example C76_refuted_ex :
  match state_dcgain qsvd teps (@gdist Q) qbal qtol qbig g4, state_dcgain qsvd teps (@gdist Q) qbal qtol qbig g5 with
  | Err IndexError, Err ValueError => true | _, _ => false end.
Proof. by vm_compute. Qed.
