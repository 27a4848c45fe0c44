(* Property C75: is_kalman_controllable and is_kalman_observable answer the user's questions.
   reachable, distinguishable, hidden_mode are in SpecReach.v; svd_exact in PropsKalman.v. *)
From mathcomp Require Import all_ssreflect all_algebra zify.
From Coq Require Import String.
From Verif Require Import Base BaseTheory Spec ModelState Denote StateTheory StateProps ModelAux AuxTheory ModelSim SpecSim SimTheory ModelKalman KalmanTheory PropsKalman SpecReach ReachTheory.

Set Implicit Arguments.
Unset Strict Implicit.
Unset Printing Implicit Defensive.

Import Order.TTheory GRing.Theory Num.Theory.
Local Open Scope ring_scope.

(* ------------------------------------------------------------------ C75 *)
Lemma ctrbE (R : realFieldType) npsvd (spac : R) (A B : arr R) Cc T r : nr A = nc A -> nr B = nr A ->
  controllability_matrix npsvd spac (Tup [:: A; B]) false = Ok (Cc, T, r) -> Cc = ctrb A B.
Proof.
move=> e1 e2; rewrite /controllability_matrix /= /assert_square e1 eqxx /= e2 e1 eqxx /=.
by case: haroldsvd => [[[[t sg] v] r']|//] [<-].
Qed.
Lemma obsvE (R : realFieldType) npsvd (spac : R) (A C : arr R) Co T r : nr A = nc A -> nc C = nr A ->
  observability_matrix npsvd spac (Tup [:: A; C]) false = Ok (Co, T, r) -> Co = obsv A C.
Proof.
move=> e1 e2; rewrite /observability_matrix /= /assert_square e1 eqxx /= e2 e1 eqxx /=.
by case: haroldsvd => [[[[t sg] v] r']|//] [<-].
Qed.
Lemma ctrb_cmx' (R : realFieldType) n m (A B : arr R) : shp A = (n, n) -> shp B = (n, m) -> (0 < n)%N ->
  cmx (amx n n A) (amx n m B) (amx n (n * m) (ctrb A B)).
Proof. by move=> [a1 a2] [b1 b2] n0; rewrite !amxE; apply: ctrb_cmx. Qed.

(* is_kalman_controllable is True exactly if every state can be reached from rest *)
Theorem C75_controllable (R : realFieldType) npsvd (spac : R) n m (A B : arr R) Cc T r : 0 <= spac -> wfa B ->
  shp A = (n, n) -> shp B = (n, m) -> (0 < n)%N -> (0 < m)%N ->
  controllability_matrix npsvd spac (Tup [:: A; B]) false = Ok (Cc, T, r) -> svd_exact npsvd spac Cc ->
  exists b, is_kalman_controllable npsvd spac (Tup [:: A; B]) = Ok b /\ (b <-> reachable (amx n n A) (amx n m B)).
Proof.
move=> sp wB sA sB n0 m0 e ex; have [er ->] := C47_rank sp wB sA sB n0 m0 e ex; exists (r == n); split=> //.
have [[a1 a2] [b1 b2]] := (sA, sB); have eC : Cc = ctrb A B by apply: ctrbE e; rewrite ?a1 ?a2 ?b1.
have h := ctrb_cmx' sA sB n0; rewrite er eC; split=> [/eqP r'|re].
  by move=> x; have [u hu] := cmx_full h r' x; exists n, u.
by apply/eqP; apply: cmx_rank h n0 re.
Qed.
Print Assumptions C75_controllable.

(* and then n steps are enough *)
Theorem C75_steps (R : realFieldType) npsvd (spac : R) n m (A B : arr R) Cc T r : 0 <= spac -> wfa B ->
  shp A = (n, n) -> shp B = (n, m) -> (0 < n)%N -> (0 < m)%N ->
  controllability_matrix npsvd spac (Tup [:: A; B]) false = Ok (Cc, T, r) -> svd_exact npsvd spac Cc ->
  is_kalman_controllable npsvd spac (Tup [:: A; B]) = Ok true ->
  forall x, exists u, from_rest (amx n n A) (amx n m B) u n = x.
Proof.
move=> sp wB sA sB n0 m0 e ex; have [er ->] := C47_rank sp wB sA sB n0 m0 e ex => -[/eqP rn] x.
have [[a1 a2] [b1 b2]] := (sA, sB); have eC : Cc = ctrb A B by apply: ctrbE e; rewrite ?a1 ?a2 ?b1.
by apply: cmx_full (ctrb_cmx' sA sB n0) _ x; rewrite -eC -er.
Qed.
Print Assumptions C75_steps.

(* a controllable pair has no left eigenvector of A orthogonal to B *)
Theorem C75_hidden (R : realFieldType) npsvd (spac : R) n m (A B : arr R) Cc T r : 0 <= spac -> wfa B ->
  shp A = (n, n) -> shp B = (n, m) -> (0 < n)%N -> (0 < m)%N ->
  controllability_matrix npsvd spac (Tup [:: A; B]) false = Ok (Cc, T, r) -> svd_exact npsvd spac Cc ->
  forall z, hidden_mode (amx n n A) (amx n m B) z -> is_kalman_controllable npsvd spac (Tup [:: A; B]) = Ok false.
Proof.
move=> sp wB sA sB n0 m0 e ex z hm; have [[] [-> h]] := C75_controllable sp wB sA sB n0 m0 e ex => //.
by case: (reach_hidden (h.1 isT) hm).
Qed.
Print Assumptions C75_hidden.

(* is_kalman_observable is True exactly if different initial states give different zero-input outputs *)
Theorem C75_observable (R : realFieldType) npsvd (spac : R) n p (A C : arr R) Co T r : 0 <= spac -> wfa A -> wfa C ->
  shp A = (n, n) -> shp C = (p, n) -> (0 < n)%N -> (0 < p)%N ->
  observability_matrix npsvd spac (Tup [:: A; C]) false = Ok (Co, T, r) -> svd_exact npsvd spac Co ->
  exists b, is_kalman_observable npsvd spac (Tup [:: A; C]) = Ok b /\ (b <-> distinguishable (amx n n A) (amx p n C)).
Proof.
move=> sp wA wC sA sC n0 p0 e ex; have [er ->] := C47_rank_obs sp wA wC sA sC n0 p0 e ex; exists (r == n); split=> //.
have [[a1 a2] [b1 b2]] := (sA, sC); have eC : Co = obsv A C by apply: obsvE e; rewrite ?a1 ?a2 ?b2.
have sA' : shp (aT A) = (n, n) by rewrite -[shp _]/(nc A, nr A) a1 a2.
have sC' : shp (aT C) = (n, p) by rewrite -[shp _]/(nc C, nr C) b1 b2.
have h := ctrb_cmx' sA' sC' n0.
have tA : amx n n (aT A) = (amx n n A)^T by rewrite !amxE; apply: mxof_T.
have tC : amx n p (aT C) = (amx p n C)^T by rewrite !amxE; apply: mxof_T.
rewrite tA tC in h; have [d1 d2] := dual_obs h n0.
have tO : amx (n * p) n Co = (amx n (n * p) (ctrb (aT A) (aT C)))^T.
  by rewrite eC ctrb_dual ?a1 ?a2 ?b2 // !amxE; apply: mxof_T; have [] := ctrb_shape (congr1 fst sA') (congr1 fst sC') (congr1 snd sC') n0.
rewrite er tO mxrank_tr; split=> [/eqP /d1 //|/d2 ->]; exact: eqxx.
Qed.
Print Assumptions C75_observable.

(* for State models *)
Theorem C75_state (R : realFieldType) npsvd (spac : R) (G : state R) n m p : wfS G -> sgain G = false -> 0 <= spac ->
  shp (sa G) = (n, n) -> shp (sd G) = (p, m) -> (0 < n)%N -> (0 < m)%N -> (0 < p)%N ->
  (forall Cc T r, controllability_matrix npsvd spac (Sys G) false = Ok (Cc, T, r) -> svd_exact npsvd spac Cc ->
   exists b, is_kalman_controllable npsvd spac (Sys G) = Ok b /\ (b <-> reachable (amx n n (sa G)) (amx n m (sb G)))) /\
  (forall Co T r, observability_matrix npsvd spac (Sys G) false = Ok (Co, T, r) -> svd_exact npsvd spac Co ->
   exists b, is_kalman_observable npsvd spac (Sys G) = Ok b /\ (b <-> distinguishable (amx n n (sa G)) (amx p n (sc G)))).
Proof.
move=> w ng sp sA sD n0 m0 p0; have [[wA wB wC wD] [e1 e2 e3 e4 e5]] := wfS_dyn w ng.
have [[a1 a2] [d1 d2]] := (sA, sD); rewrite /snn a1 in e1 e2 e3; rewrite /spn d1 in e4; rewrite /smn d2 in e5.
have sB : shp (sb G) = (n, m) by rewrite -[shp _]/(nr (sb G), nc (sb G)) e2 e5.
have sC : shp (sc G) = (p, n) by rewrite -[shp _]/(nr (sc G), nc (sc G)) e3 e4.
have [kc ko] := C47_state_argument npsvd spac false w ng.
have ec : is_kalman_controllable npsvd spac (Sys G) = is_kalman_controllable npsvd spac (Tup [:: sa G; sb G]).
  rewrite /is_kalman_controllable; have -> // : get_ab (Tup [:: sa G; sb G]) = Ok (sa G, sb G).
  by rewrite /= /assert_square a1 a2 eqxx /= e2 eqxx.
have eo : is_kalman_observable npsvd spac (Sys G) = is_kalman_observable npsvd spac (Tup [:: sa G; sc G]).
  rewrite /is_kalman_observable; have -> // : get_ac (Tup [:: sa G; sc G]) = Ok (sa G, sc G).
  by rewrite /= /assert_square a1 a2 eqxx /= e3 eqxx.
split=> X T r; rewrite ?kc ?ko ?ec ?eo => e ex; first exact: (C75_controllable sp wB sA sB n0 m0 e ex).
exact: (C75_observable sp wA wC sA sC n0 p0 e ex).
Qed.
Print Assumptions C75_state.

(* ---- examples: the uncontrollable pair of C47, and a controllable pair *)
Local Notation Q := rat_realFieldType.
Example C75_ex : exists b, is_kalman_controllable usvd eps (Tup [:: uA; uB]) = Ok b /\
  (b <-> reachable (amx 2 2 uA) (amx 2 1 uB)).
Proof.
have [T [r e]] : exists T r, controllability_matrix usvd eps (Tup [:: uA; uB]) false = Ok (uCc, T, r).
  have : (if controllability_matrix usvd eps (Tup [:: uA; uB]) false is Ok (Cc, _, r) then wfa Cc && aeq Cc uCc else false) by vm_compute.
  case: controllability_matrix => [[[Cc T] r]|x]; last by [].
  by case/andP=> wC /(aeqP wC) e; exists T, r; rewrite e; [reflexivity | vm_compute].
have s1 : shp uA = (2, 2)%N by []. have s2 : shp uB = (2, 1)%N by [].
have w : wfa uB by []. have p0 : 0 <= eps by vm_compute.
exact: (C75_controllable p0 w s1 s2 isT isT e usvd_exact).
Qed.

(* A = [0 3; 2 5], B = [1; 0], C = [1 0]: the controllability matrix is diag(1, 2), the observability matrix diag(1, 3) *)
Definition oA : arr Q := Eval vm_compute in of_rows [:: [:: 0; 3%:~R]; [:: 2%:~R; 5%:~R : Q]].
Definition oB : arr Q := Eval vm_compute in of_rows [:: [:: 1]; [:: 0 : Q]].
Definition oC : arr Q := Eval vm_compute in of_rows [:: [:: 1; 0 : Q]].
Definition oG : state Q := St oA oB oC (azeros 1 1) false None.
Definition swp : arr Q := Eval vm_compute in of_rows [:: [:: 0; 1]; [:: 1; 0 : Q]].
Definition osvd (M : arr Q) : arr Q * seq Q * arr Q := (swp, [:: get M 1 1; 1], swp).
Definition oCc : arr Q := Eval vm_compute in of_rows [:: [:: 1; 0]; [:: 0; 2%:~R : Q]].
Definition oCo : arr Q := Eval vm_compute in of_rows [:: [:: 1; 0]; [:: 0; 3%:~R : Q]].
Lemma osvd_c : svd_exact osvd eps oCc.
Proof.
split; last by move=> sv x; rewrite /sv /= !inE => /orP[/eqP ->|/eqP ->]; right; vm_compute.
by split; [split | ckeq | ckeq | split | ckeq].
Qed.
Lemma osvd_o : svd_exact osvd eps oCo.
Proof.
split; last by move=> sv x; rewrite /sv /= !inE => /orP[/eqP ->|/eqP ->]; right; vm_compute.
by split; [split | ckeq | ckeq | split | ckeq].
Qed.
Example C75_state_ex : [/\ wfS oG, is_kalman_controllable osvd eps (Sys oG) = Ok true,
  is_kalman_observable osvd eps (Sys oG) = Ok true, reachable (amx 2 2 oA) (amx 2 1 oB) & distinguishable (amx 2 2 oA) (amx 1 2 oC)].
Proof.
have k1 : is_kalman_controllable osvd eps (Sys oG) = Ok true by vm_compute.
have k2 : is_kalman_observable osvd eps (Sys oG) = Ok true by vm_compute.
have w : wfS oG by []. have p0 : 0 <= eps by vm_compute.
have s1 : shp (sa oG) = (2, 2)%N by []. have s2 : shp (sd oG) = (1, 1)%N by [].
have [h1 h2] := @C75_state Q osvd eps oG 2 1 1 w erefl p0 s1 s2 isT isT isT.
have [T1 [r1 e1]] : exists T r, controllability_matrix osvd eps (Sys oG) false = Ok (oCc, T, r).
  have : (if controllability_matrix osvd eps (Sys oG) false is Ok (Cc, _, r) then wfa Cc && aeq Cc oCc else false) by vm_compute.
  case: controllability_matrix => [[[Cc T] r]|x]; last by [].
  by case/andP=> wC /(aeqP wC) e; exists T, r; rewrite e; [reflexivity | vm_compute].
have [T2 [r2 e2]] : exists T r, observability_matrix osvd eps (Sys oG) false = Ok (oCo, T, r).
  have : (if observability_matrix osvd eps (Sys oG) false is Ok (Cc, _, r) then wfa Cc && aeq Cc oCo else false) by vm_compute.
  case: observability_matrix => [[[Cc T] r]|x]; last by [].
  by case/andP=> wC /(aeqP wC) e; exists T, r; rewrite e; [reflexivity | vm_compute].
have [b1 [+ q1]] := h1 _ _ _ e1 osvd_c; rewrite k1 => -[eb1].
have [b2 [+ q2]] := h2 _ _ _ e2 osvd_o; rewrite k2 => -[eb2].
split; [exact: w | exact: k1 | exact: k2 | apply/q1; rewrite -eb1; exact: isT | apply/q2; rewrite -eb2; exact: isT].
Qed.
