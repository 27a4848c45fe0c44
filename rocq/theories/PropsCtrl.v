(* Properties C49-C52: ackermann and lqr.  SpecCtrl.v has the vocabulary of linear-quadratic regulation. *)
From mathcomp Require Import all_ssreflect all_algebra.
From Coq Require Import String.
From Verif Require Import Base BaseTheory Spec ModelState Denote StateTheory StateProps ModelAux AuxTheory ModelSim SpecSim SimTheory ModelKalman KalmanTheory PropsKalman ModelCtrl SpecCtrl CtrlTheory.

Set Implicit Arguments.
Unset Strict Implicit.
Unset Printing Implicit Defensive.

Import Order.TTheory GRing.Theory Num.Theory.
Local Open Scope ring_scope.

(* the (A, B) of a tuple or of a State model *)
Definition pair_of (R : realFieldType) (g : sarg R) (A B : arr R) : Prop :=
  g = Tup [:: A; B] \/ exists G, [/\ g = Sys G, wfS G, sgain G = false & A = sa G /\ B = sb G].

Lemma pair_ab (R : realFieldType) (g : sarg R) (A B : arr R) n m : pair_of g A B -> shp A = (n, n) -> shp B = (n, m) -> get_ab g = Ok (A, B).
Proof.
case=> [-> [a1 a2] [b1 b2]|[G [-> _ _ [-> ->]]] //]; by rewrite /= /assert_square a1 a2 eqxx /= b1 eqxx.
Qed.

Lemma ctrb_inv (R : realFieldType) npsvd (spac : R) n m (A B Cc T : arr R) r : shp A = (n, n) -> shp B = (n, m) ->
  controllability_matrix npsvd spac (Tup [:: A; B]) false = Ok (Cc, T, r) ->
  Cc = ctrb A B /\ exists u s v, [/\ npsvd (ctrb A B) = (u, s, v), s != [::] & r = svrank spac (ctrb A B) s].
Proof.
move=> [a1 a2] [b1 b2]; rewrite /controllability_matrix /= /assert_square a1 a2 eqxx /= b1 eqxx /=.
rewrite /haroldsvd; case es: (npsvd _) => [[u s] v]; case: (s =P [::]) => //= /eqP s0 [<- _ <-].
by split=> //; exists u, s, v; split.
Qed.

(* ------------------------------------------------------------------ C49 *)
(* single input, controllable and found controllable, as many real poles as states: A - B K has exactly the given poles *)
Theorem C49_ackermann_partial (R : realFieldType) npsvd (spac : R) n (g : sarg R) (A B Cc T : arr R) (loc : seq R) :
  pair_of g A B -> wfa A -> wfa B -> shp A = (n, n) -> shp B = (n, 1%N) -> (0 < n)%N ->
  controllability_matrix npsvd spac (Tup [:: A; B]) false = Ok (Cc, T, n) -> amx n n Cc \in unitmx -> size loc = n ->
  exists K, [/\ ackermann npsvd spac g [seq PReal z | z <- loc] = Ok K, wfa K, shp K = (1%N, n) &
    char_poly (amx n n A - amx n 1 B *m amx 1 n K) = \prod_(z <- loc) ('X - z%:P)].
Proof.
move=> hg wA wB sA sB n0 e; have [-> [u [s [v [es s0 er]]]]] := ctrb_inv sA sB e.
rewrite !amxE => uC sl; have hp : ack_pair npsvd spac n A B.
  by split=> // u' s' v'; rewrite es => -[_ <- _]; split.
have [K [h1 h2 h3 h4]] := ackermannP (pair_ab hg sA sB) hp uC sl.
by exists K; split; rewrite // amxE.
Qed.
Print Assumptions C49_ackermann_partial.

(* complex poles, for which the function is documented as well, are never accepted *)
Theorem C49_complex_poles_refuted (R : realFieldType) npsvd (spac : R) n (g : sarg R) (A B : arr R) loc x y :
  pair_of g A B -> shp A = (n, n) -> shp B = (n, 1%N) -> List.In (PComplex x y) loc ->
  ackermann npsvd spac g loc = Err TypeError.
Proof. by move=> hg sA sB; apply: ack_complex (pair_ab hg sA sB) _; case: sB. Qed.
Print Assumptions C49_complex_poles_refuted.

(* pairs that are not single-input, or found uncontrollable, are refused *)
Theorem C49_multi_input (R : realFieldType) npsvd (spac : R) n m (g : sarg R) (A B : arr R) loc :
  pair_of g A B -> shp A = (n, n) -> shp B = (n, m) -> m != 1%N -> ackermann npsvd spac g loc = Err ValueError.
Proof. by move=> hg sA sB h; apply: (ack_multi _ _ _ (pair_ab hg sA sB)); case: sB => _ ->. Qed.
Print Assumptions C49_multi_input.

Theorem C49_uncontrollable (R : realFieldType) npsvd (spac : R) n (g : sarg R) (A B Cc T : arr R) (loc : seq R) r :
  pair_of g A B -> shp A = (n, n) -> shp B = (n, 1%N) -> (0 < n)%N ->
  controllability_matrix npsvd spac (Tup [:: A; B]) false = Ok (Cc, T, r) -> (r < n)%N ->
  ackermann npsvd spac g [seq PReal z | z <- loc] = Err ValueError.
Proof.
move=> hg sA sB n0 e hr; have [_ [u [s [v [es s0 er]]]]] := ctrb_inv sA sB e.
by apply: (ack_uncontrollable loc (pair_ab hg sA sB) sA sB n0 es s0); rewrite -er.
Qed.
Print Assumptions C49_uncontrollable.

Definition dA : arr Q := Eval vm_compute in of_rows [:: [:: 0; 1]; [:: 0; 0 : Q]].
Definition dB : arr Q := Eval vm_compute in of_rows [:: [:: 0]; [:: 1 : Q]].
Definition swap : arr Q := Eval vm_compute in of_rows [:: [:: 0; 1]; [:: 1; 0 : Q]].
Definition dsvd (M : arr Q) : arr Q * seq Q * arr Q := (swap, [:: 1; 1], aeye 2).
Example C49_ex : [&& wfa dA, wfa dB, shp dA == (2, 2)%N, shp dB == (2, 1)%N &
  if controllability_matrix dsvd eps (Tup [:: dA; dB]) false is Ok (Cc, T, r) then (r == 2%N) && (adet Cc != 0) else false] &&
  (if ackermann dsvd eps (Tup [:: dA; dB]) [:: PReal (- 1%:Q); PReal (- 2%:Q)] is Ok K then aeq K (of_rows [:: [:: 2%:~R; 3%:~R]]) else false).
Proof. by vm_compute. Qed.
Example C49_svd_ex : svd_exact dsvd eps swap.
Proof.
split; last by move=> sv x; rewrite /sv /= !inE orbb => /eqP ->; right; vm_compute.
by split; [split | ckeq | ckeq | split | ckeq].
Qed.

(* ------------------------------------------------------------------ C50 *)
(* too few poles raise an exception (but not the documented kind) ... *)
Theorem C50_too_few (R : realFieldType) npsvd (spac : R) n (g : sarg R) (A B Cc T : arr R) (loc : seq R) :
  pair_of g A B -> wfa A -> wfa B -> shp A = (n, n) -> shp B = (n, 1%N) -> (0 < n)%N ->
  controllability_matrix npsvd spac (Tup [:: A; B]) false = Ok (Cc, T, n) -> (size loc < n)%N ->
  ackermann npsvd spac g [seq PReal z | z <- loc] = Err (if loc is [::] then TypeError else IndexError).
Proof.
move=> hg wA wB sA sB n0 e; have [_ [u [s [v [es s0 er]]]]] := ctrb_inv sA sB e.
have hp : ack_pair npsvd spac n A B by split=> // u' s' v'; rewrite es => -[_ <- _]; split.
case: loc => [|z loc] hl; last by apply: ackermann_short (pair_ab hg sA sB) hp _ hl.
have [a1 a2] := sA; have [b1 b2] := sB; have [c1 _] := ctrb_shape a1 b1 b2 n0.
rewrite /ackermann (pair_ab hg sA sB) /= b2 eqxx /= e /=.
by have [-> _] := ctrb_inv sA sB e; rewrite c1 ltnn.
Qed.
Print Assumptions C50_too_few.

(* ... too many poles are accepted, whatever the controllable pair: the higher coefficients are dropped *)
Theorem C50_too_many_refuted (R : realFieldType) npsvd (spac : R) n (g : sarg R) (A B Cc T : arr R) (loc : seq R) :
  pair_of g A B -> wfa A -> wfa B -> shp A = (n, n) -> shp B = (n, 1%N) -> (0 < n)%N ->
  controllability_matrix npsvd spac (Tup [:: A; B]) false = Ok (Cc, T, n) -> amx n n Cc \in unitmx -> (n < size loc)%N ->
  is_ok (ackermann npsvd spac g [seq PReal z | z <- loc]).
Proof.
move=> hg wA wB sA sB n0 e; have [-> [u [s [v [es s0 er]]]]] := ctrb_inv sA sB e.
rewrite !amxE => uC sl; have hp : ack_pair npsvd spac n A B.
  by split=> // u' s' v'; rewrite es => -[_ <- _]; split.
have l0 : loc != [::] by case: (loc) sl.
rewrite (ack_pre (pair_ab hg sA sB) hp l0); have [a1 a2] := sA; have [b1 b2] := sB.
have [|||||M [-> m1 m2 _]] := @ack_loopP R n A (rev (np_poly loc)) (azeros n n) 0 n.+1 => //.
  by rewrite size_rev size_np_poly add0n ltnS ltnW.
have [c1 c2] := ctrb_shape a1 b1 b2 n0; rewrite muln1 in c2.
rewrite /= (@np_solveP _ n n) // -if_neg -(unit_adet [rmorphism of @idfun R] c1) uC /= c1 n0 //.
Qed.
Print Assumptions C50_too_many_refuted.

(* ------------------------------------------------------------------ C51 *)
(* the weighting of the cost [x; u]' W [x; u] *)
Theorem C51_state_weighting (R : realFieldType) ric (E : Type) (eigvals : arr R -> E) (G : state R) Q Rw Sw X :
  ric_ok ric -> wfS G -> sgain G = false ->
  let n := snn G in let m := smn G in let disc := isSome (sdt G) in let Rw' := odflt (aeye m) Rw in
  ric disc (sa G) (sb G) Q Rw' Sw = Ok X ->
  let S := if Sw is Some s then amx n m s else 0 in
  let W := block_mx (amx n n Q) S S^T (amx m m Rw') in
  exists K, [/\ lqr ric eigvals G Q Rw Sw "state" = Ok (K, X, eigvals (asub (sa G) (amul (sb G) K))),
     wfa K, shp K = (m, n) & (amx n n X)^T = amx n n X /\ lq_optimal disc (Amx G) (Bmx G) W (amx m n K) (amx n n X)].
Proof.
move=> ok w ng n m disc Rw' hX S W.
have [K [h1 h2 h3 h4]] := @lqr_stateP R ric E eigvals G Q Rw Sw "state" X ok w ng isT erefl hX.
have [_ [a2 b1 _ _ b2]] := wfS_dyn w ng.
have sA : shp (sa G) = (n, n) by rewrite /shp a2. have sB : shp (sb G) = (n, m) by rewrite /shp b1 b2.
have [_ _ _ _ [sX _ _ _ _]] := ok _ _ _ _ _ _ _ _ _ sA sB hX.
by exists K; split.
Qed.
Print Assumptions C51_state_weighting.

(* output weighting is state weighting with the cost [y; u]' W [y; u], where [y; u] = [C D; 0 I] [x; u] *)
Theorem C51_output_weighting (R : realFieldType) ric (E : Type) (eigvals : arr R -> E) (G : state R) Q Rw Sw :
  wfS G -> sgain G = false ->
  let n := snn G in let m := smn G in let p := spn G in let disc := isSome (sdt G) in let Rw' := odflt (aeye m) Rw in
  shp Q = (p, p) -> shp Rw' = (m, m) -> (if Sw is Some s then shp s = (p, m) else True) ->
  (amx p p Q)^T = amx p p Q -> (amx m m Rw')^T = amx m m Rw' ->
  let S := if Sw is Some s then amx p m s else 0 in
  let W := block_mx (amx p p Q) S S^T (amx m m Rw') in
  let M := block_mx (Cmx G) (Dmx G) 0 1%:M in
  exists q r s, [/\ [/\ wfa q, wfa r & wfa s], [/\ shp q = (n, n), shp r = (m, m) & shp s = (n, m)],
     block_mx (amx n n q) (amx n m s) (amx n m s)^T (amx m m r) = M^T *m W *m M &
     lqr ric eigvals G Q Rw Sw "output" = lqr ric eigvals G q (Some r) (Some s) "state"].
Proof.
move=> w ng n m p disc Rw' sQ sR sS tQ tR S W M.
have [q [r [s [h1 h2 h3 h4]]]] := @lqr_output R ric E eigvals G Q Rw Sw w ng sQ sR sS tQ tR.
by exists q, r, s; split.
Qed.
Print Assumptions C51_output_weighting.

(* what lq_optimal means: the closed loop identity of the property ... *)
Theorem C51_identity (R : realFieldType) n m disc (A : 'M[R]_n) (B : 'M[R]_(n, m)) W K X : X^T = X -> W^T = W ->
  lq_optimal disc A B W K X ->
  let Ac := A - B *m K in let M := col_mx 1%:M (- K) in
  (if disc then Ac^T *m X *m Ac - X else Ac^T *m X + X *m Ac) + M^T *m W *m M = 0.
Proof. exact: lq_identity. Qed.
Print Assumptions C51_identity.

(* ... and, for discrete models, the cost over any horizon and any input sequence *)
Theorem C51_horizon (R : realFieldType) n m (A : 'M[R]_n) (B : 'M[R]_(n, m)) W K X x0 u N : lq_optimal true A B W K X ->
  \sum_(k < N) quad (col_mx (traj A B x0 u k) (u k)) W + quad (traj A B x0 u N) X =
  quad x0 X + \sum_(k < N) quad (u k + K *m traj A B x0 u k) (rest_weight true B X (drsubmx W)).
Proof. exact: lq_horizon. Qed.
Print Assumptions C51_horizon.

Theorem C51_static_gain (R : realFieldType) ric (E : Type) (eigvals : arr R -> E) (G : state R) Q Rw Sw w : sgain G ->
  lqr ric eigvals G Q Rw Sw w = Err ValueError.
Proof. by rewrite /lqr => ->. Qed.
Print Assumptions C51_static_gain.

(* wrong shapes of the output weights are refused *)
Theorem C51_output_shapes (R : realFieldType) ric (E : Type) (eigvals : arr R -> E) (G : state R) Q Rw Sw : sgain G = false ->
  shp Q != (spn G, spn G) \/ shp (odflt (aeye (smn G)) Rw) != (smn G, smn G) \/ (if Sw is Some s then shp s != (spn G, smn G) else False) ->
  lqr ric eigvals G Q Rw Sw "output" = Err ValueError.
Proof.
move=> ng h; rewrite /lqr ng; set sb := substring_of _ _; have -> : sb = true by [].
have -> : String.eqb "output" "output" = true by []; cbv zeta; rewrite [~~ false]/=.
have sq (X : arr R) k : (nr X == k) && (nr X == nc X) = (shp X == (k, k)).
  rewrite /shp xpair_eqE; case: eqP => //= ->; exact: eq_sym.
rewrite !sq; case: eqP => // e1; case: eqP => // e2; case: Sw h => [s|] [/eqP //|[/eqP //|]] //.
by move=> /negbTE ->.
Qed.
Print Assumptions C51_output_shapes.

(* double integrator with Q = diag(1, 2): X = [2 1; 1 2], K = [1 2] *)
Definition dC : arr Q := Eval vm_compute in aeye 2.
Definition dD : arr Q := Eval vm_compute in azeros 2 1.
Definition dG : state Q := St dA dB dC dD false None.
Definition dQ : arr Q := Eval vm_compute in of_rows [:: [:: 1; 0]; [:: 0; 2%:~R : Q]].
Definition dX : arr Q := Eval vm_compute in of_rows [:: [:: 2%:~R; 1]; [:: 1; 2%:~R : Q]].
Definition one : arr Q := Eval vm_compute in aeye 1.
(* a solver that only knows this problem *)
Definition dric (disc : bool) (a b q r : arr Q) (s : option (arr Q)) : res (arr Q) :=
  if [&& ~~ disc, aeq a dA, aeq b dB, aeq q dQ, aeq r one & (if s is Some s then aeq s (azeros 2 1) else true)] then Ok dX else Err LinAlgError.
Example C51_ex : wfS dG /\
  (if lqr dric id dG dQ None None "state" is Ok (K, X, e) then aeq K (of_rows [:: [:: 1; 2%:~R : Q]]) && aeq X dX else false) /\
  (if lqr dric id dG dQ (Some one) None "output" is Ok (K, X, e) then aeq K (of_rows [:: [:: 1; 2%:~R : Q]]) && aeq X dX else false).
Proof. by split; [vm_compute | split; vm_compute]. Qed.

Lemma dric_ok : ric_ok dric.
Proof.
move=> disc a b q r s X n m sa sb; rewrite /dric; case: ifP => // /and5P[nd ea eb eq /andP[er es]] [<-].
have ae (M N : arr Q) : aeq M N -> shp M = shp N /\ forall i j, (i < nr M)%N -> (j < nc M)%N -> get M i j = get N i j.
  case/andP=> /andP[/eqP e1 /eqP e2] /allP h; split; first by rewrite /shp e1 e2.
  move=> i j hi hj; have /h/allP h' : i \in iota 0 (nr M) by rewrite mem_iota.
  by apply/eqP; apply: h'; rewrite mem_iota.
have [sa' ga] := ae _ _ ea; have [sb' gb] := ae _ _ eb; have [sq gq] := ae _ _ eq; have [sr gr] := ae _ _ er.
have [en em] : n = 2%N /\ m = 1%N by move: sa sb; rewrite sa' sb' => -[->] _ [_ ->].
rewrite en em in sa sb *; rewrite {n m en em}; case: (disc) nd => // _.
have am (M N : arr Q) k l : shp M = (k, l) -> shp M = shp N -> (forall i j, (i < nr M)%N -> (j < nc M)%N -> get M i j = get N i j) -> amx k l M = amx k l N.
  by move=> [h1 h2] _ h; apply/matrixP=> i j; rewrite !mxE h ?h1 ?h2.
have -> : amx 2 2 a = amx 2 2 dA by apply: am.
have -> : amx 2 1 b = amx 2 1 dB by apply: am.
have -> : amx 2 2 q = amx 2 2 dQ by apply: am => //; rewrite sq.
have -> : amx 1 1 r = amx 1 1 one by apply: am => //; rewrite sr.
have -> : (if s is Some s then amx 2 1 s else 0) = 0 :> 'M[Q]_(2, 1).
  case: (s) es => // s' es; have [ss gs] := ae _ _ es; apply/matrixP=> i j; rewrite !mxE gs ?ss ?get_mk //.
  - by case: ss => ->. - by case: ss => _ ->.
split=> //; first by case: (s) es => // s' /ae[].
have sy (M : arr Q) k : shp M = (k, k) -> aT M = M -> (amx k k M)^T = amx k k M.
  by move=> [h1 h2] e; rewrite !amxE -[RHS](congr1 (mxof [rmorphism of @idfun Q] k k) e) (@mxof_T _ _ _ k k).
have e1 : amx 1 1 one = 1%:M by rewrite amxE -[RHS](@mxof_eye _ _ [rmorphism of @idfun Q]); congr mxof; ckeq.
split; try (apply: sy => //; ckeq); rewrite /rest_weight e1 ?unitmx1 //.
rewrite invmx1 mulmx1 trmx0 !addr0 !amxE.
have key : aadd (asub (aadd (amul (aT dA) dX) (amul dX dA)) (amul (amul dX dB) (amul (aT dB) dX))) dQ = azeros 2 2 by ckeq.
rewrite -[RHS](@mxof_zeros _ _ [rmorphism of @idfun Q]) -key.
rewrite (@mxof_add _ _ _ 2 2) // (@mxof_sub _ _ _ 2 2) // (@mxof_add _ _ _ 2 2) //.
rewrite [mxof _ _ _ (amul (aT dA) _)](@mxof_mul _ _ _ 2 2 2) // [mxof _ _ _ (amul dX dA)](@mxof_mul _ _ _ 2 2 2) //.
rewrite [mxof _ _ _ (amul (amul _ _) _)](@mxof_mul _ _ _ 2 1 2) // [mxof _ _ _ (amul dX dB)](@mxof_mul _ _ _ 2 2 1) //.
by rewrite [mxof _ _ _ (amul (aT dB) _)](@mxof_mul _ _ _ 1 2 2) // (@mxof_T _ _ _ 2 2) // (@mxof_T _ _ _ 2 1).
Qed.

(* ------------------------------------------------------------------ C52 *)
Theorem C52_rejected (R : realFieldType) ric (E : Type) (eigvals : arr R -> E) (G : state R) Q Rw Sw w :
  ~~ substring_of (lower w) "state, output" -> lqr ric eigvals G Q Rw Sw w = Err ValueError.
Proof. by rewrite /lqr; case: sgain => //= /negbTE ->. Qed.
Print Assumptions C52_rejected.

(* every substring of "state, output" (in any case) other than "output" itself is accepted as "state" *)
Lemma lqr_as_state (R : realFieldType) ric (E : Type) (eigvals : arr R -> E) (G : state R) Q Rw Sw w :
  substring_of (lower w) "state, output" -> String.eqb w "output" = false ->
  lqr ric eigvals G Q Rw Sw w = lqr ric eigvals G Q Rw Sw "state".
Proof. by move=> h1 h2; rewrite /lqr h1 h2. Qed.

Theorem C52_any_case_state (R : realFieldType) ric (E : Type) (eigvals : arr R -> E) (G : state R) Q Rw Sw w :
  lower w = "state"%string -> lqr ric eigvals G Q Rw Sw w = lqr ric eigvals G Q Rw Sw "state".
Proof.
move=> h; apply: lqr_as_state; rewrite ?h //; apply/negbTE/negP => /String.eqb_eq e.
by move: h; rewrite e.
Qed.
Print Assumptions C52_any_case_state.

(* strings that are no keyword are accepted *)
Theorem C52_accepts_fragments_refuted (R : realFieldType) ric (E : Type) (eigvals : arr R -> E) (G : state R) Q Rw Sw w :
  List.In w [:: ""; "t"; ", "; "e, out"; "put"]%string -> lqr ric eigvals G Q Rw Sw w = lqr ric eigvals G Q Rw Sw "state".
Proof. by move=> /= [<-|[<-|[<-|[<-|[<-|//]]]]]; apply: lqr_as_state. Qed.
Print Assumptions C52_accepts_fragments_refuted.

(* 'OUTPUT' and 'Output' are accepted but mean state weighting *)
Theorem C52_upper_case_output_refuted (R : realFieldType) ric (E : Type) (eigvals : arr R -> E) (G : state R) Q Rw Sw w :
  List.In w [:: "OUTPUT"; "Output"]%string -> lqr ric eigvals G Q Rw Sw w = lqr ric eigvals G Q Rw Sw "state".
Proof. by move=> /= [<-|[<-|//]]; apply: lqr_as_state. Qed.
Print Assumptions C52_upper_case_output_refuted.

Example C52_ex : ~~ substring_of (lower "inputs") "state, output" /\ lower "StatE" = "state"%string.
Proof. by []. Qed.
