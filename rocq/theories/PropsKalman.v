(* Properties C47, C48 (kalman_decomposition) and C69: controllability, observability, Kalman decomposition.
   mpow A k is A^k and amx the matrix of an array (SpecSim.v); npsvd stands for numpy.linalg.svd.
   svd_shape M r: the result r of the svd of M has square invertible factors and some singular values.
   npsvd_ok M r (ModelAux.v): r is a singular value decomposition of M.  *)
From mathcomp Require Import all_ssreflect all_algebra.
From Coq Require Import String.
From Verif Require Import Base BaseTheory Spec ModelState Denote StateTheory StateProps ModelAux AuxTheory ModelSim SpecSim SimTheory ModelKalman KalmanTheory.

Set Implicit Arguments.
Unset Strict Implicit.
Unset Printing Implicit Defensive.

Import Order.TTheory GRing.Theory Num.Theory.
Local Open Scope ring_scope.

(* svd returns something usable for every nonempty matrix *)
Definition svd_total (R : realFieldType) (npsvd : arr R -> arr R * seq R * arr R) : Prop :=
  forall M, (0 < nr M)%N -> (0 < nc M)%N -> svd_shape M (npsvd M).

(* svd is exact on M, and every singular value is either 0 or above numpy's rank tolerance max(s) max(M.shape) eps *)
Definition svd_exact (R : realFieldType) (npsvd : arr R -> arr R * seq R * arr R) (spac : R) (M : arr R) : Prop :=
  npsvd_ok M (npsvd M) /\ let s := (npsvd M).1.2 in
  forall x, x \in s -> x = 0 \/ smax s * (maxn (nr M) (nc M))%:R * spac < x.

(* ------------------------------------------------------------------ C47 *)
Theorem C47_controllability (R : realFieldType) npsvd (spac : R) n m (A B : arr R) : svd_total npsvd ->
  wfa B -> shp A = (n, n) -> shp B = (n, m) -> (0 < n)%N -> (0 < m)%N ->
  exists Cc T r, [/\ controllability_matrix npsvd spac (Tup [:: A; B]) false = Ok (Cc, T, r), wfa Cc, shp Cc = (n, n * m)%N &
    forall k (i : 'I_n) (j : 'I_m), (k < n)%N -> get Cc i (k * m + j) = (mpow (amx n n A) k *m amx n m B) i j].
Proof.
move=> hs wB [a1 a2] [b1 b2] n0 m0; have [c1 c2] := ctrb_shape a1 b1 b2 n0.
have := hs (ctrb A B); rewrite c1 c2 muln_gt0 n0 m0 => /(_ isT isT); case es: (npsvd _) => [[u s] v] [s0 _ _ _ _].
exists (ctrb A B), u; eexists; split; [| exact: ctrb_wf | by rewrite /shp c1 c2 |].
  by apply: ctrb_ok es s0; rewrite ?a1 ?a2.
by move=> k i j hk; rewrite ctrb_N (@ctrbN_get R n m) // a1 -ltnS prednK.
Qed.
Print Assumptions C47_controllability.

Theorem C47_observability (R : realFieldType) npsvd (spac : R) n p (A C : arr R) : svd_total npsvd ->
  wfa A -> wfa C -> shp A = (n, n) -> shp C = (p, n) -> (0 < n)%N -> (0 < p)%N ->
  exists Co T r, [/\ observability_matrix npsvd spac (Tup [:: A; C]) false = Ok (Co, T, r), wfa Co, shp Co = (n * p, n)%N &
    forall k (i : 'I_p) (j : 'I_n), (k < n)%N -> get Co (k * p + i) j = (amx p n C *m mpow (amx n n A) k) i j].
Proof.
move=> hs wA wC [a1 a2] [b1 b2] n0 p0; have [c1 c2] := obsv_shape a1 a2 b2 n0; rewrite b1 in c1.
have := hs (obsv A C); rewrite c1 c2 muln_gt0 n0 p0 => /(_ isT isT); case es: (npsvd _) => [[u s] v] [s0 _ _ _ _].
have sq : nr A = nc A by rewrite a1. have sc : nc C = nr A by rewrite b2.
have ed := ctrb_dual wA wC sq sc.
exists (obsv A C), v; eexists; split; [exact: obsv_ok es s0 | by rewrite ed wfa_mk | by rewrite /shp c1 c2 |].
move=> k i j hk; have ha1 : nr (aT A) = n by []. have hb1 : nr (aT C) = n by [].
have hi : (k * p + i < n * p)%N by apply: idx_lt.
rewrite ed get_mk; last 2 first.
- by have [_ ->] := @ctrb_shape R n p (aT A) (aT C) a2 b2 b1 n0.
- by have [-> _] := @ctrb_shape R n p (aT A) (aT C) a2 b2 b1 n0.
rewrite ctrb_N (@ctrbN_get R n p (aT A) (aT C)) //; last by rewrite /= a2 -ltnS prednK.
have -> : amx n n (aT A) = (amx n n A)^T by rewrite !amxE; apply: mxof_T.
have -> : amx n p (aT C) = (amx p n C)^T by rewrite !amxE; apply: mxof_T.
have -> : mpow (amx n n A)^T k = (mpow (amx n n A) k)^T.
  case: (n) (amx n n A) => [|n'] M; first by rewrite [LHS]flatmx0 [RHS]flatmx0.
  by rewrite !mpowE; elim: k {hk hi} => [|k IH]; rewrite ?trmx1 // exprS IH exprSr [RHS]trmx_mul.
by rewrite -trmx_mul mxE.
Qed.
Print Assumptions C47_observability.

(* State arguments mean their (A, B) and (A, C) *)
Theorem C47_state_argument (R : realFieldType) npsvd (spac : R) (G : state R) compress : wfS G -> sgain G = false ->
  controllability_matrix npsvd spac (Sys G) compress = controllability_matrix npsvd spac (Tup [:: sa G; sb G]) compress /\
  observability_matrix npsvd spac (Sys G) compress = observability_matrix npsvd spac (Tup [:: sa G; sc G]) compress.
Proof.
move=> w ng; have [_ [e1 e2 e3 e4 e5]] := wfS_dyn w ng; rewrite /snn in e1 e2 e3.
by rewrite /controllability_matrix /observability_matrix /= /assert_square e1 eqxx /= e2 e3 eqxx.
Qed.
Print Assumptions C47_state_argument.

Theorem C47_duality (R : realFieldType) npsvd (spac : R) n p (A C : arr R) : svd_total npsvd ->
  wfa A -> wfa C -> shp A = (n, n) -> shp C = (p, n) -> (0 < n)%N -> (0 < p)%N ->
  exists Co T r Cc T' r', [/\ observability_matrix npsvd spac (Tup [:: A; C]) false = Ok (Co, T, r),
    controllability_matrix npsvd spac (Tup [:: aT A; aT C]) false = Ok (Cc, T', r') & Co = aT Cc].
Proof.
move=> hs wA wC [a1 a2] [b1 b2] n0 p0; have [c1 c2] := obsv_shape a1 a2 b2 n0; rewrite b1 in c1.
have := hs (obsv A C); rewrite c1 c2 muln_gt0 n0 p0 => /(_ isT isT); case es: (npsvd _) => [[u s] v] [s0 _ _ _ _].
have sq : nr A = nc A by rewrite a1. have sc : nc C = nr A by rewrite b2.
have [d1 d2] := @ctrb_shape R n p (aT A) (aT C) a2 b2 b1 n0.
have := hs (ctrb (aT A) (aT C)); rewrite d1 d2 muln_gt0 n0 p0 => /(_ isT isT); case es': (npsvd _) => [[u' s'] v'] [s0' _ _ _ _].
do 6 eexists; split; [exact: obsv_ok es s0 | apply: ctrb_ok es' s0' | exact: ctrb_dual]; by rewrite /= ?a1 ?a2.
Qed.
Print Assumptions C47_duality.

Lemma exact_rank (R : realFieldType) npsvd (spac : R) (M : arr R) u s v : 0 <= spac -> wfa M -> svd_exact npsvd spac M -> npsvd M = (u, s, v) ->
  svrank spac M s = \rank (amx (nr M) (nc M) M).
Proof.
move=> sp0 wM [+ +] es; rewrite es /= => ok ex; have [_ _ _ [sz pos so] _] := ok; have [oU oV eM] := svd_mx wM ok.
by rewrite amxE; apply/esym; apply: svd_rank oU oV eM sz so (svtol_ge0 _ _ sp0) ex.
Qed.

(* the returned number is the rank, and the Kalman tests decide full rank *)
Theorem C47_rank (R : realFieldType) npsvd (spac : R) n m (A B : arr R) Cc T r : 0 <= spac -> wfa B ->
  shp A = (n, n) -> shp B = (n, m) -> (0 < n)%N -> (0 < m)%N ->
  controllability_matrix npsvd spac (Tup [:: A; B]) false = Ok (Cc, T, r) -> svd_exact npsvd spac Cc ->
  r = \rank (amx n (n * m) Cc) /\ is_kalman_controllable npsvd spac (Tup [:: A; B]) = Ok (r == n).
Proof.
move=> sp0 wB [a1 a2] [b1 b2] n0 m0 e ex; have sq : nr A = nc A by rewrite a1. have sb : nr B = nr A by rewrite b1.
have [c1 c2] := ctrb_shape a1 b1 b2 n0; have eC : Cc = ctrb A B.
  move: e; rewrite /controllability_matrix /= /assert_square a1 a2 eqxx /= b1 eqxx /=.
  by case: haroldsvd => [[[[t sg] v] r']|//] [<-].
case es: (npsvd (ctrb A B)) => [[u s] v]; rewrite eC in ex e *.
have s0 : s != [::].
  have [] := ex; rewrite es => -[_ _ _ [sz _ _] _] _; rewrite -size_eq0 sz c1 c2 /minn.
  by case: ltnP; rewrite -lt0n ?muln_gt0 ?n0.
have er := exact_rank sp0 (ctrb_wf A wB) ex es; rewrite c1 c2 in er.
have e' := @ctrb_ok R npsvd spac A B u v s [::] sq sb es s0.
move: e; rewrite e' => -[_ <-]; rewrite er; split=> //.
rewrite /is_kalman_controllable /= /assert_square sq eqxx /= sb sq eqxx /=.
by rewrite e' er /= a1 -leqNgt [RHS]/= eqn_leq rank_leq_row.
Qed.
Print Assumptions C47_rank.

Theorem C47_rank_obs (R : realFieldType) npsvd (spac : R) n p (A C : arr R) Co T r : 0 <= spac -> wfa A -> wfa C ->
  shp A = (n, n) -> shp C = (p, n) -> (0 < n)%N -> (0 < p)%N ->
  observability_matrix npsvd spac (Tup [:: A; C]) false = Ok (Co, T, r) -> svd_exact npsvd spac Co ->
  r = \rank (amx (n * p) n Co) /\ is_kalman_observable npsvd spac (Tup [:: A; C]) = Ok (r == n).
Proof.
move=> sp0 wA wC [a1 a2] [b1 b2] n0 p0 e ex; have sq : nr A = nc A by rewrite a1. have sc : nc C = nr A by rewrite b2.
have [c1 c2] := obsv_shape a1 a2 b2 n0; rewrite b1 in c1; have eC : Co = obsv A C.
  move: e; rewrite /observability_matrix /= /assert_square a1 a2 eqxx /= b2 eqxx /=.
  by case: haroldsvd => [[[[t sg] v] r']|//] [<-].
case es: (npsvd (obsv A C)) => [[u s] v]; rewrite eC in ex e *.
have s0 : s != [::].
  have [] := ex; rewrite es => -[_ _ _ [sz _ _] _] _; rewrite -size_eq0 sz c1 c2 /minn.
  by case: ltnP; rewrite -lt0n ?muln_gt0 ?n0.
have wO : wfa (obsv A C) by rewrite (ctrb_dual wA wC sq sc) wfa_mk.
have er := exact_rank sp0 wO ex es; rewrite c1 c2 in er.
have e' := @obsv_ok R npsvd spac A C u v s [::] sq sc es s0.
move: e; rewrite e' => -[_ <-]; rewrite er; split=> //.
rewrite /is_kalman_observable /= /assert_square sq eqxx /= sc sq eqxx /=.
by rewrite e' er /= a1 -leqNgt [RHS]/= eqn_leq rank_leq_col.
Qed.
Print Assumptions C47_rank_obs.

(* T is orthogonal and T' Cc has zero rows from r on *)
Theorem C47_row_compression (R : realFieldType) npsvd (spac : R) n m (A B : arr R) Cc T r : 0 <= spac -> wfa B ->
  shp A = (n, n) -> shp B = (n, m) -> (0 < n)%N -> (0 < m)%N ->
  controllability_matrix npsvd spac (Tup [:: A; B]) false = Ok (Cc, T, r) -> svd_exact npsvd spac Cc ->
  (amx n n T)^T *m amx n n T = 1%:M /\
  forall (i : 'I_n) j, (r <= i)%N -> ((amx n n T)^T *m amx n (n * m) Cc) i j = 0.
Proof.
move=> sp0 wB [a1 a2] [b1 b2] n0 m0 e ex; have sq : nr A = nc A by rewrite a1. have sb : nr B = nr A by rewrite b1.
have [c1 c2] := ctrb_shape a1 b1 b2 n0; have eC : Cc = ctrb A B.
  move: e; rewrite /controllability_matrix /= /assert_square a1 a2 eqxx /= b1 eqxx /=.
  by case: haroldsvd => [[[[t sg] v] r']|//] [<-].
case es: (npsvd (ctrb A B)) => [[u s] v]; rewrite eC in ex e *.
have [ok hx] := ex; rewrite es in ok hx; have [_ _ _ [sz pos so] _] := ok.
have s0 : s != [::].
  by rewrite -size_eq0 sz c1 c2 /minn; case: ltnP; rewrite -lt0n ?muln_gt0 ?n0.
have [oU oV eM] := svd_mx (ctrb_wf A wB) ok; rewrite c1 c2 in oU oV eM.
have e' := @ctrb_ok R npsvd spac A B u v s [::] sq sb es s0.
move: e; rewrite e' => -[<- <-]; rewrite !amxE; split=> // i j hi.
exact: (svd_rows oU eM so hx).
Qed.
Print Assumptions C47_row_compression.

(* inconsistent shapes *)
Theorem C47_mismatch (R : realFieldType) npsvd (spac : R) (A X : arr R) compress :
  (nr A != nc A -> controllability_matrix npsvd spac (Tup [:: A; X]) compress = Err LinAlgError /\
                   observability_matrix npsvd spac (Tup [:: A; X]) compress = Err LinAlgError) /\
  (nr A = nc A -> nr X != nr A -> controllability_matrix npsvd spac (Tup [:: A; X]) compress = Err ValueError) /\
  (nr A = nc A -> nc X != nr A -> observability_matrix npsvd spac (Tup [:: A; X]) compress = Err UnboundLocalError).
Proof.
rewrite /controllability_matrix /observability_matrix /= /assert_square; split=> [/negbTE -> //|]; split=> [-> /negbTE|e /negbTE];
  first by rewrite eqxx /= => ->.
by rewrite e eqxx /= => ->.
Qed.
Print Assumptions C47_mismatch.

(* an uncontrollable pair: B is an eigenvector of A *)
Definition rot : arr Q := Eval vm_compute in of_rows [:: [:: 3%:~R / 5%:~R; 4%:~R / 5%:~R]; [:: - (4%:~R / 5%:~R); 3%:~R / 5%:~R : Q]].
Definition uB : arr Q := Eval vm_compute in of_rows [:: [:: 3%:~R : Q]; [:: 4%:~R]].
Definition uA : arr Q := Eval vm_compute in
  amul (amul (aT rot) (of_rows [:: [:: 4%:~R / 3%:~R; 1]; [:: 0; 7%:~R : Q]])) rot.
Definition uC : arr Q := Eval vm_compute in of_rows [:: [:: 1; 2%:~R : Q]].
Definition uD : arr Q := Eval vm_compute in of_rows [:: [:: 5%:~R : Q]].
Definition uG : state Q := St uA uB uC uD false (Some (1 / 10%:~R)).
Definition uCc : arr Q := Eval vm_compute in ctrb uA uB.
Definition usvd (M : arr Q) : arr Q * seq Q * arr Q :=
  if aeq M uCc then (aT rot, [:: 25%:~R / 3%:~R; 0], rot) else (aeye (nr M), [:: 1], aeye (nc M)).
Definition eps : Q := Eval vm_compute in 1 / 100%:~R.

Ltac ckeq := apply/aeqP; vm_compute; reflexivity.
Lemma usvd_total : svd_total usvd.
Proof.
move=> M _ _; rewrite /usvd; case: ifP => [/andP[/andP[/eqP e1 /eqP e2] _]|_]; last by split=> //; apply: adet_eye.
by split; rewrite ?e1 ?e2 //; vm_compute.
Qed.
Lemma usvd_exact : svd_exact usvd eps uCc.
Proof.
have e : usvd uCc = (aT rot, [:: 25%:~R / 3%:~R; 0], rot) by have h : aeq uCc uCc = true; [vm_compute | rewrite /usvd h].
split; rewrite e; last by move=> sv x; rewrite /sv /= !inE => /orP[/eqP ->|/eqP ->]; [right; vm_compute | left].
by split; [split | ckeq | ckeq | split | ckeq].
Qed.
Example C47_ex : wfS uG /\ 0 <= eps /\
  (if controllability_matrix usvd eps (Tup [:: uA; uB]) false is Ok (Cc, _, r) then aeq Cc uCc && (r == 1%N) else false).
Proof. by vm_compute. Qed.

(* ---- compress=True returns S V' instead of S V, although the svd is exact: the compressed matrix is not T' Cc *)
Definition q34 : arr Q := Eval vm_compute in of_rows [:: [:: 3%:~R; 4%:~R : Q]].
Definition q0 : arr Q := Eval vm_compute in of_rows [:: [:: 0 : Q]].
Definition q1 : arr Q := Eval vm_compute in of_rows [:: [:: 1 : Q]].
Definition svd34 (M : arr Q) : arr Q * seq Q * arr Q := (q1, [:: 5%:~R], rot).

Lemma svd34_exact : svd_exact svd34 eps q34.
Proof.
split; last by move=> sv x; rewrite /sv /svd34 /= inE => /eqP ->; right; vm_compute.
by split; [split | ckeq | ckeq | split | ckeq].
Qed.

Theorem C47_compress_refuted : svd_exact svd34 eps q34 /\
  (if controllability_matrix svd34 eps (Tup [:: q0; q34]) false is Ok (Cc, T, _) then
     if controllability_matrix svd34 eps (Tup [:: q0; q34]) true is Ok (Cz, _, _) then
       aeq Cc q34 && ~~ aeq Cz (amul (aT T) Cc) else false else false).
Proof. split; [exact: svd34_exact | by vm_compute]. Qed.
Print Assumptions C47_compress_refuted.

(* ------------------------------------------------------------------ C48 *)
(* kalman_decomposition with zero cleanup threshold is the similarity transformation by the returned T: the transfer matrix,
   the poles and the sampling period are kept.  Nothing is assumed of the svd. *)
Theorem C48_kalman_similarity (R : realFieldType) npsvd (spac : R) (G K : state R) T :
  wfS G -> sgain G = false -> kalman_decomposition npsvd spac 0 G = Ok (K, Some T) ->
  let n := snn G in let m := smn G in let p := spn G in let Tm := amx n n T in
  [/\ wfS K, sgain K = false, sdt K = sdt G, shp T = (n, n) &
   [/\ Tm \in unitmx, amx n n (sa K) = invmx Tm *m amx n n (sa G) *m Tm, amx n m (sb K) = invmx Tm *m amx n m (sb G),
       amx p n (sc K) = amx p n (sc G) *m Tm & sd K = sd G]].
Proof.
move=> w ng h; have [wK gK dK sT [uT _ [eA eB eC] eD]] := kalman_inv w h ng.
by split=> //; split; rewrite ?amxE.
Qed.
Print Assumptions C48_kalman_similarity.

Theorem C48_kalman_transfer (R : realFieldType) npsvd (spac : R) (G K : state R) T (L : fieldType) (f : {rmorphism R -> L}) s :
  wfS G -> sgain G = false -> kalman_decomposition npsvd spac 0 G = Ok (K, Some T) ->
  regS f K s = regS f G s /\ forall i j, (i < spn G)%N -> (j < smn G)%N -> ev f K s i j = ev f G s i j.
Proof. by move=> w ng h; have [_ _ _ _ sim] := kalman_inv w h ng; apply: similar_tf sim. Qed.
Print Assumptions C48_kalman_transfer.

(* it fails exactly for models whose controllability matrix is numerically zero; static gains are returned as they are *)
Theorem C48_kalman_total (R : realFieldType) npsvd (spac th : R) (G : state R) Cc T0 r : svd_total npsvd ->
  wfS G -> sgain G = false -> (0 < snn G)%N -> (0 < smn G)%N -> (0 < spn G)%N ->
  controllability_matrix npsvd spac (Sys G) false = Ok (Cc, T0, r) ->
  if r == 0%N then kalman_decomposition npsvd spac th G = Err ValueError
  else exists K T, kalman_decomposition npsvd spac th G = Ok (K, Some T).
Proof.
move=> hs w ng n0 m0 p0; case es: (npsvd (ctrb (sa G) (sb G))) => [[u s] v].
have [_ [e1 e2 e3 e4 e5]] := wfS_dyn w ng; have e1' : nr (sa G) = snn G by [].
have [c1 c2] := ctrb_shape e1' e2 e5 n0.
have := hs (ctrb (sa G) (sb G)); rewrite c1 c2 muln_gt0 n0 m0 es => /(_ isT isT) [s0 _ _ _ _].
rewrite (ctrb_sys _ es s0) => -[_ _ <-]; exact: (kalman_total spac th w ng n0 m0 p0 hs es).
Qed.
Print Assumptions C48_kalman_total.

Theorem C48_kalman_gain (R : realFieldType) npsvd (spac th : R) (G : state R) : sgain G ->
  kalman_decomposition npsvd spac th G = Ok (G, None).
Proof. by rewrite /kalman_decomposition => ->. Qed.
Print Assumptions C48_kalman_gain.

(* ------------------------------------------------------------------ C69 *)
(* If the svd of the controllability matrix is exact and r is its rank, rows r, r+1, ... of the new B are zero, the block
   of the new A below the first r columns' leading block is zero, and the first r states alone have the transfer matrix of G. *)
Theorem C69_kalman_structure (R : realFieldType) npsvd (spac : R) (G K : state R) T Cc T0 r : 0 <= spac -> svd_total npsvd ->
  wfS G -> sgain G = false -> (0 < snn G)%N -> (0 < smn G)%N -> (0 < spn G)%N ->
  controllability_matrix npsvd spac (Sys G) false = Ok (Cc, T0, r) -> svd_exact npsvd spac Cc ->
  kalman_decomposition npsvd spac 0 G = Ok (K, Some T) ->
  [/\ r = \rank (amx (snn G) (snn G * smn G) Cc),
   (forall i j, (r <= i < snn G)%N -> ((j < r)%N -> get (sa K) i j = 0) /\ ((j < smn G)%N -> get (sb K) i j = 0)) &
   forall (L : fieldType) (f : {rmorphism R -> L}) s, regS f G s -> regS f (leading r K) s /\
     forall i j, (i < spn G)%N -> (j < smn G)%N -> ev f (leading r K) s i j = ev f G s i j].
Proof.
move=> sp0 hs w ng n0 m0 p0 e ex hK; case es: (npsvd (ctrb (sa G) (sb G))) => [[u s] v].
have [[wa wb wc wd] [e1 e2 e3 e4 e5]] := wfS_dyn w ng; have e1' : nr (sa G) = snn G by [].
have [c1 c2] := ctrb_shape e1' e2 e5 n0.
have := hs (ctrb (sa G) (sb G)); rewrite c1 c2 muln_gt0 n0 m0 es => /(_ isT isT) [s0 _ _ _ _].
move: e; rewrite (ctrb_sys _ es s0) => -[eC _ er]; rewrite -eC in ex *.
have rE := exact_rank sp0 (ctrb_wf _ wb) ex es; rewrite c1 c2 in rE.
have [ok hx] := ex; rewrite es in ok hx.
have st := kalman_structure w ng n0 m0 p0 sp0 hs es ok hx hK; rewrite -rE er in st.
have [wK gK dK sT sim] := kalman_inv w hK ng; have [_ eN _ eD] := sim.
have em : smn K = smn G by rewrite /smn eD. have ep : spn K = spn G by rewrite /spn eD.
split=> //; first by rewrite -er rE.
move=> L f z rg; have [h1 h2] := similar_tf f z sim.
have [|||h3 h4] := @leading_tf R L f K r z; rewrite ?eN ?em ?ep ?h1 //.
  by rewrite -er rE rank_leq_row.
by split=> // i j hi hj; rewrite -h2 // h4 ?em ?ep.
Qed.
Print Assumptions C69_kalman_structure.

Example C69_ex : wfS uG /\ svd_total usvd /\ svd_exact usvd eps uCc /\
  (if controllability_matrix usvd eps (Sys uG) false is Ok (Cc, _, r) then aeq Cc uCc && (r == 1%N) else false) /\
  (if kalman_decomposition usvd eps 0 uG is Ok (K, Some T) then
     (get (sa K) 1 0 == 0) && (get (sb K) 1 0 == 0) && (get (sa K) 0 1 != 0) && ~~ aeq T (aeye 2) else false).
Proof. split; [by vm_compute | split; [exact: usvd_total | split; [exact: usvd_exact | split; by vm_compute]]]. Qed.

(* ---- the observable half of the decomposition is wrong: the transformation is V of the svd and not its transpose, so
   the unobservable direction is not isolated: here C has rank 1, A = 0, and no column of the new C vanishes *)
Definition oA : arr Q := Eval vm_compute in azeros 2 2.
Definition oB : arr Q := Eval vm_compute in aeye 2.
Definition oD : arr Q := Eval vm_compute in azeros 1 2.
Definition oG : state Q := St oA oB q34 oD false None.
Definition oCc : arr Q := Eval vm_compute in ctrb oA oB.
Definition oCo : arr Q := Eval vm_compute in obsv oA q34.
Definition osvd (M : arr Q) : arr Q * seq Q * arr Q :=
  if nc M == 4%N then (aeye 2, [:: 1; 1], aeye 4) else (aeye 2, [:: 5%:~R; 0], rot).
Theorem C69_observable_part_refuted :
  svd_exact osvd eps oCc /\ svd_exact osvd eps oCo /\
  (if controllability_matrix osvd eps (Sys oG) false is Ok (Cc, _, _) then aeq Cc oCc else false) /\
  (if observability_matrix osvd eps (Sys oG) false is Ok (Co, _, r) then aeq Co oCo && (r == 1%N) else false) /\
  (if kalman_decomposition osvd eps 0 oG is Ok (K, Some T) then
     (get (sc K) 0 0 != 0) && (get (sc K) 0 1 != 0) && aeq (sa K) oA else false).
Proof.
split; last split; last by split; [by vm_compute | split; by vm_compute].
- split; last by move=> sv x; rewrite /sv /= !inE orbb => /eqP ->; right; vm_compute.
  by split; [split | ckeq | ckeq | split | ckeq].
- split; last by move=> sv x; rewrite /sv /= !inE => /orP[/eqP ->|/eqP ->]; [right; vm_compute | left].
  by split; [split | ckeq | ckeq | split | ckeq].
Qed.
Print Assumptions C69_observable_part_refuted.
