(* The property statements of PropsState.v, derived from the lemmas on the model. *)
From mathcomp Require Import all_ssreflect all_algebra.
From Verif Require Import Base BaseTheory Spec TfTheory ModelState Denote StateTheory StateOps StateMul.

Set Implicit Arguments.
Unset Strict Implicit.
Unset Printing Implicit Defensive.

Import Order.TTheory GRing.Theory Num.Theory.
Local Open Scope ring_scope.

(* Concrete models over the rationals used by the examples. *)
Section ExModels.
Definition Q := rat_realFieldType.
Definition qa (s : seq (seq rat)) : arr Q := of_rows s.
(* 1/(s+1) *)
Definition exG : state Q := St (qa [:: [:: -1]]) (qa [:: [:: 1]]) (qa [:: [:: 1]]) (qa [:: [:: 0]]) false None.
(* (s+3)/(s+2) *)
Definition exH : state Q := St (qa [:: [:: -2%:Q]]) (qa [:: [:: 1]]) (qa [:: [:: 1]]) (qa [:: [:: 1]]) false None.
(* a 2-by-3 model with two states *)
Definition exM : state Q :=
  St (qa [:: [:: 0; 1]; [:: -2%:Q; -3%:Q]]) (qa [:: [:: 0; 1; 2%:Q]; [:: 1; 0; 5%:Q]])
     (qa [:: [:: 1; 0]; [:: 0; 1]]) (qa [:: [:: 0; 0; 1]; [:: 2%:Q; 0; 0]]) false None.
(* discrete model, dt = 1/10 *)
Definition exGd : state Q :=
  St (qa [:: [:: 2%:Q^-1]]) (qa [:: [:: 1]]) (qa [:: [:: 1]]) (qa [:: [:: 1]]) false (Some 10%:Q^-1).
(* a 1-by-1 static gain *)
Definition exK : state Q := St (e00 Q) (e00 Q) (e00 Q) (qa [:: [:: 7%:Q]]) true None.
End ExModels.

Section P.
Variable R : realFieldType.
Implicit Types (G H K : state R) (A M : arr R).

Lemma state_add_same lim G H K :
  wfS G -> wfS H -> sshape G = sshape H -> st_add lim G (OState H) = Ok K ->
  [/\ wfS K, sshape K = sshape G & (sgain G = false -> sgain H = false -> snn K = (snn G + snn H)%N)] /\
  forall (L : fieldType) (f : {rmorphism R -> L}) (s : L), regS f G s -> regS f H s ->
    regS f K s /\
    forall i j, (i < spn G)%N -> (j < smn G)%N -> ev f K s i j = ev f G s i j + ev f H s i j.
Proof.
move=> w w' sh E; have [[dtE wK bp bm] [rK eK]] := st_add_state w w' E.
have [ep em] : spn G = spn H /\ smn G = smn H by case: sh.
rewrite ep bdimxx in bp; rewrite em bdimxx in bm; case: bp bm => bp [bm].
split.
  split=> //; first by rewrite /sshape -/(spn K) -/(smn K) -bp -bm -ep -em.
  move=> g g'; case: lim E => // lim /=; rewrite dtE eqxx g g' /=.
  have -> : sSISO G = sSISO H by rewrite /sSISO ep em.
  rewrite eqxx sh eqxx orbT => E.
  by have [[_ _ _ nK _] _] := par_dyn w w' g g' sh E.
move=> L f s r1 r2; split; first by rewrite rK r1.
move=> i j hi hj; rewrite eK -?bp -?bm -?ep -?em // !bidx_small //.
Qed.

Lemma state_add_siso lim G H K :
  wfS G -> wfS H -> spn G = 1%N -> smn G = 1%N -> st_add lim G (OState H) = Ok K ->
  wfS K /\ sshape K = sshape H /\
  forall (L : fieldType) (f : {rmorphism R -> L}) (s : L), regS f G s -> regS f H s ->
    regS f K s /\
    forall i j, (i < spn H)%N -> (j < smn H)%N -> ev f K s i j = ev f G s 0%N 0%N + ev f H s i j.
Proof.
move=> w w' p1 m1 E; have [[dtE wK bp bm] [rK eK]] := st_add_state w w' E.
rewrite p1 bdimC bdim1 in bp; rewrite m1 bdimC bdim1 in bm; case: bp bm => bp [bm].
split=> //; split; first by rewrite /sshape -/(spn K) -/(smn K) -bp -bm.
move=> L f s r1 r2; split; first by rewrite rK r1.
by move=> i j hi hj; rewrite eK -?bp -?bm // p1 m1 !bidx1E !bidx_small.
Qed.

Lemma mkS_dt a b c d dt K : mkS a b c d dt = Ok K -> sdt K = dt.
Proof.
rewrite /mkS /mk_state /=; case: (st_validate _ _ _ _) => [[[[[a' b'] c'] d'] g]|] //=.
by case E: (check_dt dt) => [dt'|] //= [<-]; have [-> _] := check_dt_inv E.
Qed.

Lemma mkGain_dt d dt K : mkGain d dt = Ok K -> sdt K = dt.
Proof. by case/mkGain_inv => ->. Qed.

Lemma add_keeps_dt lim G K (o : operand R) :
  wfS G -> (forall H, o = OState H -> wfS H /\ (sgain G || sgain H)) ->
  st_add lim G o = Ok K -> sdt K = sdt G.
Proof.
move=> w; case: o => [x|v|A|H] ho.
- by move/(st_add_scal w) => [[]].
- rewrite st_add_arr1; case: ifP => _; first by move/(st_add_scal w) => [[]].
  by move/(st_add_arr w) => [[]].
- by move/(st_add_arr w) => [[]].
- have [w' gg] := ho H erefl; case: lim => // lim /=; case: ifP => // /eqP dtE.
  case: ifP => g2; first by case: (np_add _ _) => //= d /mkGain_dt.
  case: ifP => g; first by rewrite /to_array g /= => /(st_add_arr w')[[_ _ _ _ ->] _].
  rewrite g /= in gg; rewrite gg /to_array gg /= => /(st_add_arr w)[[] //].
Qed.

Lemma add_dyn_drops_dt lim G H K :
  wfS G -> wfS H -> sgain G = false -> sgain H = false -> st_add lim G (OState H) = Ok K -> sdt K = None.
Proof.
elim: lim G H => // lim IH G H w w' g g' /=; case: ifP => // /eqP dtE; rewrite g g' /=.
case: ifP => ns.
  case: ifP => // _; case: (np_add _ _) => //= d; case: (np_vstack _ _) => //= b.
  by case: (np_hstack _ _) => //= c /mkS_dt.
case: ifP => si.
  have [K' [[-> wK ep em et] [gK _ _ _]]] := st_bcastP (spn H) (smn H) w g si (wfS_dt w).
  by move=> /= /IH; apply.
have si' : sSISO H by move: ns; rewrite si; case: (sSISO H).
have [K' [[-> wK ep em et] [gK _ _ _]]] := st_bcastP (spn G) (smn G) w' g' si' (wfS_dt w).
by move=> /= /IH; apply.
Qed.

Lemma add_array11_loops G A :
  wfS G -> sgain G = false -> spn G = 1%N -> smn G = 1%N -> nr A = 1%N -> nc A = 1%N ->
  forall lim, st_add lim G (OArr2 A) = Err RecursionError.
Proof.
move=> w g p1 m1 a1 a2 lim; apply: st_add_arr11 => //; first by apply/sSISOP.
by rewrite /shp a1 a2.
Qed.

Lemma state_matmul lim G H K :
  wfS G -> wfS H -> smn G = spn H -> st_matmul lim G (OState H) = Ok K ->
  [/\ wfS K, sdt K = sdt G, spn K = spn G & smn K = smn H] /\
  forall (L : fieldType) (f : {rmorphism R -> L}) (s : L), regS f G s -> regS f H s ->
    regS f K s /\
    forall i j, (i < spn G)%N -> (j < smn H)%N ->
      ev f K s i j = \sum_(l < smn G) ev f G s i l * ev f H s l j.
Proof.
move=> w w' e /(st_matmulP w w')[_ [wK tK rK hK]].
have [dp dm] : spn K = spn G /\ smn K = smn H.
  have [x /andP[r1 r2]] := reg_exists G H.
  by have [c1 _] := hK _ _ _ r1 r2; have [] := c1 e.
split=> // L f s r1 r2; split; first exact: rK.
have [c1 _] := hK _ _ _ r1 r2; have [_ _ h] := c1 e.
by move=> i j hi hj; apply: h; rewrite ?dp ?dm.
Qed.

Lemma state_matmul_states lim G H K :
  wfS G -> wfS H -> sgain G = false -> sgain H = false -> smn G = spn H ->
  st_matmul lim G (OState H) = Ok K -> snn K = (snn G + snn H)%N /\ sgain K = false.
Proof.
move=> w w' g g' e; case: lim => // lim /=; case: ifP => // _; rewrite g g' /= e eqxx /= !andbF /=.
have [[wa wb wc wd] [e1 e2 e3 e4 e5]] := wfS_dyn w g.
have [[wa' wb' wc' wd'] [e1' e2' e3' e4' e5']] := wfS_dyn w' g'.
rewrite /st_series /np_matmul; case: ifP => // /eqP h1 /=; case: ifP => // /eqP h2 /=.
rewrite /np_vstack /=; case: ifP => // /eqP h3 /=; case: ifP => // /eqP h4 /=.
rewrite /np_hstack /=; case: ifP => // /eqP h5 /=; case: ifP => // /eqP h6 /=.
rewrite mkS_ok; try by rewrite /= ?e1 ?e1' ?e2 ?e2' ?e3 ?e3' ?e4 ?e4' ?e5 ?e5' ?(wfS_dt w).
by case=> <-.
Qed.

Lemma state_mul_siso lim G H K :
  wfS G -> wfS H -> st_matmul lim G (OState H) = Ok K ->
  (spn G = 1%N -> smn G = 1%N ->
   [/\ wfS K, sdt K = sdt G & sshape K = sshape H] /\
   forall (L : fieldType) (f : {rmorphism R -> L}) (s : L), regS f G s -> regS f H s ->
    regS f K s /\ forall i j, (i < spn H)%N -> (j < smn H)%N ->
      ev f K s i j = ev f G s 0%N 0%N * ev f H s i j) /\
  (spn H = 1%N -> smn H = 1%N ->
   [/\ wfS K, sdt K = sdt G & sshape K = sshape G] /\
   forall (L : fieldType) (f : {rmorphism R -> L}) (s : L), regS f G s -> regS f H s ->
    regS f K s /\ forall i j, (i < spn G)%N -> (j < smn G)%N ->
      ev f K s i j = ev f G s i j * ev f H s 0%N 0%N).
Proof.
move=> w w' /(st_matmulP w w')[_ [wK tK rK hK]]; split=> p1 m1.
  have D (L : fieldType) (f : {rmorphism R -> L}) s : regS f G s -> regS f H s ->
    sshape K = sshape H /\ forall i j, (i < spn H)%N -> (j < smn H)%N ->
      ev f K s i j = ev f G s 0%N 0%N * ev f H s i j.
    move=> r1 r2; have [c1 c2] := hK _ _ _ r1 r2.
    case: (eqVneq (smn G) (spn H)) => [e|/eqP ne].
      have [dp dm h] := c1 e; split; first by rewrite /sshape -/(spn K) -/(smn K) dp dm p1 -m1 e.
      move=> i j hi hj; have i0 : i = 0%N by move: hi; rewrite -e m1; case: i.
      by rewrite h ?i0 ?dp ?dm ?p1 // m1 big_ord1.
    case: (c2 ne) => -[a1 [a2 [a3 [a4 h]]]].
      by split=> [|i j hi hj]; [rewrite /sshape -/(spn K) -/(smn K) a3 a4|apply: h; rewrite ?a3 ?a4].
    by case: ne; rewrite m1 a1.
  split; last by move=> L f s r1 r2; split; [apply: rK|case: (D _ _ _ r1 r2)].
  by split=> //; have [x /andP[r1 r2]] := reg_exists G H; case: (D _ _ _ r1 r2).
have D (L : fieldType) (f : {rmorphism R -> L}) s : regS f G s -> regS f H s ->
  sshape K = sshape G /\ forall i j, (i < spn G)%N -> (j < smn G)%N ->
    ev f K s i j = ev f G s i j * ev f H s 0%N 0%N.
  move=> r1 r2; have [c1 c2] := hK _ _ _ r1 r2.
  case: (eqVneq (smn G) (spn H)) => [e|/eqP ne].
    have [dp dm h] := c1 e; split; first by rewrite /sshape -/(spn K) -/(smn K) dp dm m1 -p1 -e.
    move=> i j hi hj; have j0 : j = 0%N by move: hj; rewrite e p1; case: j.
    by rewrite h ?j0 ?dp ?dm ?m1 // e p1 big_ord1.
  case: (c2 ne) => -[a1 [a2 [a3 [a4 h]]]]; first by case: ne; rewrite p1 a2.
  by split=> [|i j hi hj]; [rewrite /sshape -/(spn K) -/(smn K) a3 a4|apply: h; rewrite ?a3 ?a4].
split; last by move=> L f s r1 r2; split; [apply: rK|case: (D _ _ _ r1 r2)].
by split=> //; have [x /andP[r1 r2]] := reg_exists G H; case: (D _ _ _ r1 r2).
Qed.

Lemma siso_times_matrix lim G A :
  wfS G -> sgain G = false -> spn G = 1%N -> smn G = 1%N -> wfa A ->
  exists K, [/\ st_matmul lim.+1 G (OArr2 A) = Ok K, st_rmatmul G (OArr2 A) = Ok K,
                wfS K, sshape K = shp A & sdt K = sdt G] /\
  forall (L : fieldType) (f : {rmorphism R -> L}) (s : L), regS f G s ->
    regS f K s /\
    forall i j, (i < nr A)%N -> (j < nc A)%N -> ev f K s i j = f (get A i j) * ev f G s 0%N 0%N.
Proof.
move=> w g p1 m1 wA; have si : sSISO G by apply/sSISOP.
have [K [[E wK sh tK] [_ _ rK h]]] := st_siso_matP w g si wA.
exists K; split.
  split=> //; first by rewrite /= /st_matmul_num si orbT g.
  by rewrite /st_rmatmul /= si orbT g.
by move=> L f s r; split; [apply: rK | move=> i j hi hj; rewrite mulrC h].
Qed.

Lemma scalar_left G (c : R) : wfS G ->
  exists K, [/\ st_rmatmul G (OScal c) = Ok K, wfS K, sshape K = sshape G & sdt K = sdt G] /\
  forall (L : fieldType) (f : {rmorphism R -> L}) (s : L), regS f G s ->
    regS f K s /\ forall i j, (i < spn G)%N -> (j < smn G)%N -> ev f K s i j = f c * ev f G s i j.
Proof.
move=> w; have [K E] := st_rmatmul_scal_ok c w; have [wK tK rK hK] := st_rmatmul_scalP w E.
have D (L : fieldType) (f : {rmorphism R -> L}) s : regS f G s ->
  sshape K = sshape G /\ forall i j, (i < spn G)%N -> (j < smn G)%N -> ev f K s i j = f c * ev f G s i j.
  move=> r; have [c1 c2] := hK _ _ _ r.
  case: (eqVneq 1%N (spn G)) => [e|/eqP ne].
    have [dp dm h] := c1 e; split; first by rewrite /sshape -/(spn K) -/(smn K) dp dm e.
    move=> i j hi hj; have i0 : i = 0%N by move: hi; rewrite -e; case: i.
    by rewrite h ?i0 ?dp ?dm // big_ord1.
  case: (c2 ne) => -[a1 [a2 [a3 [a4 h]]]]; last by case: ne; rewrite a1.
  by split=> [|i j hi hj]; [rewrite /sshape -/(spn K) -/(smn K) a3 a4|apply: h; rewrite ?a3 ?a4].
exists K; split; last by move=> L f s r; split; [apply: rK|case: (D _ _ _ r)].
by split=> //; have [x /andP[r _]] := reg_exists G G; case: (D _ _ _ r).
Qed.

Lemma scalar_right lim G (c : R) : wfS G -> sgain G = false ->
  exists K, [/\ st_matmul lim.+1 G (OScal c) = Ok K, wfS K, sshape K = sshape G & sdt K = sdt G] /\
  forall (L : fieldType) (f : {rmorphism R -> L}) (s : L), regS f G s ->
    regS f K s /\ forall i j, (i < spn G)%N -> (j < smn G)%N -> ev f K s i j = ev f G s i j * f c.
Proof.
move=> w g; have [K E] := st_matmul_scal_ok c w g; have [wK tK rK hK] := st_matmul_scalP w E.
have D (L : fieldType) (f : {rmorphism R -> L}) s : regS f G s ->
  sshape K = sshape G /\ forall i j, (i < spn G)%N -> (j < smn G)%N -> ev f K s i j = ev f G s i j * f c.
  move=> r; have [c1 c2] := hK _ _ _ r.
  case: (eqVneq (smn G) 1%N) => [e|/eqP ne].
    have [dp dm h] := c1 e; split; first by rewrite /sshape -/(spn K) -/(smn K) dp dm -e.
    move=> i j hi hj; have j0 : j = 0%N by move: hj; rewrite e; case: j.
    by rewrite h ?j0 ?dp ?dm // e big_ord1.
  case: (c2 ne) => -[a1 [a2 [a3 [a4 h]]]]; first by case: ne; rewrite a2.
  by split=> [|i j hi hj]; [rewrite /sshape -/(spn K) -/(smn K) a3 a4|apply: h; rewrite ?a3 ?a4].
exists K; split; last by move=> L f s r; split; [apply: rK|case: (D _ _ _ r)].
by split=> //; have [x /andP[r _]] := reg_exists G G; case: (D _ _ _ r).
Qed.

Lemma gain_scalar_right lim G (c : R) : sgain G -> st_matmul lim.+1 G (OScal c) = Err TypeError.
Proof. by move=> g; rewrite /= /st_matmul_num g. Qed.

Lemma matrix_right lim G M : wfS G -> wfa M -> smn G = nr M ->
  exists K, [/\ st_matmul lim.+1 G (OArr2 M) = Ok K, wfS K, sdt K = sdt G, spn K = spn G & smn K = nc M] /\
  forall (L : fieldType) (f : {rmorphism R -> L}) (s : L), regS f G s ->
    regS f K s /\ forall i j, (i < spn G)%N -> (j < nc M)%N ->
      ev f K s i j = \sum_(l < smn G) ev f G s i l * f (get M l j).
Proof.
move=> w wM e.
have [K E] : exists K, st_matmul lim.+1 G (OArr2 M) = Ok K.
  case g: (sgain G); last by apply: (@st_matmul_num_ok _ G M) => //; left.
  rewrite /= /st_matmul_num e eqxx g /= -[nc (sd G)]/(smn G) e eqxx.
  by rewrite mkGain_ok ?(wfS_dt w) //; eexists.
have [wK tK rK hK] := st_matmul_arrP w wM E.
exists K; split.
  by have [x /andP[r _]] := reg_exists G G; have [c1 _] := hK _ _ _ r; have [] := c1 e.
move=> L f s r; split; first exact: rK.
have [c1 _] := hK _ _ _ r; have [dp dm h] := c1 e.
by move=> i j hi hj; apply: h; rewrite ?dp ?dm.
Qed.

Lemma matrix_left G M : wfS G -> wfa M -> nc M = spn G ->
  exists K, [/\ st_rmatmul G (OArr2 M) = Ok K, wfS K, sdt K = sdt G, spn K = nr M & smn K = smn G] /\
  forall (L : fieldType) (f : {rmorphism R -> L}) (s : L), regS f G s ->
    regS f K s /\ forall i j, (i < nr M)%N -> (j < smn G)%N ->
      ev f K s i j = \sum_(l < spn G) f (get M i l) * ev f G s l j.
Proof.
move=> w wM e.
have [K E] : exists K, st_rmatmul G (OArr2 M) = Ok K.
  case g: (sgain G); last by apply: st_rmatmul_arr_ok => //; left.
  rewrite /st_rmatmul /= -e eqxx g /= -[nr (sd G)]/(spn G) -e eqxx /=.
  by rewrite mkGain_ok ?(wfS_dt w) //; eexists.
have [wK tK rK hK] := st_rmatmul_arrP w wM E.
exists K; split.
  by have [x /andP[r _]] := reg_exists G G; have [c1 _] := hK _ _ _ r; have [] := c1 e.
move=> L f s r; split; first exact: rK.
have [c1 _] := hK _ _ _ r; have [dp dm h] := c1 e.
by move=> i j hi hj; rewrite -e; apply: h; rewrite ?dp ?dm.
Qed.

Lemma add_scalar lim G (c : R) : wfS G ->
  exists K, [/\ st_add lim.+1 G (OScal c) = Ok K, wfS K, sshape K = sshape G & sdt K = sdt G] /\
  forall (L : fieldType) (f : {rmorphism R -> L}) (s : L),
    regS f K s = regS f G s /\ forall i j, (i < spn G)%N -> (j < smn G)%N -> ev f K s i j = ev f G s i j + f c.
Proof.
move=> w.
have [K E] : exists K, st_add lim.+1 G (OScal c) = Ok K.
  rewrite /=; case g: (sgain G); first by rewrite mkGain_ok ?(wfS_dt w) //; eexists.
  have [[wa wb wc wd] [e1 e2 e3 e4 e5]] := wfS_dyn w g.
  have [K E] : exists K, mkS (sa G) (sb G) (sc G) (aadds (sd G) c) (sdt G) = Ok K.
    by rewrite mkS_ok /= ?e1 ?e2 ?e3 ?e4 ?e5 ?(wfS_dt w) //; eexists.
  by exists K; rewrite -E; case: ifP.
have [[wK gK shK nK tK] [rK eK]] := st_add_scal w E.
by exists K; split=> // L f s; split; [apply: rK|apply: eK].
Qed.

Lemma add_array lim G K A : wfS G -> wfa A ->
  shp A = sshape G -> st_add lim G (OArr2 A) = Ok K ->
  [/\ wfS K, sshape K = sshape G & sdt K = sdt G] /\
  forall (L : fieldType) (f : {rmorphism R -> L}) (s : L),
    regS f K s = regS f G s /\ forall i j, (i < spn G)%N -> (j < smn G)%N -> ev f K s i j = ev f G s i j + f (get A i j).
Proof.
move=> w wA [a1 a2] /(st_add_arr w)[[wK gK bp bm tK] [rK eK]].
rewrite -[spn G]/(nr (sd G)) -a1 bdimxx in bp; rewrite -[smn G]/(nc (sd G)) -a2 bdimxx in bm.
case: bp bm => bp [bm]; split.
  by split=> //; rewrite /sshape -/(spn K) -/(smn K) -bp -bm a1 a2.
move=> L f s; split; first exact: rK.
move=> i j hi hj; rewrite eK ?bidx_small ?a1 ?a2 //; by rewrite -?bp -?bm ?a1 ?a2.
Qed.

Lemma state_neg G : wfS G ->
  exists K, [/\ st_neg G = Ok K, wfS K, sshape K = sshape G, sgain K = sgain G & sdt K = sdt G] /\
  forall (L : fieldType) (f : {rmorphism R -> L}) (s : L),
    regS f K s = regS f G s /\ forall i j, (i < spn G)%N -> (j < smn G)%N -> ev f K s i j = - ev f G s i j.
Proof.
move=> w; have [K [h1 [_ h2 h3]]] := st_negP w.
by exists K; split=> // L f s; split; [apply: h2|apply: h3].
Qed.

Lemma state_sub lim G H :
  wfS G -> wfS H -> sshape G = sshape H -> sdt G = sdt H -> ~~ (sSISO G && (sgain G != sgain H)) ->
  exists K, [/\ st_sub lim.+3 G (OState H) = Ok K, wfS K & sshape K = sshape G] /\
  forall (L : fieldType) (f : {rmorphism R -> L}) (s : L), regS f G s -> regS f H s ->
    forall i j, (i < spn G)%N -> (j < smn G)%N -> ev f K s i j = ev f G s i j - ev f H s i j.
Proof.
move=> w w' sh dtE gg; rewrite /st_sub /neg_operand.
have [N [[-> wN shN gN tN] hN]] := state_neg w'.
have [K E] : exists K, st_add lim.+3 G (OState N) = Ok K.
  apply: st_add_state_ok => //; first by rewrite tN.
    by constructor 1; rewrite shN.
  by rewrite gN; move: gg; case: (sSISO G); case: (sSISO N).
exists K; rewrite /bind E.
have shGN : sshape G = sshape N by rewrite shN.
have [[wK shK _] hK] := state_add_same w wN shGN E.
split=> // L f s r1 r2 i j hi hj; have [rN eN] := hN L f s.
have [_ ->] := hK L f s r1 (eq_ind_r is_true r2 rN) => //.
have [hp hm] : spn G = spn H /\ smn G = smn H by case: sh.
by rewrite eN -?hp -?hm.
Qed.

Lemma state_sub_self lim G : wfS G ->
  exists K, [/\ st_sub lim.+3 G (OState G) = Ok K, wfS K & sshape K = sshape G] /\
  forall (L : fieldType) (f : {rmorphism R -> L}) (s : L), regS f G s ->
    forall i j, (i < spn G)%N -> (j < smn G)%N -> ev f K s i j = 0.
Proof.
move=> w; have [|K [h hK]] := @state_sub lim G G w w erefl erefl; first by rewrite eqxx andbF.
by exists K; split=> // L f s r i j hi hj; rewrite hK // subrr.
Qed.

Lemma inverse_iff (sv : arr R -> bool) G : wfS G ->
  (forall M, nr M = nc M -> sv M = (adet M == 0)) ->
  is_ok (st_rtruediv sv G (OScal 1)) =
  (spn G == smn G) && (mxof (idR R) (spn G) (spn G) (sd G) \in unitmx).
Proof.
move=> w hsv; case: (eqVneq (spn G) (smn G)) => [sq|nsq]; last first.
  by rewrite /st_rtruediv (negbTE nsq).
rewrite unit_adet //; case d0: (adet (sd G) == 0) => /=.
  by rewrite /st_rtruediv sq eqxx hsv // d0.
by have [||K ->] := @st_rtruediv_ok R sv G 1 w sq; rewrite ?hsv ?d0.
Qed.

Lemma inverse_poles (sv : arr R -> bool) G K :
  wfS G -> st_rtruediv sv G (OScal 1) = Ok K ->
  forall (L : fieldType) (f : {rmorphism R -> L}) (s : L), regS f G s ->
    regS f K s = (evalS f (spn G) (spn G) G s \in unitmx).
Proof.
move=> w /(st_rtruediv_core w)[sq [Gi [[wi shi dti hi +] hr]]].
by rewrite st_rmatmul1 // => -[<-].
Qed.

Lemma getitem G (rs cs : seq nat) :
  wfS G -> rs != [::] -> cs != [::] ->
  (forall i, i \in rs -> (i < spn G)%N) -> (forall j, j \in cs -> (j < smn G)%N) ->
  exists K, [/\ st_getitem G rs cs = Ok K, wfS K, sshape K = (size rs, size cs), sdt K = sdt G & sgain K = sgain G] /\
  forall (L : fieldType) (f : {rmorphism R -> L}) (s : L),
   regS f K s = regS f G s /\
   forall i j, (i < size rs)%N -> (j < size cs)%N ->
     ev f K s i j = ev f G s (nth 0%N rs i) (nth 0%N cs j).
Proof.
move=> w r0 c0 hr hc; have [K E] := st_getitem_ok w r0 c0 hr hc.
have [[wK sp sm tK gK] h] := st_getitemP w E.
by exists K; split=> //; split=> //; rewrite /sshape -/(spn K) -/(smn K) sp sm.
Qed.

Lemma dt_mismatch lim G H : wfS H -> sdt G <> sdt H ->
  [/\ st_add lim.+1 G (OState H) = Err ValueError,
      st_sub lim.+1 G (OState H) = Err ValueError,
      st_matmul lim.+1 G (OState H) = Err ValueError &
      st_mul lim.+1 G (OState H) = Err ValueError].
Proof.
move=> w' ne; split; rewrite /st_mul ?st_add_dt ?st_matmul_dt //.
rewrite /st_sub /neg_operand; have [N [[-> wN shN gN tN] hN]] := state_neg w'.
by rewrite /bind st_add_dt // tN.
Qed.

Lemma check_dt_isok (dt : option R) : is_ok (check_dt dt) = dt_ok dt.
Proof. by case: dt => //= v; rewrite leNgt; case: ifP => /= [/negbTE|/negbFE] ->. Qed.

Lemma validate_iff (a b c d : arr R) (dt : option R) :
  is_ok (mkS a b c d dt) =
  [&& nr a == nc a, (nr b == nr a) || (nr b == 1%N) && (nc b == nr a), nc c == nr a,
      let m := if nr b == nr a then nc b else 1%N in
      (shp d == (nr c, m)) || (m == 1%N) && (shp d == (1%N, nr c)) &
      (if dt is Some v then 0 < v else true)].
Proof.
rewrite /mkS /mk_state /st_validate /=; case: (nr a =P nc a) => [ea|] //=.
have fin (x : option R -> state R) : is_ok (do dt' <- check_dt dt; Ok (x dt')) = dt_ok dt.
  by rewrite -check_dt_isok; case: (check_dt dt).
case: (nr b =P nr a) => [eb|nb] /=.
  rewrite ea; case: (nc c =P nc a) => [ec|] //=.
  case: (shp d =P (nr c, nc b)) => [es|ns] /=; first by rewrite fin.
  case: (nr d =P 1%N) => [d1|nd] /=; last first.
    symmetry; apply/negbTE/negP => /andP[/andP[_ /eqP[d1 _]] _]; exact: nd.
  rewrite /shp d1 !xpair_eqE eqxx /= (eq_sym 1%N).
  by case: ifP => _ //=; rewrite fin.
case: (nr b =P 1%N) => [b1|] //=; case: (nc b =P nr a) => [eb|] //=.
rewrite ea; case: (nc c =P nc a) => [ec|] //=; rewrite b1.
case: (shp d =P (nr c, 1%N)) => [es|ns] /=; first by rewrite fin.
case: (nr d =P 1%N) => [d1|nd] /=; last first.
  symmetry; apply/negbTE/negP => /andP[/eqP[d1 _] _]; exact: nd.
by case: ifP => _ //=; rewrite fin.
Qed.

Lemma validate_wf (a b c d : option (arr R)) (dt : option R) G :
  (forall A, a = Some A -> wfa A) -> (forall A, b = Some A -> wfa A) ->
  (forall A, c = Some A -> wfa A) -> (forall A, d = Some A -> wfa A) ->
  mk_state a b c d dt = Ok G -> wfS G.
Proof.
move=> ha hb hc hd.
have w0 : wfa (e00 R) by [].
have wo (x : option (arr R)) : (forall A, x = Some A -> wfa A) -> wfa (odflt (e00 R) x).
  by case: x => //= A; apply.
have {ha} wa := wo a ha; have {hb} wb := wo b hb; have {hc} wc := wo c hc; have {hd} wd := wo d hd.
rewrite /mk_state; case E: (st_validate a b c d) => [[[[[a' b'] c'] d'] g]|] //=.
case Et: (check_dt dt) => [dt'|] //= [<-]; have [-> {}Et] := check_dt_inv Et.
move: E wa wb wc wd; rewrite /st_validate.
have key (A B C D : arr R) (dg : bool) :
  (guard nr A == nc A else ValueError;
   do b1 <- (if nr B != nr A then
                if (nr B == 1%N) && (nc B == nr A) then Ok (aT B) else Err ValueError
              else Ok B);
    guard nc C == nc A else ValueError;
    let d1 := if dg then D else azeros (nr C) (nc b1) in
    do d2 <- (if shp d1 != (nr C, nc b1) then
                if (nr d1 == 1%N) && (shp d1 == (nc b1, nr C))
                then Ok (mk (nc d1) 1 (fun i _ => get d1 0 i)) else Err ValueError
              else Ok d1);
    Ok (A, b1, C, d2, false)) = Ok (a', b', c', d', g) ->
  wfa A -> wfa B -> wfa C -> wfa D -> wfS (St a' b' c' d' g dt).
  case: ifP => // /eqP h1.
  have fin b1 d1 : nr b1 = nr A -> wfa b1 -> wfa d1 ->
    (guard nc C == nc A else ValueError;
    do d2 <- (if shp d1 != (nr C, nc b1) then
                if (nr d1 == 1%N) && (shp d1 == (nc b1, nr C))
                then Ok (mk (nc d1) 1 (fun i _ => get d1 0 i)) else Err ValueError
              else Ok d1);
    Ok (A, b1, C, d2, false)) = Ok (a', b', c', d', g) ->
    wfa A -> wfa C -> wfS (St a' b' c' d' g dt).
    move=> h2 wb wd; case: ifP => // /eqP h3.
    case: ifP => [_|/negbFE/eqP[h4 h5]] /=; last first.
      case=> <- <- <- <- <- wa wc; apply: wfS_mk; rewrite ?wfa_mk //= ?h1 //.
    case: ifP => //= /andP[/eqP dd1 /eqP[h4 h5]].
    by case=> <- <- <- <- <- wa wc; apply: wfS_mk; rewrite ?wfa_mk //= ?h1 // -h4.
  case: ifP => [_|/negbFE/eqP h2] /=.
    case: ifP => //= /andP[/eqP b1 /eqP b2] E wa wb wc wd; apply: (fin _ _ _ _ _ E) => //=.
    - by rewrite wfa_mk.
    - by case: (dg); rewrite ?wfa_mk.
  by move=> E wa wb wc wd; apply: (fin _ _ _ _ _ E) => //=; case: (dg); rewrite ?wfa_mk.
case: b c d => [b|] [c|] [d|] /=; rewrite ?andbF; try by case=> <- <- <- <- <- wa wb wc wd; apply: wfS_mkgain.
- exact: (key _ _ _ _ true).
- by move=> E wa wb wc _; apply: (key _ _ _ (e00 R) false E).
- exact: (key _ _ _ _ true).
- by move=> E wa wb wc _; apply: (key _ _ _ (e00 R) false E).
- exact: (key _ _ _ _ true).
- by move=> E wa wb wc _; apply: (key _ _ _ (e00 R) false E).
- case: a => [a|] /=; first exact: (key _ _ _ _ true).
  by case=> <- <- <- <- <- wa wb wc wd; apply: wfS_mkgain.
Qed.

Lemma validate_stored (a b c d : arr R) (dt : option R) :
  (nr a = nc a -> nr b = nr a -> nc c = nr a -> nr c = nr d -> nc b = nc d -> dt_ok dt ->
   mkS a b c d dt = Ok (St a b c d false dt)) /\
  (dt_ok dt -> mkGain d dt = Ok (St (e00 R) (e00 R) (e00 R) d true dt)).
Proof. by split=> *; [apply: mkS_ok|apply: mkGain_ok]. Qed.

End P.

Lemma add_drops_dt :
  exists G H K : state Q, [/\ wfS G, wfS H, sdt G = sdt H, st_add 5 G (OState H) = Ok K & sdt K <> sdt G].
Proof.
have w : wfS exGd by vm_compute.
have [|||K E] := @st_add_state_ok _ 2 exGd exGd w w; [by []|by constructor 1|by vm_compute|].
have dK : sdt K = None by apply: (add_dyn_drops_dt w w _ _ E).
by exists exGd, exGd, K; split; [exact: w|exact: w|exact: erefl|exact: E|rewrite dK].
Qed.

Lemma add_gain11_loops : [/\ wfS exG, sgain exG = false, spn exG = 1%N, smn exG = 1%N &
   forall lim, st_add lim exG (OState exK) = Err RecursionError].
Proof.
have w : wfS exG by vm_compute.
split; [exact: w|exact: erefl|exact: erefl|exact: erefl|].
by case=> [|lim]; [exact: erefl|exact: (add_array11_loops w)].
Qed.
