(* Multiplication, inversion and indexing of State models. *)
From mathcomp Require Import all_ssreflect all_algebra.
From mathcomp.real_closed Require Import mxtens.
From Verif Require Import Base BaseTheory Spec TfTheory KronTheory ModelState Denote StateTheory StateOps.

Set Implicit Arguments.
Unset Strict Implicit.
Unset Printing Implicit Defensive.

Import Order.TTheory GRing.Theory Num.Theory.
Local Open Scope ring_scope.

Section Ops.
Variable R : realFieldType.
Implicit Types (G H K : state R) (A : arr R).

Lemma st_add_arr1 lim G v : st_add lim G (OArr1 v) =
  if size v == 1%N then st_add lim G (OScal (head 0 v)) else st_add lim G (OArr2 (row_of v)).
Proof. by case: lim => [|lim] /=; case: (size v == 1%N). Qed.

(* ---------------- success of the addition ---------------- *)
Lemma bdimxx x : bdim x x = Some x. Proof. by rewrite /bdim eqxx. Qed.

Lemma st_add_arr_ok lim G A : wfS G -> [\/ shp A = sshape G, sSISO G | shp A = (1,1)%N] ->
  ~~ (~~ sgain G && sSISO G && (shp A == (1, 1)%N)) ->
  exists K, st_add lim.+2 G (OArr2 A) = Ok K.
Proof.
move=> w sh hn; rewrite /=; case g: (sgain G) in hn *.
  have [d ->] : exists d, np_add (sd G) A = Ok d.
    case: sh => [[e1 e2]|/sSISOP[p1 m1]|[p1 m1]]; first by rewrite /np_add np_op2_same //; eexists.
      by rewrite /np_add /np_op2 -/(spn G) -/(smn G) p1 m1 bdimC bdim1 bdimC bdim1; eexists.
    by rewrite /np_add /np_op2 p1 m1 !bdim1; eexists.
  by rewrite /= mkGain_ok ?(wfS_dt w) //; eexists.
have [[wa wb wc wd] [e1 e2 e3 e4 e5]] := wfS_dyn w g.
have dyn G' : wfS G' -> sgain G' = false -> shp A = sshape G' \/ shp A = (1,1)%N -> exists K,
  (do d <- np_add (sd G') A; mkS (sa G') (sb G') (sc G') d (sdt G')) = Ok K.
  move=> w' g' sA; have [[wa' wb' wc' wd'] [e1' e2' e3' e4' e5']] := wfS_dyn w' g'.
  have [d [-> d1 d2]] : exists d, [/\ np_add (sd G') A = Ok d, nr d = spn G' & nc d = smn G'].
    case: sA => -[a1 a2]; first by rewrite /np_add np_op2_same //; eexists.
    by rewrite /np_add /np_op2 a1 a2 !bdim1; eexists.
  rewrite /= mkS_ok /= ?e1' ?e2' ?e3' ?e4' ?e5' ?(wfS_dt w') //; by eexists.
case si: (sSISO G) in hn *; last first.
  by case: sh => [sh|sh|sh]; [apply: dyn => //; left|rewrite si in sh|apply: dyn => //; right].
have [K' [[-> w' ep em et] [g' _ hr he]]] := st_bcastP (nr A) (nc A) w g si (wfS_dt w).
rewrite /= g' ifF; first by apply: dyn => //; left; rewrite /sshape -/(spn K') -/(smn K') ep em.
by apply/negbTE/negP => /sSISOP; rewrite ep em => -[a1 a2]; move: hn; rewrite /shp a1 a2 eqxx.
Qed.

Lemma par_dyn_ok G H : wfS G -> wfS H -> sgain G = false -> sgain H = false ->
  sshape G = sshape H ->
  exists K,
  (do d <- np_add (sd G) (sd H);
   do b <- np_vstack (sb G) (sb H);
   do c <- np_hstack (sc G) (sc H);
   mkS (adiag2 (sa G) (sa H)) b c d None) = Ok K.
Proof.
move=> w w' g g' [ep em].
have [[wa wb wc wd] [e1 e2 e3 e4 e5]] := wfS_dyn w g.
have [[wa' wb' wc' wd'] [e1' e2' e3' e4' e5']] := wfS_dyn w' g'.
have eb : nc (sb G) = nc (sb H) by rewrite e5 e5'.
have ec : nr (sc G) = nr (sc H) by rewrite e4 e4'.
rewrite /np_add np_op2_same //= /np_vstack eb eqxx /= /np_hstack ec eqxx /=.
rewrite mkS_ok /= ?e1 ?e1' ?e2 ?e2' ?e3 ?e3' ?ec ?eb ?e4' ?e5' //; by eexists.
Qed.

Lemma st_add_state_ok lim G H : wfS G -> wfS H -> sdt G = sdt H ->
  [\/ sshape G = sshape H, sSISO G | sSISO H] ->
  ~~ (sSISO G && sSISO H && (sgain G != sgain H)) ->
  exists K, st_add lim.+3 G (OState H) = Ok K.
Proof.
move=> w w' dtE sh hr.
have [l2 El] : exists l2, lim.+2 = l2 by eexists.
rewrite El /= dtE eqxx.
have siE G1 G2 : sSISO G1 -> sSISO G2 -> sshape G1 = sshape G2.
  by move=> /sSISOP[a b] /sSISOP[c d]; rewrite /sshape -/(spn G1) -/(spn G2) -/(smn G1) -/(smn G2) a b c d.
case g: (sgain G) in hr *; case g': (sgain H) in hr * => /=.
- have [d ->] : exists d, np_add (sd G) (sd H) = Ok d.
    case: sh => [[e1 e2]|/sSISOP[p1 m1]|/sSISOP[p1 m1]]; rewrite /np_add /np_op2 -/(spn G) -/(smn G) -/(spn H) -/(smn H).
    + by rewrite [spn G]e1 [smn G]e2 !bdimxx; eexists.
    + by rewrite p1 m1 bdimC bdim1 bdimC bdim1; eexists.
    + by rewrite p1 m1 !bdim1; eexists.
  by rewrite /= mkGain_ok -?dtE ?(wfS_dt w) //; eexists.
- rewrite /to_array g /= -El; apply: (@st_add_arr_ok lim) => //.
    case: sh => [sh |si|si]; [by constructor 1| |by constructor 2].
    by constructor 3; have [p1 m1] := sSISOP _ si; rewrite /shp -/(spn G) -/(smn G) p1 m1.
  rewrite g' /=; apply/negP => /andP[si /eqP[a b]].
  have siG : sSISO G by apply/sSISOP.
  by rewrite si siG in hr.
- rewrite /to_array g' /= -El; apply: (@st_add_arr_ok lim) => //.
    case: sh => [sh |si|si]; [by constructor 1|by constructor 2|].
    by constructor 3; have [p1 m1] := sSISOP _ si; rewrite /shp -/(spn H) -/(smn H) p1 m1.
  rewrite g /=; apply/negP => /andP[si /eqP[a b]].
  have siG : sSISO H by apply/sSISOP.
  by rewrite si siG in hr.
- case si: (sSISO G) in sh *; case si': (sSISO H) in sh * => /=.
  + by apply: par_dyn_ok => //; apply: siE.
  + have [K' [[-> wK ep em et] [gK _ _ _]]] := st_bcastP (spn H) (smn H) w g si (wfS_dt w').
    have sK : sshape K' = sshape H by rewrite /sshape -/(spn K') -/(smn K') ep em.
    have siK : sSISO K' = sSISO H by rewrite /sSISO ep em.
    by rewrite -El /= et eqxx gK g' /= siK eqxx si' sK eqxx /=; apply: par_dyn_ok.
  + have [K' [[-> wK ep em et] [gK _ _ _]]] := st_bcastP (spn G) (smn G) w' g' si' (wfS_dt w').
    have sK : sshape K' = sshape G by rewrite /sshape -/(spn K') -/(smn K') ep em.
    have siK : sSISO K' = sSISO G by rewrite /sSISO ep em.
    by rewrite -El /= et dtE eqxx g gK /= siK eqxx si sK eqxx /=; apply: par_dyn_ok.
  + case: sh => // sh; rewrite sh eqxx; exact: par_dyn_ok.
Qed.

(* ---------------- multiplication ---------------- *)

(* SISO dynamic times matrix *)
Lemma st_siso_matP G A : wfS G -> sgain G = false -> sSISO G -> wfa A ->
  exists K, [/\ st_siso_mat G A = Ok K, wfS K, sshape K = shp A & sdt K = sdt G] /\
   [/\ (sgain K = ~~ aany A), snn K = (if aany A then minn (nr A) (nc A) * snn G else 0)%N,
     (forall (L : fieldType) (f : {rmorphism R -> L}) s, regS f G s -> regS f K s) &
     forall (L : fieldType) (f : {rmorphism R -> L}) s i j, (i < nr A)%N -> (j < nc A)%N ->
      regS f G s -> ev f K s i j = ev f G s 0 0 * f (get A i j)].
Proof.
move=> w g si wA; have [p1 m1] := sSISOP _ si.
have [[wa wb wc wd] [e1 e2 e3 e4 e5]] := wfS_dyn w g.
rewrite /st_siso_mat; case aA: (aany A) => /=; last first.
  rewrite mkGain_ok ?(wfS_dt w) //; eexists; split.
    by split; first reflexivity => //; rewrite // wfS_mkgain ?wfa_mk ?(wfS_dt w).
  split => //; first by move=> L f s _; rewrite regS_n0.
  move=> L f s i j hi hj _; rewrite ev_n0 //= (aany_false wA aA) !get_mk //.
  by rewrite rmorph0 mulr0.
rewrite /np_mul /np_op2 -/(spn G) -/(smn G) p1 m1 !bdim1 /=.
set k := minn _ _; set D := mk _ _ _.
have [da1 da2] := adiag_nseq_dims k (sa G).
have [db1 db2] := adiag_nseq_dims k (sb G).
have [dc1 dc2] := adiag_nseq_dims k (sc G).
rewrite p1 in e4; rewrite m1 in e5.
rewrite e1 in da2; rewrite e2 in db1; rewrite e5 muln1 in db2.
rewrite e4 muln1 in dc1; rewrite e3 in dc2.
have wdiag B : wfa (adiag (nseq k B)) by case: (k) => [|k'] //=; apply: wfa_mk.
have Dmx (L : fieldType) (f : {rmorphism R -> L}) :
    mxof f (nr A * 1) (nc A * 1) D = mxof f (nr A) (nc A) A *t mxof f 1 1 (sd G).
  apply/matrixP => i j; case: (mxtens_indexP i) => i0 i1; case: (mxtens_indexP j) => j0 j1.
  rewrite tensmxE !mxE /= !ord1 /= !muln1 !addn0 get_mk //.
  rewrite rmorphM; congr (f (get _ _ _) * _); exact: bidx_small.
have dK : sSISO G -> ((nc A < nr A)%N -> k = nc A) /\ ((nc A < nr A)%N = false -> k = nr A).
  move=> _; rewrite /k; split => h; first by apply/minn_idPr; apply: ltnW.
  by apply/minn_idPl; rewrite leqNgt h.
have [kc kr] := dK si.
case: ifP => hpm.
- have kE := kc hpm; clear dK kc kr; clearbody k; subst k.
  rewrite mkS_ok; try by rewrite /= ?da1 ?da2 ?db1 ?db2 ?e4 ?e3 ?muln1 ?(wfS_dt w).
  eexists; split.
    split; first reflexivity; rewrite //.
    by apply: wfS_mk; rewrite ?wfa_mk ?wdiag //= ?da1 ?da2 ?db1 ?db2 ?e4 ?e3 ?muln1 ?(wfS_dt w).
  set K0 := St _ _ _ _ _ _.
  have nK : snn K0 = (nc A * snn G)%N by rewrite /snn /= da1.
  have Amx (L : fieldType) (f : {rmorphism R -> L}) :
    mxof f (nc A * snn G) (nc A * snn G) (sa K0) = 1%:M *t mxof f (snn G) (snn G) (sa G).
    by rewrite /= mxof_diag_nseq.
  have rK (L : fieldType) (f : {rmorphism R -> L}) s : regS f G s -> regS f K0 s.
    by move=> r; rewrite /regS nK Amx; apply: regular_tens.
  split => //.
  move=> L f s i j hi hj r.
  have hi' : (i < nr A * 1)%N by rewrite muln1.
  have hj' : (j < nc A * 1)%N by rewrite muln1.
  have EM : evalS f (nr A * 1) (nc A * 1) K0 s = mxof f (nr A) (nc A) A *t evalS f 1 1 G s.
    rewrite /evalS nK Amx Dmx [sb K0]/= [sc K0]/=.
    by rewrite mxof_diag_nseq // mxof_kron //; apply: tf_tens_c.
  rewrite (ev_matrix hi' hj' EM) mxE evalSE [X in X * _]mxE mulrC /= !modn1 !divn1.
  by [].
- have kE := kr hpm; clear dK kc kr; clearbody k; subst k.
  rewrite mkS_ok; try by rewrite /= ?da1 ?da2 ?dc1 ?dc2 ?e2 ?e5 ?muln1 ?(wfS_dt w).
  eexists; split.
    split; first reflexivity; rewrite //.
    by apply: wfS_mk; rewrite ?wfa_mk ?wdiag //= ?da1 ?da2 ?dc1 ?dc2 ?e2 ?e5 ?muln1 ?(wfS_dt w).
  set K0 := St _ _ _ _ _ _.
  have nK : snn K0 = (nr A * snn G)%N by rewrite /snn /= da1.
  have Amx (L : fieldType) (f : {rmorphism R -> L}) :
    mxof f (nr A * snn G) (nr A * snn G) (sa K0) = 1%:M *t mxof f (snn G) (snn G) (sa G).
    by rewrite /= mxof_diag_nseq.
  have rK (L : fieldType) (f : {rmorphism R -> L}) s : regS f G s -> regS f K0 s.
    by move=> r; rewrite /regS nK Amx; apply: regular_tens.
  split => //.
  move=> L f s i j hi hj r.
  have hi' : (i < nr A * 1)%N by rewrite muln1.
  have hj' : (j < nc A * 1)%N by rewrite muln1.
  have EM : evalS f (nr A * 1) (nc A * 1) K0 s = mxof f (nr A) (nc A) A *t evalS f 1 1 G s.
    rewrite /evalS nK Amx Dmx [sb K0]/= [sc K0]/=.
    by rewrite mxof_diag_nseq // mxof_kron //; apply: tf_tens_b.
  rewrite (ev_matrix hi' hj' EM) mxE evalSE [X in X * _]mxE mulrC /= !modn1 !divn1.
  by [].
Qed.


(* what "K is the product of g (p-by-k) and h (k'-by-m)" means: matrix product when the inner
   sizes agree, otherwise scaling by the 1-by-1 factor *)
Definition prodE (L : fieldType) (pg mg ph mh pk mk : nat) (g h k : nat -> nat -> L) : Prop :=
  (mg = ph -> [/\ pk = pg, mk = mh & forall i j, (i < pk)%N -> (j < mk)%N ->
       k i j = \sum_(l < mg) g i l * h l j]) /\
  (mg <> ph ->
   (pg = 1%N /\ mg = 1%N /\ pk = ph /\ mk = mh /\
      forall i j, (i < pk)%N -> (j < mk)%N -> k i j = g 0%N 0%N * h i j) \/
   (ph = 1%N /\ mh = 1%N /\ pk = pg /\ mk = mg /\
      forall i j, (i < pk)%N -> (j < mk)%N -> k i j = g i j * h 0%N 0%N)).

(* K = G * A for an array A *)
Definition mulrE G (A : nat -> nat -> R) (pa ma : nat) K : Prop :=
  [/\ wfS K, sdt K = sdt G,
   (forall (L : fieldType) (f : {rmorphism R -> L}) s, regS f G s -> regS f K s) &
   forall (L : fieldType) (f : {rmorphism R -> L}) s, regS f G s ->
     prodE (spn G) (smn G) pa ma (spn K) (smn K) (ev f G s) (fun i j => f (A i j)) (ev f K s)].
Definition mullE G (A : nat -> nat -> R) (pa ma : nat) K : Prop :=
  [/\ wfS K, sdt K = sdt G,
   (forall (L : fieldType) (f : {rmorphism R -> L}) s, regS f G s -> regS f K s) &
   forall (L : fieldType) (f : {rmorphism R -> L}) s, regS f G s ->
     prodE pa ma (spn G) (smn G) (spn K) (smn K) (fun i j => f (A i j)) (ev f G s) (ev f K s)].

Lemma prod_siso_l (L : fieldType) ph mh pk mk (g h k : nat -> nat -> L) :
  pk = ph -> mk = mh -> (forall i j, (i < pk)%N -> (j < mk)%N -> k i j = g 0%N 0%N * h i j) ->
  prodE 1 1 ph mh pk mk g h k.
Proof.
move=> e1 e2 H; split=> [e|ne]; last by left.
split; rewrite ?e1 // -e => i j hi hj; rewrite big_ord1 H ?e1 -?e //.
by case: i hi.
Qed.

Lemma prod_siso_r (L : fieldType) pg mg pk mk (g h k : nat -> nat -> L) :
  pk = pg -> mk = mg -> (forall i j, (i < pk)%N -> (j < mk)%N -> k i j = g i j * h 0%N 0%N) ->
  prodE pg mg 1 1 pk mk g h k.
Proof.
move=> e1 e2 H; split=> [e|ne]; last by right.
split; rewrite ?e2 // e => i j hi hj; rewrite big_ord1 H ?e2 ?e //.
by case: j hj.
Qed.

Lemma prod_conf (L : fieldType) p k0 m pk mk (g h k : nat -> nat -> L) :
  pk = p -> mk = m -> (forall i j, (i < pk)%N -> (j < mk)%N -> k i j = \sum_(l < k0) g i l * h l j) ->
  prodE p k0 k0 m pk mk g h k.
Proof. by move=> e1 e2 H; split. Qed.

Lemma get_mulE (L : fieldType) (f : {rmorphism R -> L}) A (B : arr R) i j :
  (i < nr A)%N -> (j < nc B)%N ->
  f (get (amul A B) i j) = \sum_(l < nc A) f (get A i l) * f (get B l j).
Proof.
by move=> hi hj; rewrite get_mk // sumNE rmorph_sum; apply: eq_bigr => l _; rewrite rmorphM.
Qed.

Lemma st_matmul_scalP G x k0 K : wfS G -> st_matmul_num G (NScal x) k0 = Ok K ->
  mulrE G (fun _ _ => x) 1 1 K.
Proof.
move=> w; rewrite /st_matmul_num; case: ifP => // _; case g: (sgain G) => //.
have [[wa wb wc wd] [e1 e2 e3 e4 e5]] := wfS_dyn w g.
have gen : mkS (sa G) (ascaler (sb G) x) (sc G) (ascaler (sd G) x) (sdt G) = Ok K ->
   mulrE G (fun _ _ => x) 1 1 K.
  rewrite mkS_ok; try by rewrite /= ?e1 ?e2 ?e3 ?e4 ?e5 ?(wfS_dt w).
  case=> <-; split=> //.
  - by apply: wfS_mk; rewrite ?wfa_mk //= ?e1 ?e2 ?e3 ?e4 ?e5 ?(wfS_dt w).
  - move=> L f s r; apply: prod_siso_r => // i j hi hj; apply: ev_scaleb => //=.
      by rewrite get_mk.
    by move=> k hk; rewrite get_mk ?e5 ?e2.
case: ifP => si //; case: ifP => // /eqP x0.
case/mkGain_inv => -> dtk; have [p1 m1] := sSISOP _ si; split=> //.
- by rewrite wfS_mkgain ?wfa_mk.
- by move=> L f s _; rewrite regS_n0.
- move=> L f s r; rewrite p1 m1; apply: prod_siso_r => // i j hi hj.
  by rewrite ev_n0 //= get_mk // x0 rmorph0 mulr0.
Qed.

Lemma st_matmul_arrP G A k0 K : wfS G -> wfa A -> st_matmul_num G (NArr A) k0 = Ok K ->
  mulrE G (get A) (nr A) (nc A) K.
Proof.
move=> w wA; rewrite /st_matmul_num; case: ifP => // _; case g: (sgain G).
  case: ifP => // /eqP e /mkGain_inv[-> dtk]; split=> //.
  - by rewrite wfS_mkgain ?wfa_mk.
  - by move=> L f s _; rewrite regS_n0.
  - move=> L f s r; rewrite -e; apply: prod_conf => // i j hi hj.
    rewrite ev_n0 //= get_mulE //; apply: eq_bigr => l _; rewrite (ev_gain _ _ _ _ w g) //.
have [[wa wb wc wd] [e1 e2 e3 e4 e5]] := wfS_dyn w g.
case: ifP => si.
  have [K' [[-> w' [sp sm] dt'] [_ _ r' h']]] := st_siso_matP w g si wA; case=> <-.
  have [p1 m1] := sSISOP _ si; split=> // L f s r; rewrite p1 m1; apply: prod_siso_l => //.
  by move=> i j; rewrite /spn /smn sp sm => hi hj; apply: h'.
rewrite /np_matmul; case: ifP => // /eqP eb /=; case: ifP => // /eqP ed /=.
rewrite mkS_ok; try by rewrite /= ?e1 ?e2 ?e3 ?e4 ?e5 ?(wfS_dt w).
case=> <-; split=> //.
- by apply: wfS_mk; rewrite ?wfa_mk //= ?e1 ?e2 ?e3 ?e4 ?e5 ?(wfS_dt w).
- move=> L f s r; rewrite -ed; apply: prod_conf => // i j hi hj.
  set K0 := St _ _ _ _ _ _.
  have EM : evalS f (spn G) (nc A) K0 s = evalS f (spn G) (smn G) G s *m mxof f (smn G) (nc A) A.
    rewrite /evalS -tf_mulr [snn K0]/= -/(snn G) [sa K0]/= [sb K0]/= [sc K0]/= [sd K0]/=.
    by congr (tfmx _ _ _ _ _); apply: mxof_mul.
  rewrite (ev_matrix hi hj EM) mxE; apply: eq_bigr => l _.
  by rewrite evalSE [X in _ * X]mxE.
Qed.

Lemma st_rmatmul_scalP G x K : wfS G -> st_rmatmul G (OScal x) = Ok K ->
  mullE G (fun _ _ => x) 1 1 K.
Proof.
move=> w; rewrite /st_rmatmul /=; case g: (sgain G) => //.
  case/mkGain_inv => -> dtk; split=> //.
  - by rewrite wfS_mkgain ?wfa_mk.
  - by move=> L f s _; rewrite regS_n0.
  - move=> L f s r; apply: prod_siso_l => // i j hi hj.
    by rewrite ev_n0 //= get_mk // (ev_gain _ _ _ _ w g) // rmorphM mulrC.
have [[wa wb wc wd] [e1 e2 e3 e4 e5]] := wfS_dyn w g.
have gen : mkS (sa G) (sb G) (ascaler (sc G) x) (ascaler (sd G) x) (sdt G) = Ok K ->
   mullE G (fun _ _ => x) 1 1 K.
  rewrite mkS_ok; try by rewrite /= ?e1 ?e2 ?e3 ?e4 ?e5 ?(wfS_dt w).
  case=> <-; split=> //.
  - by apply: wfS_mk; rewrite ?wfa_mk //= ?e1 ?e2 ?e3 ?e4 ?e5 ?(wfS_dt w).
  - move=> L f s r; apply: prod_siso_l => // i j hi hj; rewrite mulrC; apply: ev_scalec => //=.
      by rewrite get_mk.
    by move=> k hk; rewrite get_mk ?e4 ?e3.
case: ifP => si //; case: ifP => // /eqP x0.
case/mkGain_inv => -> dtk; have [p1 m1] := sSISOP _ si; split=> //.
- by rewrite wfS_mkgain ?wfa_mk.
- by move=> L f s _; rewrite regS_n0.
- move=> L f s r; rewrite p1 m1; apply: prod_siso_l => // i j hi hj.
  by rewrite ev_n0 //= get_mk // x0 rmorph0 mul0r.
Qed.


Lemma st_rmatmul_arrP G A K : wfS G -> wfa A -> st_rmatmul G (OArr2 A) = Ok K ->
  mullE G (get A) (nr A) (nc A) K.
Proof.
move=> w wA; rewrite /st_rmatmul /=; case: ifP => // hsh /=; case g: (sgain G).
  case: ifP => [/eqP e|/eqP ne] /=.
    case/mkGain_inv => -> dtk; split=> //.
    + by rewrite wfS_mkgain ?wfa_mk.
    + by move=> L f s _; rewrite regS_n0.
    + move=> L f s r; rewrite e; apply: prod_conf => // i j hi hj.
      rewrite ev_n0 //= get_mulE // e; apply: eq_bigr => l _; rewrite (ev_gain _ _ _ _ w g) //.
  have si : sSISO G by case/orP: hsh => // /eqP e; case: ne; rewrite -e.
  have [p1 m1] := sSISOP _ si.
  case E: (np_mul _ _) => [d|] //= /mkGain_inv[-> dtk].
  have [wd b1 b2 h] := np_op2_ok E.
  rewrite -/(spn G) p1 bdimC bdim1 in b1; rewrite -/(smn G) m1 bdimC bdim1 in b2.
  case: b1 b2 => b1 [b2]; split=> //.
  - by rewrite wfS_mkgain.
  - by move=> L f s _; rewrite regS_n0.
  - move=> L f s r; rewrite p1 m1; apply: prod_siso_r => // i j hi hj.
    rewrite ev_n0 //= h // -/(spn G) -/(smn G) p1 m1 !bidx1E rmorphM mulrC.
    by rewrite (ev_gain _ _ _ _ w g) !bidx_small ?b1 ?b2.
have [[wa wb wc wd] [e1 e2 e3 e4 e5]] := wfS_dyn w g.
case: ifP => si.
  have [K' [[-> w' [sp sm] dt'] [_ _ r' h']]] := st_siso_matP w g si wA; case=> <-.
  have [p1 m1] := sSISOP _ si; split=> // L f s r; rewrite p1 m1; apply: prod_siso_r => //.
  by move=> i j; rewrite /spn /smn sp sm => hi hj; rewrite mulrC; apply: h'.
rewrite /np_matmul; case: ifP => // /eqP eb /=; case: ifP => // /eqP ed /=.
rewrite mkS_ok; try by rewrite /= ?e1 ?e2 ?e3 ?e4 ?e5 ?(wfS_dt w).
case=> <-; split=> //.
- by apply: wfS_mk; rewrite ?wfa_mk //= ?e1 ?e2 ?e3 ?e4 ?e5 ?(wfS_dt w).
- move=> L f s r; rewrite ed; apply: prod_conf => // i j hi hj.
  set K0 := St _ _ _ _ _ _.
  have EM : evalS f (nr A) (smn G) K0 s = mxof f (nr A) (spn G) A *m evalS f (spn G) (smn G) G s.
    rewrite /evalS -tf_mull [snn K0]/= -/(snn G) [sa K0]/= [sb K0]/= [sc K0]/= [sd K0]/=.
    by congr (tfmx _ _ _ _ _); apply: mxof_mul.
  rewrite (ev_matrix hi hj EM) mxE; apply: eq_bigr => l _.
  by rewrite evalSE [X in X * _]mxE.
Qed.

(* series connection of dynamic models *)
Definition mulSE G H K : Prop :=
  [/\ wfS K, sdt K = sdt G,
   (forall (L : fieldType) (f : {rmorphism R -> L}) s, regS f G s -> regS f H s -> regS f K s) &
   forall (L : fieldType) (f : {rmorphism R -> L}) s, regS f G s -> regS f H s ->
     prodE (spn G) (smn G) (spn H) (smn H) (spn K) (smn K) (ev f G s) (ev f H s) (ev f K s)].

Lemma st_seriesP G H K : wfS G -> wfS H -> sgain G = false -> sgain H = false ->
  st_series G H = Ok K -> mulSE G H K.
Proof.
move=> w w' g g'; have [[wa wb wc wd] [e1 e2 e3 e4 e5]] := wfS_dyn w g.
have [[wa' wb' wc' wd'] [e1' e2' e3' e4' e5']] := wfS_dyn w' g'.
rewrite /st_series /np_matmul; case: ifP => // /eqP h1 /=; case: ifP => // /eqP h2 /=.
rewrite /np_vstack /=; case: ifP => // /eqP h3 /=; case: ifP => // /eqP h4 /=.
rewrite /np_hstack /=; case: ifP => // /eqP h5 /=; case: ifP => // /eqP h6 /=.
rewrite mkS_ok; try by rewrite /= ?e1 ?e1' ?e2 ?e2' ?e3 ?e3' ?e4 ?e4' ?e5 ?e5' ?(wfS_dt w).
case=> <-; set K0 := St _ _ _ _ _ _.
have Amx (L : fieldType) (f : {rmorphism R -> L}) : mxof f (snn G + snn H) (snn G + snn H) (sa K0) =
   block_mx (mxof f (snn G) (snn G) (sa G))
     (mxof f (snn G) (smn G) (sb G) *m mxof f (smn G) (snn H) (sc H)) 0 (mxof f (snn H) (snn H) (sa H)).
  rewrite [sa K0]/= mxof_block //= ?e1 ?e1' //; congr block_mx; first by rewrite (@mxof_mul _ _ _ _ (smn G)).
  by rewrite -/(snn H) mxof_zeros.
have rK (L : fieldType) (f : {rmorphism R -> L}) s : regS f K0 s = regS f G s && regS f H s.
  by rewrite /regS (_ : snn K0 = (snn G + snn H)%N) // Amx regular_ublock.
split=> //.
- by apply: wfS_mk; rewrite ?wfa_mk //= ?e1 ?e1' ?e2 ?e2' ?e3 ?e3' ?e4 ?e4' ?e5 ?e5' ?(wfS_dt w).
- by move=> L f s r1 r2; rewrite rK r1.
move=> L f s r1 r2; rewrite -[spn H]/(nr (sd H)) -h6; apply: prod_conf => // i j hi hj.
have EM : evalS f (spn G) (smn H) K0 s =
          evalS f (spn G) (smn G) G s *m evalS f (smn G) (smn H) H s.
  rewrite /evalS (_ : snn K0 = (snn G + snn H)%N) // Amx.
  rewrite [sb K0]/= [sc K0]/= [sd K0]/= mxof_vcat // mxof_hcat //.
  rewrite (@mxof_mul _ _ _ _ (smn G)) // (@mxof_mul _ _ _ _ (smn G)) // (@mxof_mul _ _ _ _ (smn G)) //.
  exact: tf_series.
by rewrite (ev_matrix hi hj EM) mxE; apply: eq_bigr => l _; rewrite !evalSE.
Qed.

Lemma wfa_eye n : wfa (@aeye R n). Proof. exact: wfa_mk. Qed.

(* SISO dynamic times the identity, an auxiliary of the nonconforming product *)
Lemma mul_eyeP lim G k G' : wfS G -> sgain G = false -> sSISO G ->
  st_matmul lim G (OArr2 (aeye k)) = Ok G' ->
  [/\ wfS G', sdt G' = sdt G & sshape G' = (k, k)] /\
  forall (L : fieldType) (f : {rmorphism R -> L}) s, regS f G s ->
    regS f G' s /\
    forall i j, (i < k)%N -> (j < k)%N -> ev f G' s i j = ev f G s 0%N 0%N * (i == j)%:R.
Proof.
case: lim => // lim w g si; rewrite /= /st_matmul_num /=; case: ifP => // _.
rewrite g si; have [K' [[-> w' sh dt'] [g' _ r' h']]] := st_siso_matP w g si (wfa_eye k); case=> <-.
split=> // L f s r; split; first exact: r'.
by move=> i j hi hj; rewrite h' // get_mk // rmorph_nat.
Qed.

Lemma sum_eyer (L : fieldType) k (g : nat -> L) c j : (j < k)%N ->
  \sum_(l < k) g l * (c * (val l == j)%:R) = g j * c.
Proof.
move=> hj; rewrite (bigD1 (Ordinal hj)) //= eqxx mulr1 big1 ?addr0 // => l.
by rewrite -val_eqE /= => /negbTE ->; rewrite !mulr0.
Qed.

Lemma sum_eyel (L : fieldType) k (g : nat -> L) c i : (i < k)%N ->
  \sum_(l < k) c * (i == val l)%:R * g l = c * g i.
Proof.
move=> hi; rewrite (bigD1 (Ordinal hi)) //= eqxx mulr1 big1 ?addr0 // => l.
by rewrite -val_eqE /= eq_sym => /negbTE ->; rewrite mulr0 mul0r.
Qed.

(* (p-by-m) times the SISO model: through m copies, or through p copies *)
Lemma eye_right G H G' lim K : wfS G -> wfS H -> sgain H = false -> sSISO H ->
  st_matmul lim H (OArr2 (aeye (smn G))) = Ok G' -> sdt G = sdt H ->
  mulSE G G' K ->
  [/\ wfS K, sdt K = sdt G, spn K = spn G, smn K = smn G &
   forall (L : fieldType) (f : {rmorphism R -> L}) s, regS f G s -> regS f H s ->
     regS f K s /\ forall i j, (i < spn K)%N -> (j < smn K)%N -> ev f K s i j = ev f G s i j * ev f H s 0%N 0%N].
Proof.
move=> w w' g' si E dtE [wK tK rK hK].
have [[wG' tG' shG'] hG'] := mul_eyeP w' g' si E.
have sp : spn G' = smn G by case: shG'.
have sm : smn G' = smn G by case: shG'.
have dims : spn K = spn G /\ smn K = smn G.
  have [x /andP[r1 r2]] := reg_exists G H.
  have [r3 _] := hG' _ _ _ r2.
  by have [c1 _] := hK _ _ _ r1 r3; have [-> ->] := c1 (esym sp); rewrite sm.
have [dp dm] := dims; split=> // L f s r1 r2; have [r3 hv] := hG' _ _ _ r2.
split; first exact: rK.
have [c1 _] := hK _ _ _ r1 r3; have [_ _ h] := c1 (esym sp).
move=> i j hi hj; rewrite h // -(@sum_eyer _ (smn G) (fun l => ev f G s i l)); last by rewrite -dm.
by apply: eq_bigr => l _; rewrite hv //; rewrite -dm.
Qed.

Lemma eye_left G H G' lim K : wfS G -> wfS H -> sgain H = false -> sSISO H ->
  st_matmul lim H (OArr2 (aeye (spn G))) = Ok G' -> sdt G = sdt H ->
  mulSE G' G K ->
  [/\ wfS K, sdt K = sdt G, spn K = spn G, smn K = smn G &
   forall (L : fieldType) (f : {rmorphism R -> L}) s, regS f G s -> regS f H s ->
     regS f K s /\ forall i j, (i < spn K)%N -> (j < smn K)%N -> ev f K s i j = ev f H s 0%N 0%N * ev f G s i j].
Proof.
move=> w w' g' si E dtE [wK tK rK hK].
have [[wG' tG' shG'] hG'] := mul_eyeP w' g' si E.
have sp : spn G' = spn G by case: shG'.
have sm : smn G' = spn G by case: shG'.
have dims : spn K = spn G /\ smn K = smn G.
  have [x /andP[r1 r2]] := reg_exists G H.
  have [r3 _] := hG' _ _ _ r2.
  by have [c1 _] := hK _ _ _ r3 r1; have [-> ->] := c1 sm; rewrite sp.
have [dp dm] := dims; split=> //; first by rewrite tK tG'.
move=> L f s r1 r2; have [r3 hv] := hG' _ _ _ r2.
split; first exact: rK.
have [c1 _] := hK _ _ _ r3 r1; have [_ _ h] := c1 sm.
move=> i j hi hj; rewrite h // -(@sum_eyel _ (spn G) (fun l => ev f G s l j)); last by rewrite -dp.
rewrite sm; apply: eq_bigr => l _; rewrite hv //; by rewrite -dp.
Qed.

Lemma st_matmulP lim G H K : wfS G -> wfS H -> st_matmul lim G (OState H) = Ok K ->
  sdt G = sdt H /\ mulSE G H K.
Proof.
elim: lim G H K => // lim IH G H K w w' /=; case: ifP => // /eqP dtE; case: ifP => [/andP[g g']|gg].
  rewrite /np_matmul; case: ifP => // /eqP e /= /mkGain_inv[-> dtk]; split=> //; split=> //.
  - by rewrite wfS_mkgain ?wfa_mk.
  - by move=> L f s _ _; rewrite regS_n0.
  - move=> L f s r r'; rewrite -[spn H]/(nr (sd H)) -e; apply: prod_conf => // i j hi hj.
    rewrite ev_n0 //= get_mulE //; apply: eq_bigr => l _.
    by rewrite (ev_gain _ _ _ _ w g) (ev_gain _ _ _ _ w' g').
case: ifP => g.
  case: ifP => si.
    move/(st_rmatmul_scalP w') => [wK tK rK hK]; split=> //; split=> //; first by rewrite tK.
      by move=> L f s _ r; apply: rK.
    have [p1 m1] := sSISOP _ si; move=> L f s _ r; rewrite p1 m1.
    have [c1 c2] := hK _ f _ r.
    split=> e; last have := c2 e.
      have [a1 a2 h] := c1 e; split=> // i j hi hj.
      rewrite h //; apply: eq_bigr => l _; rewrite ord1 (ev_gain _ _ _ _ w g).
      by move: hi; rewrite a1; case: i.
    case=> -[a1 [a2 [a3 [a4 h]]]]; last by case: e.
    by left; do 4!split=> //; move=> i j hi hj; rewrite h // (ev_gain _ _ _ _ w g).
  move/(st_rmatmul_arrP w' (wfS_d w)) => [wK tK rK hK]; split=> //; split=> //; first by rewrite tK.
    by move=> L f s _ r; apply: rK.
  move=> L f s _ r; have [c1 c2] := hK _ f _ r; split=> e.
    have [a1 a2 h] := c1 e; split=> // i j hi hj; rewrite h //; apply: eq_bigr => l _.
    by rewrite (ev_gain _ _ _ _ w g).
  case: (c2 e) => -[a1 [a2 [a3 [a4 h]]]]; [left|right]; do 4!split=> //; move=> i j hi hj;
    by rewrite h // (ev_gain _ _ _ _ w g).
case: ifP => g'.
  case: lim IH => [|lim] IH; first by case: ifP.
  case: ifP => si.
    rewrite /= => /(st_matmul_scalP w) [wK tK rK hK]; split=> //; split=> //.
      by move=> L f s r _; apply: rK.
    have [p1 m1] := sSISOP _ si; move=> L f s r _; rewrite p1 m1.
    have [c1 c2] := hK _ f _ r.
    split=> e; [have [a1 a2 h] := c1 e | have := c2 e].
      split=> // i j hi hj; rewrite h //; apply: eq_bigr => l _.
      have := ltn_ord l; rewrite [X in (_ < X)%N]e ltnS leqn0 => /eqP ->.
      by rewrite (ev_gain _ _ _ _ w' g'); move: hj; rewrite a2; case: j.
    case=> -[a1 [a2 [a3 [a4 h]]]]; first by case: e.
    by right; do 4!split=> //; move=> i j hi hj; rewrite h // (ev_gain _ _ _ _ w' g').
  rewrite /= => /(st_matmul_arrP w (wfS_d w')) [wK tK rK hK]; split=> //; split=> //.
    by move=> L f s r _; apply: rK.
  move=> L f s r _; have [c1 c2] := hK _ f _ r; split=> e.
    have [a1 a2 h] := c1 e; split=> // i j hi hj; rewrite h //; apply: eq_bigr => l _.
    by rewrite (ev_gain _ _ _ _ w' g').
  case: (c2 e) => -[a1 [a2 [a3 [a4 h]]]]; [left|right]; do 4!split=> //; move=> i j hi hj;
    by rewrite h // (ev_gain _ _ _ _ w' g').
case: ifP => [/andP[ns /eqP hmp]|_]; last first.
  by case: ifP => // _ /(st_seriesP w w' g g').
case: ifP => si; last first.
  have si' : sSISO H by move: ns; rewrite si; case: (sSISO H).
  have [p1 m1] := sSISOP _ si'; rewrite p1 in hmp.
  case: ifP => [/eqP e|_]; first by case: hmp.
  case: ifP => [/eqP e|_].
    move/(IH _ _ _ w' w) => [_ [wK tK rK hK]]; split=> //; split=> //; first by rewrite tK.
      by move=> L f s r1 r2; apply: rK.
    move=> L f s r1 r2; rewrite p1 m1.
    have [c1 _] := hK _ f _ r2 r1; rewrite m1 e p1 in c1; have [a1 a2 h] := c1 erefl.
    apply: prod_siso_r; [by rewrite e a1|by []|move=> i j hi hj].
    by rewrite h // big_ord1 mulrC; move: hi; rewrite a1; case: i.
  case: ifP => hle.
    rewrite (minn_idPr hle); case E: (st_matmul _ _ _) => [H'|] //= /IH.
    have [[wH' tH' _] _] := mul_eyeP w' g' si' E.
    case=> // _ /(eye_right w w' g' si' E dtE)[wK tK dp dm h]; split=> //; split=> //.
      by move=> L f s r1 r2; case: (h _ _ _ r1 r2).
    move=> L f s r1 r2; rewrite p1 m1; apply: prod_siso_r => //.
    by case: (h _ _ _ r1 r2).
  have hle' : (spn G <= smn G)%N by rewrite leqNgt ltnNge -ltnNge; apply/negP => /ltnW; rewrite hle.
  rewrite (minn_idPl hle'); case E: (st_matmul _ _ _) => [H'|] //= /IH.
  have [[wH' tH' _] _] := mul_eyeP w' g' si' E.
  case=> // _ /(eye_left w w' g' si' E dtE)[wK tK dp dm h]; split=> //; split=> //.
    by move=> L f s r1 r2; case: (h _ _ _ r1 r2).
  move=> L f s r1 r2; rewrite p1 m1; apply: prod_siso_r => // i j hi hj.
  by rewrite mulrC; case: (h _ _ _ r1 r2) => _ ->.
have [p1 m1] := sSISOP _ si; rewrite m1 in hmp.
case: ifP => [/eqP e|_].
  move/(IH _ _ _ w' w) => [_ [wK tK rK hK]]; split=> //; split=> //; first by rewrite tK.
    by move=> L f s r1 r2; apply: rK.
  move=> L f s r1 r2; rewrite p1 m1.
  have [c1 _] := hK _ f _ r2 r1; rewrite m1 e p1 in c1; have [a1 a2 h] := c1 erefl.
  apply: prod_siso_l; [by []|by rewrite a2 e|move=> i j hi hj].
  by rewrite h // big_ord1 mulrC; move: hj; rewrite a2; case: j.
case: ifP => [/eqP e|_]; first by case: hmp.
case: ifP => hle.
  rewrite (minn_idPr hle); case E: (st_matmul _ _ _) => [G'|] //= /IH.
  have [[wG' tG' _] _] := mul_eyeP w g si E.
  case=> // _ /(eye_right w' w g si E (esym dtE))[wK tK dp dm h]; split=> //; split=> //; first by rewrite tK.
    by move=> L f s r1 r2; case: (h _ _ _ r2 r1).
  move=> L f s r1 r2; rewrite p1 m1; apply: prod_siso_l => // i j hi hj.
  by rewrite mulrC; case: (h _ _ _ r2 r1) => _ ->.
have hle' : (spn H <= smn H)%N by rewrite leqNgt ltnNge -ltnNge; apply/negP => /ltnW; rewrite hle.
rewrite (minn_idPl hle'); case E: (st_matmul _ _ _) => [G'|] //= /IH.
have [[wG' tG' _] _] := mul_eyeP w g si E.
case=> // _ /(eye_left w' w g si E (esym dtE))[wK tK dp dm h]; split=> //; split=> //; first by rewrite tK.
  by move=> L f s r1 r2; case: (h _ _ _ r2 r1).
move=> L f s r1 r2; rewrite p1 m1; apply: prod_siso_l => // i j hi hj.
by case: (h _ _ _ r2 r1) => _ ->.
Qed.



(* ---------------- success of the multiplication ---------------- *)
Lemma st_series_ok G H : wfS G -> wfS H -> sgain G = false -> sgain H = false ->
  smn G = spn H -> exists K, st_series G H = Ok K.
Proof.
move=> w w' g g' e; have [[wa wb wc wd] [e1 e2 e3 e4 e5]] := wfS_dyn w g.
have [[wa' wb' wc' wd'] [e1' e2' e3' e4' e5']] := wfS_dyn w' g'.
have [h1 h2] : nc (sb G) == nr (sc H) /\ nc (sb G) == nr (sd H) by split; apply/eqP; rewrite e5 // e4'.
have [h3 h4] : nc (sd G) == nr (sc H) /\ nc (sd G) == nr (sd H) by split; apply/eqP; rewrite ?e4'.
have h5 : nc (sd H) == nc (sb H) by apply/eqP; rewrite e5'.
have h6 : nr (sc G) == nr (sd G) by apply/eqP; rewrite e4.
rewrite /st_series /np_matmul h1 h2 /= /np_vstack /= h5 h3 /= /np_hstack /= h6 h4 /=.
rewrite mkS_ok; first by eexists.
all: by rewrite /= ?e1 ?e1' ?e2 ?e2' ?e3 ?e3' ?e4 ?e4' ?e5 ?e5' ?(wfS_dt w).
Qed.

Lemma st_matmul_num_ok G A : wfS G -> sgain G = false -> wfa A ->
  smn G = nr A \/ sSISO G -> exists K, st_matmul_num G (NArr A) (Some (nr A)) = Ok K.
Proof.
move=> w g wA h; rewrite /st_matmul_num g ifT; last by case: h => ->; rewrite ?eqxx ?orbT.
case: ifP => si; first by have [K [[-> _ _ _] _]] := st_siso_matP w g si wA; eexists.
case: h => [e|]; last by rewrite si.
have [[wa wb wc wd] [e1 e2 e3 e4 e5]] := wfS_dyn w g.
have [h1 h2] : nc (sb G) == nr A /\ nc (sd G) == nr A by split; apply/eqP; rewrite -e // e5.
rewrite /np_matmul h1 h2 /= mkS_ok; first by eexists.
all: by rewrite /= ?e1 ?e2 ?e3 ?e4 ?e5 ?(wfS_dt w).
Qed.

Lemma st_rmatmul_arr_ok G A : wfS G -> sgain G = false -> wfa A ->
  spn G = nc A \/ sSISO G -> exists K, st_rmatmul G (OArr2 A) = Ok K.
Proof.
move=> w g wA h; rewrite /st_rmatmul /= g ifT; last by case: h => ->; rewrite ?eqxx ?orbT.
rewrite /=; case: ifP => si; first by have [K [[-> _ _ _] _]] := st_siso_matP w g si wA; eexists.
case: h => [e|]; last by rewrite si.
have [[wa wb wc wd] [e1 e2 e3 e4 e5]] := wfS_dyn w g.
have [h1 h2] : nc A == nr (sc G) /\ nc A == nr (sd G) by split; apply/eqP; rewrite -e // e4.
rewrite /np_matmul h1 h2 /= mkS_ok; first by eexists.
all: by rewrite /= ?e1 ?e2 ?e3 ?e4 ?e5 ?(wfS_dt w).
Qed.

Lemma st_matmul_scal_ok G x : wfS G -> sgain G = false ->
  exists K, st_matmul_num G (NScal x) None = Ok K.
Proof.
move=> w g; rewrite /st_matmul_num g; have [[wa wb wc wd] [e1 e2 e3 e4 e5]] := wfS_dyn w g.
have [K ->] : exists K, mkS (sa G) (ascaler (sb G) x) (sc G) (ascaler (sd G) x) (sdt G) = Ok K.
  by rewrite mkS_ok /= ?e1 ?e2 ?e3 ?e4 ?e5 ?(wfS_dt w) //; eexists.
by rewrite mkGain_ok ?(wfS_dt w) //; case: ifP => _; [case: ifP => _|]; eexists.
Qed.

Lemma st_rmatmul_scal_ok G x : wfS G -> exists K, st_rmatmul G (OScal x) = Ok K.
Proof.
move=> w; rewrite /st_rmatmul /=; case g: (sgain G).
  by rewrite mkGain_ok ?(wfS_dt w) //; eexists.
have [[wa wb wc wd] [e1 e2 e3 e4 e5]] := wfS_dyn w g.
have [K ->] : exists K, mkS (sa G) (sb G) (ascaler (sc G) x) (ascaler (sd G) x) (sdt G) = Ok K.
  by rewrite mkS_ok /= ?e1 ?e2 ?e3 ?e4 ?e5 ?(wfS_dt w) //; eexists.
by rewrite mkGain_ok ?(wfS_dt w) //; case: ifP => _; [case: ifP => _|]; eexists.
Qed.

Lemma st_matmul_eye_ok lim G k : wfS G -> sgain G = false -> sSISO G ->
  exists K, st_matmul lim.+1 G (OArr2 (aeye k)) = Ok K.
Proof. by move=> w g si; apply: (@st_matmul_num_ok G (aeye k)); rewrite ?wfa_eye //; right. Qed.

(* conforming product of a dynamic model with anything *)
Lemma st_matmul_conf_ok lim G H : wfS G -> wfS H -> sdt G = sdt H -> smn G = spn H ->
  exists K, st_matmul lim.+2 G (OState H) = Ok K.
Proof.
move=> w w' dtE e; have [l1 El] : exists l, lim.+1 = l by eexists.
rewrite El /= dtE eqxx; case g: (sgain G); case g': (sgain H) => /=.
- rewrite /np_matmul -/(smn G) e eqxx /= mkGain_ok ?(wfS_dt w') //; by eexists.
- case: ifP => si; first exact: st_rmatmul_scal_ok.
  by apply: st_rmatmul_arr_ok => //; [apply: wfS_d|left].
- rewrite -El; case: ifP => si; first exact: st_matmul_scal_ok.
  by apply: (@st_matmul_num_ok G (sd H)) => //; [apply: wfS_d|left].
- by rewrite e eqxx /= !andbF /=; apply: st_series_ok.
Qed.

Lemma st_matmul_ok lim G H : wfS G -> wfS H -> sdt G = sdt H ->
  smn G = spn H \/ ((sSISO G || sSISO H) && ~~ (sgain G && sgain H)) ->
  exists K, st_matmul lim.+3 G (OState H) = Ok K.
Proof.
move=> w w' dtE [e|/andP[ss gg]]; first exact: st_matmul_conf_ok.
have [e|ne] := eqVneq (smn G) (spn H); first exact: st_matmul_conf_ok.
have [l2 El] : exists l, lim.+2 = l by eexists.
rewrite El /= dtE eqxx (negbTE gg).
case g: (sgain G) in gg *.
  rewrite /= in gg; case: ifP => si; first exact: st_rmatmul_scal_ok.
  rewrite si /= in ss; apply: st_rmatmul_arr_ok => //; [exact/negbTE|exact: wfS_d|by right].
case g': (sgain H) => /=.
  rewrite -El; case: ifP => si; first exact: st_matmul_scal_ok.
  rewrite si orbF in ss; apply: (@st_matmul_num_ok G (sd H)) => //; [exact: wfS_d|by right].
rewrite ne andbT; case si: (sSISO G) in ss *; case si': (sSISO H) in ss * => //=.
- by case/negP: ne; have [_ ->] := sSISOP _ si; have [-> _] := sSISOP _ si'.
- have [p1 m1] := sSISOP _ si; rewrite m1 in ne.
  case: ifP => [/eqP m1'|nm].
    by rewrite -El; apply: st_matmul_conf_ok => //; rewrite m1' p1.
  rewrite eq_sym (negbTE ne) -El.
  have [G' E] := st_matmul_eye_ok lim.+1 (minn (spn H) (smn H)) w g si; rewrite E /=.
  have [[wG' tG' [sp sm]] _] := mul_eyeP w g si E.
  case: ifP => hle; apply: (@st_matmul_conf_ok lim) => //; rewrite ?tG' //.
    by rewrite /spn sp (minn_idPr hle).
  rewrite /smn sm; apply/minn_idPl; rewrite leqNgt; apply/negP => /ltnW.
  by rewrite hle.
- have [p1 m1] := sSISOP _ si'; rewrite p1 in ne.
  rewrite (negbTE ne); case: ifP => [/eqP m1'|nm].
    by rewrite -El; apply: st_matmul_conf_ok => //; rewrite m1' m1.
  rewrite -El.
  have [G' E] := st_matmul_eye_ok lim.+1 (minn (spn G) (smn G)) w' g' si'; rewrite E /=.
  have [[wG' tG' [sp sm]] _] := mul_eyeP w' g' si' E.
  case: ifP => hle; apply: (@st_matmul_conf_ok lim) => //; rewrite ?tG' //.
    by rewrite /spn sp (minn_idPr hle).
  rewrite /smn sm; apply/minn_idPl; rewrite leqNgt; apply/negP => /ltnW.
  by rewrite hle.
Qed.

(* ---------------- errors ---------------- *)
Lemma st_add_dt lim G H : sdt G <> sdt H -> st_add lim.+1 G (OState H) = Err ValueError.
Proof. by move=> ne /=; case: eqP. Qed.
Lemma st_matmul_dt lim G H : sdt G <> sdt H -> st_matmul lim.+1 G (OState H) = Err ValueError.
Proof. by move=> ne /=; case: eqP. Qed.

Lemma st_matmul_shape lim G H : wfS G -> wfS H -> smn G <> spn H -> sSISO G = false -> sSISO H = false ->
  st_matmul lim.+2 G (OState H) = Err ValueError \/ st_matmul lim.+2 G (OState H) = Err TypeError.
Proof.
move=> w w' ne si si' /=; case: ifP => // _; last by left.
case g: (sgain G); case g': (sgain H) => /=.
- by rewrite /np_matmul ifF; [left|apply/eqP].
- rewrite si /st_rmatmul /= (_ : (spn H == nc (sd G)) = false) ?si' /=; first by left.
  by apply/eqP => e; apply: ne.
- rewrite si' /= /st_matmul_num (_ : (smn G == nr (sd H)) = false) ?si /=; first by left.
  exact/eqP.
- by rewrite si si' /= ifF; [left|apply/negbTE; rewrite negbK; apply/eqP].
Qed.

(* ---------------- indexing ---------------- *)
Lemma st_getitemP G rs cs K : wfS G -> st_getitem G rs cs = Ok K ->
  [/\ wfS K, spn K = size rs, smn K = size cs, sdt K = sdt G & sgain K = sgain G] /\
  forall (L : fieldType) (f : {rmorphism R -> L}) s,
   regS f K s = regS f G s /\
   forall i j, (i < size rs)%N -> (j < size cs)%N ->
     ev f K s i j = ev f G s (nth 0%N rs i) (nth 0%N cs j).
Proof.
move=> w; rewrite /st_getitem; case: ifP => // /andP[/andP[/andP[/allP hr /allP hc] _] _].
case g: (sgain G).
  case/mkGain_inv => -> dtk; split; first by split; rewrite ?wfS_mkgain ?wfa_mk.
  move=> L f s; rewrite (regS_gain _ _ w g) regS_n0 //; split=> // i j hi hj.
  by rewrite (ev_gain _ _ _ _ w g) ev_n0 //= get_mk // get_mk //; apply: hc; apply: mem_nth.
have [[wa wb wc wd] [e1 e2 e3 e4 e5]] := wfS_dyn w g.
rewrite mkS_ok; try by rewrite /= ?e1 ?e2 ?e3 ?e4 ?e5 ?(wfS_dt w).
case=> <-; split.
  by split=> //; apply: wfS_mk; rewrite ?wfa_mk //= ?e1 ?e2 ?e3 ?e4 ?e5 ?(wfS_dt w).
move=> L f s; split=> // i j hi hj; apply: ev_copy => //=.
- by rewrite get_mk // get_mk //; apply: hc; apply: mem_nth.
- by move=> k hk; rewrite get_mk // e3.
- by move=> k hk; rewrite get_mk // e2.
Qed.

Lemma st_getitem_ok G rs cs : wfS G -> rs != [::] -> cs != [::] ->
  (forall i, i \in rs -> (i < spn G)%N) -> (forall j, j \in cs -> (j < smn G)%N) ->
  exists K, st_getitem G rs cs = Ok K.
Proof.
move=> w r0 c0 /allP hr /allP hc; rewrite /st_getitem r0 c0 hr hc /=; case g: (sgain G).
  by rewrite mkGain_ok ?(wfS_dt w) //; eexists.
have [[wa wb wc wd] [e1 e2 e3 e4 e5]] := wfS_dyn w g.
by rewrite mkS_ok /= ?e1 ?e2 ?e3 ?e4 ?e5 ?(wfS_dt w) //; eexists.
Qed.

(* ---------------- inverse ---------------- *)
Definition inverseE G K : Prop :=
  forall (L : fieldType) (f : {rmorphism R -> L}) s,
   regS f G s -> regS f K s ->
   forall i j, (i < spn G)%N -> (j < spn G)%N ->
    \sum_(l < spn G) ev f K s i l * ev f G s l j = (i == j)%:R /\
    \sum_(l < spn G) ev f G s i l * ev f K s l j = (i == j)%:R.

Lemma inverseE_mx G K :
  (forall (L : fieldType) (f : {rmorphism R -> L}) s, regS f G s -> regS f K s ->
     evalS f (spn G) (spn G) K s *m evalS f (spn G) (spn G) G s = 1%:M) -> inverseE G K.
Proof.
move=> h L f s r1 r2 i j hi hj; have e := h L f s r1 r2; have e' := mulmx1C e.
have ent (A B : 'M[L]_(spn G)) : A *m B = 1%:M ->
    \sum_(l < spn G) A (Ordinal hi) l * B l (Ordinal hj) = (i == j)%:R.
  by move/matrixP/(_ (Ordinal hi) (Ordinal hj)); rewrite !mxE -val_eqE /=.
by split; [rewrite -(ent _ _ e)|rewrite -(ent _ _ e')]; apply: eq_bigr => l _; rewrite !evalSE.
Qed.

Lemma st_rtruediv_core sv G o K : wfS G -> st_rtruediv sv G o = Ok K ->
  spn G = smn G /\ exists Gi,
  [/\ wfS Gi, sshape Gi = sshape G, sdt Gi = sdt G, inverseE G Gi & st_rmatmul Gi o = Ok K] /\
  forall (L : fieldType) (f : {rmorphism R -> L}) s, regS f G s ->
    regS f Gi s = (evalS f (spn G) (spn G) G s \in unitmx).
Proof.
move=> w; rewrite /st_rtruediv; case: ifP => // /eqP sq; case: ifP => // _.
case Ei: (np_solve (sd G) _) => [di|] //=.
have [wdi ndi cdi uD edi] := np_solve_ok [rmorphism of idfun] erefl erefl Ei.
have Dinv (L : fieldType) (f : {rmorphism R -> L}) :
    mxof f (spn G) (spn G) (sd G) \in unitmx /\
    mxof f (spn G) (spn G) di = invmx (mxof f (spn G) (spn G) (sd G)).
  have [_ _ _ uD' edi'] := np_solve_ok f erefl erefl Ei; split=> //.
  by rewrite [LHS]edi' mxof_eye mulmx1.
case g: (sgain G).
  rewrite /mk_state /= check_dt_ok ?(wfS_dt w) //= => E; split=> //.
  have evG (L : fieldType) (f : {rmorphism R -> L}) s :
      evalS f (spn G) (spn G) G s = mxof f (spn G) (spn G) (sd G).
    by apply/matrixP => i j; rewrite evalSE (ev_gain _ _ _ _ w g) mxE.
  exists (St (e00 R) (e00 R) (e00 R) di true (sdt G)); split; last first.
    by move=> L f s r1; rewrite evG; have [-> _] := Dinv L f; rewrite regS_n0.
  split; last exact: E.
  - by rewrite wfS_mkgain ?(wfS_dt w).
  - by rewrite /sshape /= ndi cdi /= -[nc (sd G)]/(smn G) -sq.
  - by [].
  - apply: inverseE_mx => L f s r1 r2; have [uD' iD] := Dinv L f.
    have -> : evalS f (spn G) (spn G) G s = mxof f (spn G) (spn G) (sd G).
      by apply/matrixP => i j; rewrite evalSE (ev_gain _ _ _ _ w g) mxE.
    set K0 := St _ _ _ _ _ _.
    have -> : evalS f (spn G) (spn G) K0 s = mxof f (spn G) (spn G) di.
      by apply/matrixP => i j; rewrite evalSE ev_n0 // mxE.
    by rewrite iD mulVmx.
have [[wa wb wc wd] [e1 e2 e3 e4 e5]] := wfS_dyn w g.
case Ec: (np_solve (sd G) _) => [dc|] //=; case Eb: (np_solve (aT (sd G)) _) => [bt|] //=.
have [wdc ndc cdc _ _] := np_solve_ok [rmorphism of idfun] erefl erefl Ec.
have [wbt nbt cbt _ _] := np_solve_ok [rmorphism of idfun] erefl erefl Eb.
rewrite /= in nbt cbt; case: ifP => // /eqP hc /=.
rewrite mkS_ok; last 6 first.
- by rewrite /= e1.
- by rewrite /= cbt e2.
- by rewrite /= cdc e3.
- by rewrite /= ndc ndi.
- by rewrite /= nbt cdi /= -[nc (sd G)]/(smn G) -sq.
- exact: wfS_dt w.
move=> /= E; split=> //; eexists; split; first split; last 2 first.
- exact: E.
- move=> L f s r1; set K0 := St _ _ _ _ _ _.
  have [uD' iD] := Dinv L f.
  have Cmx : mxof f (spn G) (snn G) dc = invmx (mxof f (spn G) (spn G) (sd G)) *m mxof f (spn G) (snn G) (sc G).
    have [_ _ _ _ h] := np_solve_ok f erefl e3 Ec; exact: h.
  rewrite /evalS -tf_inverse_regular // /regS (_ : snn K0 = snn G) //; congr (regular _ _).
  by rewrite /= mxof_sub // (@mxof_mul _ _ _ _ (spn G)) ?cdc ?e3 ?e5 // Cmx.
- apply: wfS_mk; rewrite ?wfa_mk ?wdi ?(wfS_dt w) //= ?e1 ?cbt ?e2 ?cdc ?e3 ?ndc ?ndi ?nbt ?cdi //=.
- by rewrite /sshape /= ndi cdi /= -[nc (sd G)]/(smn G) -sq.
- by [].
apply: inverseE_mx => L f s; set K0 := St _ _ _ _ _ _.
have [uD' iD] := Dinv L f; pose D := mxof f (spn G) (spn G) (sd G).
pose A := mxof f (snn G) (snn G) (sa G); pose B := mxof f (snn G) (spn G) (sb G).
pose C := mxof f (spn G) (snn G) (sc G).
have Cmx : mxof f (spn G) (snn G) dc = invmx D *m C.
  have [_ _ _ _ h] := np_solve_ok f erefl e3 Ec; exact: h.
have Bmx : mxof f (snn G) (spn G) (aT bt) = B *m invmx D.
  have e2T : nc (aT (sb G)) = snn G := e2.
  have sqT : nr (aT (sd G)) = spn G := esym sq.
  have [_ _ _ _ h] := np_solve_ok f sqT e2T Eb.
  rewrite (@mxof_T _ _ _ (spn G)) //; last by rewrite cbt e2.
    rewrite [mxof _ _ _ _]h (@mxof_T _ _ _ (spn G)) // (@mxof_T _ _ _ (snn G)) //.
      by rewrite trmx_mul trmxK trmx_inv trmxK.
    by rewrite e5 sq.
  by rewrite nbt [RHS]sq.
have Amx : mxof f (snn G) (snn G) (sa K0) = A - B *m (invmx D *m C).
  by rewrite /= mxof_sub // (@mxof_mul _ _ _ _ (spn G)) ?cdc ?e3 ?e5 // Cmx.
rewrite /regS (_ : snn K0 = snn G) // Amx => r1 r2.
rewrite /evalS (_ : snn K0 = snn G) // Amx.
have -> : mxof f (snn G) (spn G) (sb K0) = B *m invmx D by [].
have -> : mxof f (spn G) (snn G) (sc K0) = - (invmx D *m C).
  by rewrite /= mxof_neg ?Cmx // cdc e3.
have -> : mxof f (spn G) (spn G) (sd K0) = invmx D by [].
exact: tf_inverse.
Qed.

Lemma ascaler1 A : wfa A -> ascaler A 1 = A.
Proof.
move=> wA; apply: arr_eqP => //; first exact: wfa_map.
by move=> i j hi hj; rewrite get_mk // mulr1.
Qed.

Lemma st_rmatmul1 G : wfS G -> st_rmatmul G (OScal 1) = Ok G.
Proof.
move=> w; rewrite /st_rmatmul /= oner_eq0; case g: (sgain G).
  rewrite mkGain_ok ?(wfS_dt w) // ascaler1 ?(wfS_d w) //.
  move: w g; case: G => a b c d gg dt w /= g; rewrite /= in g; subst gg.
  have /= [na ca [nb cb] [ncc ccc] wd] := wfS_gain w erefl.
  move: w => /andP[/= wa /and5P[/= wb wc _ _ _]].
  have z A : wfa A -> nr A = 0%N -> nc A = 0%N -> e00 R = A.
    by move=> wA r0 c0; apply: arr_eqP; rewrite ?wfa_mk //= ?r0 ?c0.
  by rewrite -(z a) // -(z b) // -(z c).
have [[wa wb wc wd] [e1 e2 e3 e4 e5]] := wfS_dyn w g.
rewrite !ascaler1 // (_ : (if sSISO G then _ else _) = mkS (sa G) (sb G) (sc G) (sd G) (sdt G)); last by case: ifP.
rewrite mkS_ok /= ?e1 ?e2 ?e3 ?e4 ?e5 ?(wfS_dt w) //.
by rewrite -g; case: (G).
Qed.

(* 1/G *)
Lemma st_rtruedivP sv G K : wfS G -> st_rtruediv sv G (OScal 1) = Ok K ->
  [/\ wfS K, spn G = smn G, sshape K = sshape G & sdt K = sdt G] /\ inverseE G K.
Proof.
move=> w /(st_rtruediv_core w)[sq [Gi [[wi shi dti hi +] _]]].
by rewrite st_rmatmul1 // => -[<-].
Qed.

(* it fails only on non-square, on singular feedthrough (or when the SVD test says so) *)
Lemma st_rtruediv_ok sv G x : wfS G -> spn G = smn G -> adet (sd G) != 0 -> sv (sd G) = false ->
  exists K, st_rtruediv sv G (OScal x) = Ok K.
Proof.
move=> w sq dn0 svf; rewrite /st_rtruediv sq eqxx svf.
have sq' : nr (sd G) = nc (sd G) by [].
rewrite (@np_solveP _ (spn G) (spn G)) // (negbTE dn0) [do di <- _; _]/=.
case g: (sgain G).
  rewrite /mk_state /= check_dt_ok ?(wfS_dt w) //=; apply: st_rmatmul_scal_ok.
  by rewrite wfS_mkgain ?wfa_mk ?(wfS_dt w).
have [[wa wb wc wd] [e1 e2 e3 e4 e5]] := wfS_dyn w g.
have dT : adet (aT (sd G)) != 0.
  have := @mxof_det R R [rmorphism of idfun] (spn G) (aT (sd G)) (esym sq').
  rewrite (@mxof_T _ _ _ (spn G) (spn G)) // det_tr -(@mxof_det R R [rmorphism of idfun]) //= => ->.
  exact: dn0.
rewrite (@np_solveP _ (spn G) (snn G)) // (negbTE dn0) [do di <- _; _]/=.
rewrite (@np_solveP _ (spn G) (snn G)) //; last by rewrite /= e5.
rewrite (negbTE dT) [do di <- _; _]/= ifT; last by apply/eqP; rewrite /= e5 -sq.
rewrite [do ai <- _; _]/= mkS_ok /= ?e1 ?e2 ?e3 ?e4 ?e5 ?(wfS_dt w) //; apply: st_rmatmul_scal_ok.
by apply: wfS_mk; rewrite ?wfa_mk //= ?e1 ?e2 ?e3 ?e4 ?e5 ?sq' ?(wfS_dt w).
Qed.

End Ops.
