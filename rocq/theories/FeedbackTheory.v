(* Feedback interconnection: the closed loop formula. *)
From mathcomp Require Import all_ssreflect all_algebra zify.
From Coq Require Import String.
From Verif Require Import RingTac Base BaseTheory Spec TfTheory ModelState Denote StateTheory StateOps ModelAux AuxTheory ModelFeedback.

Set Implicit Arguments.
Unset Strict Implicit.
Unset Printing Implicit Defensive.

Import Order.TTheory GRing.Theory Num.Theory.
Local Open Scope ring_scope.

Section Close.
Variable L : fieldType.

Lemma det_schur_l n m (P : 'M[L]_n) (B : 'M_(n, m)) (C : 'M_(m, n)) (D : 'M_m) :
  P \in unitmx -> \det (block_mx P B C D) = \det P * \det (D - C *m invmx P *m B).
Proof.
move=> uP; have e : block_mx 1%:M 0 (- (C *m invmx P)) 1%:M *m block_mx P B C D =
   block_mx P B 0 (D - C *m invmx P *m B).
  rewrite mulmx_block !mul1mx !mul0mx !addr0; congr block_mx.
    by rewrite mulNmx mulmxKV // addNr.
  by rewrite mulNmx addrC.
by rewrite -(det_ublock _ B) -e det_mulmx det_lblock !det1 !mul1r.
Qed.

Lemma det_schur_r n m (P : 'M[L]_n) (B : 'M_(n, m)) (C : 'M_(m, n)) (D : 'M_m) :
  D \in unitmx -> \det (block_mx P B C D) = \det (P - B *m invmx D *m C) * \det D.
Proof.
move=> uD; have e : block_mx 1%:M (- (B *m invmx D)) 0 1%:M *m block_mx P B C D =
   block_mx (P - B *m invmx D *m C) 0 C D.
  rewrite mulmx_block !mul1mx !mul0mx !add0r; congr block_mx; first by rewrite mulNmx.
  by rewrite mulNmx mulmxKV // addrN.
by rewrite -(det_lblock _ C) -e det_mulmx det_ublock !det1 !mul1r.
Qed.

Variables (n m p : nat) (A : 'M[L]_n) (B : 'M[L]_(n, m)) (C : 'M[L]_(p, n)) (D : 'M[L]_(p, m)).
Variables (M : 'M[L]_(m, n)) (N : 'M[L]_m) (g s : L).
Let E := 1%:M - g *: N.
Let W := 1%:M - g *: tfmx A B M N s.
Hypothesis uE : E \in unitmx.
Hypothesis rA : regular A s.

Let Acl := A + g *: (B *m (invmx E *m M)).

Lemma det_close : \det (s%:M - Acl) * \det E = \det (s%:M - A) * \det W.
Proof.
have := @det_schur_l _ _ (s%:M - A) (g *: B) M E rA; rewrite det_schur_r //.
rewrite -!scalemxAl /Acl opprD addrA -mulmxA => ->; congr (_ * \det _).
by rewrite /W /E /tfmx -!scalemxAr scalerDr opprD addrA.
Qed.

Lemma regular_close : regular Acl s = (W \in unitmx).
Proof.
have := det_close; have dE : \det E != 0 by rewrite -unitfE -unitmxE.
have dA : \det (s%:M - A) != 0 by rewrite -unitfE -unitmxE.
rewrite /regular !unitmxE !unitfE => e.
by rewrite -(mulIr_eq0 _ (mulIf dE)) e (mulrI_eq0 _ (mulfI dA)).
Qed.

Lemma tf_close : W \in unitmx ->
  tfmx Acl (B + g *: (B *m (invmx E *m N))) (C + g *: (D *m (invmx E *m M)))
       (D + g *: (D *m (invmx E *m N))) s *m W = tfmx A B C D s.
Proof.
move=> uW; have rc : regular Acl s by rewrite regular_close.
rewrite -tf_mulr; set X := invmx (s%:M - A) *m B.
have EN : 1%:M + g *: (invmx E *m N) = invmx E.
  apply: (can_inj (mulKmx uE)); rewrite mulmxV // mulmxDr -scalemxAr mulKVmx // mulmx1.
  by rewrite /E subrK.
have f1 k (Y : 'M[L]_(k, m)) : Y + g *: (Y *m (invmx E *m N)) = Y *m invmx E.
  by rewrite scalemxAr -{1}[Y]mulmx1 -mulmxDr EN.
have EW : W = E - g *: (M *m X).
  by rewrite /W /E /tfmx -mulmxA -/X scalerDr opprD addrA.
have f2 k (Y : 'M[L]_(k, m)) : Y *m invmx E *m W + g *: (Y *m (invmx E *m M) *m X) = Y.
  by rewrite EW mulmxBr mulmxKV // -scalemxAr !mulmxA subrK.
rewrite !f1 (@tfmx_solve _ _ _ _ _ _ _ _ _ X) //.
  rewrite mulmxDl addrCA addrC -scalemxAl f2.
  by rewrite /tfmx -mulmxA -/X addrC.
rewrite /Acl opprD addrA mulmxDl mulKVmx // mulNmx -scalemxAl.
by apply/eqP; rewrite subr_eq f2.
Qed.

End Close.

Section Ser.
Variable L : fieldType.
Variables (n1 n2 m k p : nat).
Variables (A1 : 'M[L]_n1) (B1 : 'M[L]_(n1, k)) (C1 : 'M[L]_(p, n1)) (D1 : 'M[L]_(p, k)).
Variables (A2 : 'M[L]_n2) (B2 : 'M[L]_(n2, p)) (C2 : 'M[L]_(m, n2)) (D2 : 'M[L]_(m, p)) (s : L).
Hypotheses (r1 : regular A1 s) (r2 : regular A2 s).
Let A := block_mx A1 0 (B2 *m C1) A2.
Let B := col_mx B1 (B2 *m D1).
Let X1 := invmx (s%:M - A1) *m B1.
Let X := col_mx X1 (invmx (s%:M - A2) *m (B2 *m (D1 + C1 *m X1))).

Lemma ser_X : (s%:M - A) *m X = B.
Proof.
rewrite /A char_block /X mul_block_col oppr0 mul0mx addr0 !mulKVmx // mulNmx.
by rewrite mulmxDr -mulmxA addrCA addNr addr0.
Qed.

Lemma tf_ser1 : tfmx A B (row_mx C1 0) D1 s = tfmx A1 B1 C1 D1 s.
Proof.
rewrite (tfmx_solve _ _ _ ser_X) ?regular_lblock ?r1 //.
by rewrite mul_row_col mul0mx addr0 /tfmx -mulmxA.
Qed.

Lemma tf_ser2 : tfmx A B (row_mx (D2 *m C1) C2) (D2 *m D1) s = tfmx A2 B2 C2 D2 s *m tfmx A1 B1 C1 D1 s.
Proof.
rewrite (tfmx_solve _ _ _ ser_X) ?regular_lblock ?r1 //.
rewrite mul_row_col addrA -mulmxA -mulmxDr /tfmx -(mulmxA C1) -/X1.
by rewrite mulmxDl -!mulmxA.
Qed.

End Ser.

Section Slice.
Variables (F L : fieldType) (f : {rmorphism F -> L}).

Lemma mxof_quad n1 n2 m1 m2 (X : arr F) :
  [/\ mxof f n1 m1 (asubm X 0 n1 0 m1) = ulsubmx (mxof f (n1 + n2) (m1 + m2) X),
      mxof f n1 m2 (asubm X 0 n1 m1 (m1 + m2)) = ursubmx (mxof f (n1 + n2) (m1 + m2) X),
      mxof f n2 m1 (asubm X n1 (n1 + n2) 0 m1) = dlsubmx (mxof f (n1 + n2) (m1 + m2) X) &
      mxof f n2 m2 (asubm X n1 (n1 + n2) m1 (m1 + m2)) = drsubmx (mxof f (n1 + n2) (m1 + m2) X)].
Proof.
split.
- by rewrite -[n1 in asubm X _ n1]add0n -[m1 in asubm _ _ _ _ m1]add0n mxof_subm; apply/matrixP => i j; rewrite !mxE.
- by rewrite -[n1 in asubm X _ n1]add0n mxof_subm; apply/matrixP => i j; rewrite !mxE.
- by rewrite -[m1 in asubm _ _ _ _ m1]add0n mxof_subm; apply/matrixP => i j; rewrite !mxE.
- by rewrite mxof_subm; apply/matrixP => i j; rewrite !mxE.
Qed.

End Slice.

Section Arr.
Variable R : realFieldType.
Implicit Types (a b c d m n x : arr R) (G H K : state R).

Lemma np_add_same a b : nr a = nr b -> nc a = nc b -> np_add a b = Ok (aadd a b).
Proof. by move=> e1 e2; rewrite /np_add np_op2_same. Qed.

Lemma np_sub_same a b : nr a = nr b -> nc a = nc b -> np_sub a b = Ok (asub a b).
Proof. by move=> e1 e2; rewrite /np_sub np_op2_same. Qed.

Lemma np_matmul_same a b : nc a = nr b -> np_matmul a b = Ok (amul a b).
Proof. by move=> e; rewrite /np_matmul e eqxx. Qed.

Lemma close_loopP nn mm pp a b c d m n delta sign dt :
  shp a = (nn, nn) -> shp b = (nn, mm) -> shp c = (pp, nn) -> shp d = (pp, mm) ->
  shp m = (mm, nn) -> shp n = (mm, mm) -> shp delta = (mm, mm) -> dt_ok dt -> adet delta != 0 ->
  exists K, [/\ close_loop (ablock a b c d) (avcat b d) (ahcat m n) delta sign nn dt = Ok K,
   wfS K, sgain K = false, snn K = nn & sshape K = (pp, mm) /\ sdt K = dt] /\
   forall (L : fieldType) (f : {rmorphism R -> L}),
    let E := mxof f mm mm delta in let g := f sign in
    [/\ mxof f nn nn (sa K) = mxof f nn nn a + g *: (mxof f nn mm b *m (invmx E *m mxof f mm nn m)),
        mxof f nn mm (sb K) = mxof f nn mm b + g *: (mxof f nn mm b *m (invmx E *m mxof f mm mm n)),
        mxof f pp nn (sc K) = mxof f pp nn c + g *: (mxof f pp mm d *m (invmx E *m mxof f mm nn m)) &
        mxof f pp mm (sd K) = mxof f pp mm d + g *: (mxof f pp mm d *m (invmx E *m mxof f mm mm n))].
Proof.
move=> [a1 a2] [b1 b2] [c1 c2] [d1 d2] [m1 m2] [n1 n2] [e1 e2] dtk dE.
rewrite /close_loop (@np_solveP _ mm (nn + mm)) ?nr_mk ?nc_mk ?m2 ?n2 // (negbTE dE) [bind _ _]/=.
set x := amul (ainv delta) _.
have x1 : nr x = mm by rewrite /x /ainv !nr_mk.
have x2 : nc x = (nn + mm)%N by rewrite /x !nc_mk m2 n2.
rewrite np_matmul_same ?nr_mk ?nc_mk ?b2 ?x1 // [bind _ _]/=.
set y := amul (ascale sign _) x.
have y1 : nr y = (nn + pp)%N by rewrite /y !nr_mk b1 d1.
have y2 : nc y = (nn + mm)%N by rewrite /y nc_mk x2.
rewrite np_add_same ?nr_mk ?nc_mk ?a1 ?c1 ?a2 ?b2 ?y1 ?y2 // [bind _ _]/=.
set Y := aadd _ y.
have Y1 : nr Y = (nn + pp)%N by rewrite /Y !nr_mk a1 c1.
have Y2 : nc Y = (nn + mm)%N by rewrite /Y !nc_mk a2 b2.
rewrite /cut_pos a1 c1 a2 b2 !(minn_idPl (leq_addr _ _)) mkS_ok ?nr_mk ?nc_mk ?subn0 ?addKn //.
eexists; split; first split => //.
- apply: wfS_mk => //; rewrite ?wfa_mk // ?nr_mk ?nc_mk ?subn0 ?addKn //.
- by rewrite /snn /= subn0.
- by rewrite /sshape /= !addKn.
move=> L f; set E := mxof f mm mm delta; set g := f sign; rewrite /=.
have := @mxof_quad _ _ f nn pp nn mm Y; rewrite /asubm.
suff -> : mxof f (nn + pp) (nn + mm) Y = block_mx
    (mxof f nn nn a + g *: (mxof f nn mm b *m (invmx E *m mxof f mm nn m)))
    (mxof f nn mm b + g *: (mxof f nn mm b *m (invmx E *m mxof f mm mm n)))
    (mxof f pp nn c + g *: (mxof f pp mm d *m (invmx E *m mxof f mm nn m)))
    (mxof f pp mm d + g *: (mxof f pp mm d *m (invmx E *m mxof f mm mm n))).
  by rewrite block_mxKul block_mxKur block_mxKdl block_mxKdr.
rewrite /Y mxof_add ?nr_mk ?nc_mk ?a1 ?c1 ?a2 ?b2 // (@mxof_block _ _ _ nn pp nn mm) //.
rewrite /y (@mxof_mul _ _ _ (nn + pp) mm (nn + mm)) ?nr_mk ?nc_mk ?b1 ?d1 ?x2 //.
rewrite mxof_scale ?nr_mk ?nc_mk ?b1 ?d1 // (@mxof_vcat _ _ _ nn pp) //.
rewrite /x (@mxof_mul _ _ _ mm mm (nn + mm)) ?nr_mk ?nc_mk ?m2 ?n2 // mxof_inv //.
rewrite (@mxof_hcat _ _ _ mm nn mm) // -/E -/g -scalemxAl mul_mx_row mul_col_row.
by rewrite scale_block_mx add_block_mx.
Qed.


(* the loop 1 - sign H G *)
Definition loopW (L : fieldType) (f : {rmorphism R -> L}) G H (sign : R) (s : L) : 'M[L]_(smn G) :=
  1%:M - f sign *: (evalS f (smn G) (spn G) H s *m evalS f (spn G) (smn G) G s).

Definition loopD G H : arr R := asub (aeye (smn G)) (amul (sd H) (sd G)).

Lemma loopD_mx (L : fieldType) (f : {rmorphism R -> L}) G H : nr (sd H) = smn G -> nc (sd H) = spn G ->
  mxof f (smn G) (smn G) (loopD G H) =
  1%:M - mxof f (smn G) (spn G) (sd H) *m mxof f (spn G) (smn G) (sd G).
Proof. by move=> h1 h2; rewrite mxof_sub // mxof_eye (@mxof_mul _ _ _ _ (spn G)). Qed.

Definition fb_good (ill : arr R -> bool) G H (neg : bool) K : Prop :=
  [/\ feedback ill (FState G) (FState H) neg = Ok K, wfS K, sshape K = sshape G, sdt K = sdt G &
     snn K = (snn G + snn H)%N] /\
  forall (L : fieldType) (f : {rmorphism R -> L}) (s : L), regS f G s -> regS f H s ->
   (regS f K s = (loopW f G H (if neg then -1 else 1) s \in unitmx)) /\
   (regS f K s -> evalS f (spn G) (smn G) K s *m loopW f G H (if neg then -1 else 1) s =
       evalS f (spn G) (smn G) G s).

Lemma check_ic_ok G H : sdt G = sdt H -> spn G = smn H -> smn G = spn H ->
  check_feedback_ic (FState G) (FState H) = Ok (G, H).
Proof. by move=> e1 e2 e3; rewrite /check_feedback_ic /= e1 eqxx /= e2 e3 !eqxx. Qed.

Lemma close_goodP G H sign nn a b c m delta :
  shp a = (nn, nn) -> shp b = (nn, smn G) -> shp c = (spn G, nn) -> shp m = (smn G, nn) ->
  shp delta = (smn G, smn G) -> dt_ok (sdt G) -> adet delta != 0 ->
  nr (sd H) = smn G ->
  (forall (L : fieldType) (f : {rmorphism R -> L}), mxof f (smn G) (smn G) delta =
    1%:M - f sign *: mxof f (smn G) (smn G) (amul (sd H) (sd G))) ->
  (forall (L : fieldType) (f : {rmorphism R -> L}) s, regS f G s -> regS f H s ->
   [/\ regular (mxof f nn nn a) s,
       tfmx (mxof f nn nn a) (mxof f nn (smn G) b) (mxof f (spn G) nn c) (mxof f (spn G) (smn G) (sd G)) s =
         evalS f (spn G) (smn G) G s &
       tfmx (mxof f nn nn a) (mxof f nn (smn G) b) (mxof f (smn G) nn m)
            (mxof f (smn G) (smn G) (amul (sd H) (sd G))) s =
         evalS f (smn G) (spn G) H s *m evalS f (spn G) (smn G) G s]) ->
  exists K, [/\ close_loop (ablock a b c (sd G)) (avcat b (sd G)) (ahcat m (amul (sd H) (sd G)))
                  delta sign nn (sdt G) = Ok K,
   wfS K, sshape K = sshape G, sdt K = sdt G & snn K = nn] /\
  forall (L : fieldType) (f : {rmorphism R -> L}) (s : L), regS f G s -> regS f H s ->
   (regS f K s = (loopW f G H sign s \in unitmx)) /\
   (regS f K s -> evalS f (spn G) (smn G) K s *m loopW f G H sign s =
       evalS f (spn G) (smn G) G s).
Proof.
move=> sa' sb' sc' sm' sdl dtk dE dH EE hv.
have sd' : shp (sd G) = (spn G, smn G) by [].
have sn' : shp (amul (sd H) (sd G)) = (smn G, smn G) by rewrite /shp nr_mk nc_mk dH.
have [K [[-> wK gK nK [shK dK]] hK]] := close_loopP sign sa' sb' sc' sd' sm' sn' sdl dtk dE.
exists K; split=> // L f s rG rH.
have [ra t1 t2] := hv L f s rG rH.
have [k1 k2 k3 k4] := hK L f.
have uE : 1%:M - f sign *: mxof f (smn G) (smn G) (amul (sd H) (sd G)) \in unitmx.
  by rewrite -EE unit_adet //; case: sdl.
have e1 := regular_close (mxof f nn (smn G) b) (mxof f (smn G) nn m) uE ra.
rewrite t2 -EE -k1 in e1.
have rK : regS f K s = (loopW f G H sign s \in unitmx) by rewrite /regS nK e1.
split=> //; rewrite rK => uW; rewrite {1}/evalS nK k1 k2 k3 k4 EE.
have eW : loopW f G H sign s = 1%:M - f sign *: tfmx (mxof f nn nn a) (mxof f nn (smn G) b)
   (mxof f (smn G) nn m) (mxof f (smn G) (smn G) (amul (sd H) (sd G))) s by rewrite t2.
by rewrite eW tf_close -?eW ?t1.
Qed.

Lemma feedback_dynP (ill : arr R -> bool) G H (neg : bool) : wfS G -> wfS H -> sdt G = sdt H -> spn G = smn H -> smn G = spn H ->
  ill (loopD G H) = (adet (loopD G H) == 0) -> adet (loopD G H) != 0 ->
  ~~ (sgain G && sgain H) ->
  (neg -> amul (sd H) (sd G) = azeros (smn G) (smn G)) ->
  exists K, fb_good ill G H neg K.
Proof.
move=> w w' edt e1 e2 eill dl ng hneg.
have dtk := wfS_dt w.
rewrite /fb_good /feedback check_ic_ok // [bind _ _]/= /fb_core.
rewrite np_matmul_same // [bind _ _]/= np_sub_same ?nr_mk ?nc_mk // [bind _ _]/= -/(loopD G H).
rewrite eill dl (negbTE ng).
set sign : R := if neg then -1 else 1.
have EE (L : fieldType) (f : {rmorphism R -> L}) : mxof f (smn G) (smn G) (loopD G H) =
   1%:M - f sign *: mxof f (smn G) (smn G) (amul (sd H) (sd G)).
  rewrite mxof_sub // mxof_eye; congr (_ - _).
  clear -hneg; rewrite /sign; clear sign; case: neg hneg => [->//|_]; rewrite ?mxof_zeros ?scaler0 // rmorph1 scale1r //.
have ND (L : fieldType) (f : {rmorphism R -> L}) : mxof f (smn G) (smn G) (amul (sd H) (sd G)) =
   mxof f (smn G) (spn G) (sd H) *m mxof f (spn G) (smn G) (sd G).
  by rewrite (@mxof_mul _ _ _ _ (spn G)).
case g: (sgain G) in ng *; case g': (sgain H) in ng * => //=.
- have [n0 _ _ _ wd] := wfS_gain w g.
  have [[wa' wb' wc' wd'] [x1 x2 x3 x4 x5]] := wfS_dyn w' g'.
  rewrite np_matmul_same ?x5 -?e1 // [bind _ _]/= n0 add0n.
  apply: close_goodP; rewrite /shp ?nr_mk ?nc_mk -?/(spn _) -?/(smn _) ?x1 ?x2 ?x3 ?x4 -?e1 -?e2 //.
  move=> L f s rG rH; split=> //.
    rewrite mxof_zeros /tfmx !mul0mx addr0.
    by apply/matrixP => i j; rewrite evalSE ev_gain // mxE.
  rewrite ND (@mxof_mul _ _ _ _ (spn G)) // ?x5 // tf_mulr; congr (_ *m _).
  by apply/matrixP => i j; rewrite evalSE ev_gain // mxE.
- have [n0 _ _ _ wd] := wfS_gain w' g'.
  have [[wa wb wc wd'] [x1 x2 x3 x4 x5]] := wfS_dyn w g.
  rewrite np_matmul_same; last by rewrite x4 -/(smn H) -e1.
  rewrite [bind _ _]/= n0 addn0.
  apply: close_goodP; rewrite /shp ?nr_mk ?nc_mk -?/(spn _) -?/(smn _) ?x1 ?x2 ?x3 ?x4 ?x5 -?e1 -?e2 //.
  move=> L f s rG rH; split=> //.
  rewrite ND (@mxof_mul _ _ _ _ (spn G)) // tf_mull; congr (_ *m _).
  by apply/matrixP => i j; rewrite evalSE ev_gain // mxE.
- have [[wa wb wc wd] [x1 x2 x3 x4 x5]] := wfS_dyn w g.
  have [[wa' wb' wc' wd'] [y1 y2 y3 y4 y5]] := wfS_dyn w' g'.
  have q1 : nc (sb H) = nr (sc G) by rewrite x4 y5.
  have q2 : nc (sb H) = nr (sd G) by rewrite y5.
  have q3 : nc (sd H) = nr (sc G) by rewrite x4.
  rewrite (np_matmul_same q1) (np_matmul_same q2) (np_matmul_same q3) [bind _ _]/=.
  apply: close_goodP; rewrite /shp ?nr_mk ?nc_mk -?/(spn _) -?/(smn _) ?x1 ?x2 ?x3 ?x4 ?x5 ?y1 ?y2 ?y3 ?y4 ?y5 -?e1 -?e2 //.
  move=> L f s rG rH; rewrite ND.
  rewrite (@mxof_block _ _ _ (snn G) (snn H) (snn G) (snn H)) ?nr_mk ?nc_mk ?x1 ?x3 //.
  rewrite (@mxof_vcat _ _ _ (snn G) (snn H)) ?nr_mk ?x5 //.
  rewrite !mxof_hcat ?nr_mk ?nc_mk //.
  rewrite !mxof_zeros (@mxof_mul _ _ _ _ (spn G)) // ?y5 //.
  rewrite !(@mxof_mul _ _ _ _ (spn G)) // ?y5 //.
  have ra : regular (block_mx (mxof f (snn G) (snn G) (sa G)) 0
     (mxof f (snn H) (spn G) (sb H) *m mxof f (spn G) (snn G) (sc G)) (mxof f (snn H) (snn H) (sa H))) s.
    by rewrite regular_lblock; apply/andP.
  by split=> //; [exact: tf_ser1 | exact: tf_ser2].
Qed.

(* both static *)
Lemma feedback_gainP (ill : arr R -> bool) G H : wfS G -> wfS H -> sdt G = sdt H ->
  spn G = smn H -> smn G = spn H ->
  ill (loopD G H) = (adet (loopD G H) == 0) -> adet (loopD G H) != 0 ->
  sgain G -> sgain H -> aany (sd G) -> aany (sd H) ->
  exists K, fb_good ill G H false K.
Proof.
move=> w w' edt e1 e2 eill dl g g' dG dH.
have [n0 _ _ _ _] := wfS_gain w g; have [n0' _ _ _ _] := wfS_gain w' g'.
have dtk := wfS_dt w.
rewrite /fb_good /feedback check_ic_ok // [bind _ _]/= /fb_core.
rewrite np_matmul_same // [bind _ _]/= np_sub_same ?nr_mk ?nc_mk // [bind _ _]/= -/(loopD G H).
rewrite eill dl g g' dG dH [andb _ _]/=.
rewrite (@np_solveP _ (smn G) (smn G)) ?nr_mk ?nc_mk // (negbTE dl) [bind _ _]/=.
rewrite np_matmul_same ?nr_mk // [bind _ _]/=.
rewrite np_add_same ?nr_mk ?nc_mk // [bind _ _]/= mkGain_ok //.
eexists; split; first split; rewrite ?n0 ?n0' //.
- by apply: wfS_mkgain => //; rewrite wfa_mk.
move=> L f s rG rH.
have gE : evalS f (spn G) (smn G) G s = mxof f (spn G) (smn G) (sd G).
  by apply/matrixP => i j; rewrite evalSE ev_gain // mxE.
have hE : evalS f (smn G) (spn G) H s = mxof f (smn G) (spn G) (sd H).
  by apply/matrixP => i j; rewrite evalSE ev_gain // mxE.
have WE : loopW f G H 1 s = mxof f (smn G) (smn G) (loopD G H).
  by rewrite loopD_mx // /loopW gE hE rmorph1 scale1r.
have uW : mxof f (smn G) (smn G) (loopD G H) \in unitmx by rewrite unit_adet.
rewrite WE uW; split; first by rewrite regS_n0.
move=> _; set mat := aadd _ _.
have -> : evalS f (spn G) (smn G) (St (e00 R) (e00 R) (e00 R) mat true (sdt G)) s = mxof f (spn G) (smn G) mat.
  by apply/matrixP => i j; rewrite evalSE ev_n0 // mxE.
rewrite gE /mat mxof_add // mxof_scale ?nr_mk ?nc_mk // rmorph1 scale1r.
rewrite (@mxof_mul _ _ _ _ (smn G)) ?nr_mk ?nc_mk // (@mxof_mul _ _ _ _ (smn G)) ?nr_mk ?nc_mk //.
rewrite mxof_inv // mulmxDl -mulmxA.
have e : invmx (mxof f (smn G) (smn G) (loopD G H)) *m mxof f (smn G) (smn G) (amul (sd H) (sd G)) =
  invmx (mxof f (smn G) (smn G) (loopD G H)) - 1%:M.
  apply: (can_inj (mulKmx uW)); rewrite mulmxBr mulKVmx // mulmxV // mulmx1.
  by rewrite loopD_mx // (@mxof_mul _ _ _ _ (spn G)) // subKr.
by rewrite e mulmxBl mulVmx // mul1mx -mulmxDr addrC subrK mulmx1.
Qed.

(* everything that is rejected *)
Lemma feedback_illposed (ill : arr R -> bool) G H neg : wfS G -> wfS H -> sdt G = sdt H ->
  spn G = smn H -> smn G = spn H -> ill (loopD G H) ->
  feedback ill (FState G) (FState H) neg = Err ValueError.
Proof.
move=> w w' edt e1 e2 i; rewrite /feedback check_ic_ok // [bind _ _]/= /fb_core.
by rewrite np_matmul_same // [bind _ _]/= np_sub_same ?nr_mk ?nc_mk // [bind _ _]/= -/(loopD G H) i.
Qed.

Lemma feedback_unbound (ill : arr R -> bool) G H neg : wfS G -> wfS H -> sdt G = sdt H ->
  spn G = smn H -> smn G = spn H -> ~~ ill (loopD G H) -> sgain G -> sgain H ->
  ~~ (aany (sd G) && aany (sd H)) ->
  feedback ill (FState G) (FState H) neg = Err UnboundLocalError.
Proof.
move=> w w' edt e1 e2 i g g' z; rewrite /feedback check_ic_ok // [bind _ _]/= /fb_core.
rewrite np_matmul_same // [bind _ _]/= np_sub_same ?nr_mk ?nc_mk // [bind _ _]/= -/(loopD G H).
by rewrite i g g' (negbTE z).
Qed.

Lemma feedback_mismatch (ill : arr R -> bool) G H neg :
  (sdt G != sdt H) || (spn G != smn H) || (smn G != spn H) ->
  feedback ill (FState G) (FState H) neg = Err ValueError.
Proof.
rewrite /feedback /check_feedback_ic /=; case: eqP => //= _.
by case: eqP => //= _; case: eqP.
Qed.


Lemma push_through (L : fieldType) pp mm (G K : 'M[L]_(pp, mm)) (H : 'M[L]_(mm, pp)) g :
  1%:M - g *: (H *m G) \in unitmx -> K *m (1%:M - g *: (H *m G)) = G ->
  (1%:M - g *: (G *m H)) *m K = G.
Proof.
move=> u e; apply: (can_inj (mulmxK u)); rewrite -mulmxA e mulmxBl mulmxBr mul1mx mulmx1.
by rewrite -scalemxAl -scalemxAr mulmxA.
Qed.

(* C34 / C35 in one statement *)
Lemma feedbackP (ill : arr R -> bool) G H (neg : bool) :
  wfS G -> wfS H -> sdt G = sdt H -> spn G = smn H -> smn G = spn H ->
  (forall M, ill M = (adet M == 0)) -> 
  let E := asub (aeye (smn G)) (amul (sd H) (sd G)) in adet E != 0 ->
  (if neg then ~~ (sgain G && sgain H) /\ amul (sd H) (sd G) = azeros (smn G) (smn G)
   else sgain G && sgain H -> aany (sd G) && aany (sd H)) ->
  exists K, [/\ feedback ill (FState G) (FState H) neg = Ok K, wfS K, sshape K = sshape G,
     sdt K = sdt G & snn K = (snn G + snn H)%N] /\
  forall (L : fieldType) (f : {rmorphism R -> L}) (s : L), regS f G s -> regS f H s ->
   let g : L := if neg then -1 else 1 in
   let Gs := evalS f (spn G) (smn G) G s in let Hs := evalS f (smn G) (spn G) H s in
   (regS f K s = (1%:M - g *: (Hs *m Gs) \in unitmx)) /\
   (regS f K s -> (1%:M - g *: (Gs *m Hs)) *m evalS f (spn G) (smn G) K s = Gs).
Proof.
move=> w w' edt e1 e2 eill E dl hn.
have [K [hK1 hK2]] : exists K, fb_good ill G H neg K.
  case g: (sgain G && sgain H) hn; case: neg => [[]//|].
  - move=> /(_ isT) /andP[? ?]; case/andP: g => ? ?; exact: feedback_gainP.
  - by move=> ? ?; apply: feedback_dynP; rewrite ?g.
  - by move=> _; apply: feedback_dynP; rewrite ?g.
exists K; split=> // L f s rG rH g Gs Hs.
have [h1 h2] := hK2 L f s rG rH.
have eg : f (if neg then -1 else 1) = g by rewrite /g; case: neg {hn hK1 hK2 h1 h2 g}; rewrite ?rmorphN rmorph1.
rewrite /loopW eg -/Gs -/Hs in h1 h2; split=> // rK.
apply: push_through; [by rewrite -h1 | exact: h2].
Qed.

(* what the negative sign gives for static SISO loops *)
Lemma feedback_neg_static (ill : arr R -> bool) G H :
  wfS G -> wfS H -> sdt G = sdt H -> sgain G -> sgain H -> sSISO G -> sSISO H ->
  (forall M, ill M = (adet M == 0)) ->
  let d := get (sd G) 0 0 in let n := get (sd H) 0 0 in
  d * n != 0 -> d * n != 1 ->
  exists K, feedback ill (FState G) (FState H) true = Ok K /\
    get (sd K) 0 0 * (1 + d * n) != d.
Proof.
move=> w w' edt g g' si si' eill d n h0 h1.
have [p1 m1] := sSISOP _ si; have [p1' m1'] := sSISOP _ si'.
have [d0 n0] : d != 0 /\ n != 0 by move: h0; rewrite mulf_eq0 negb_or => /andP[].
have anyP A (x : R) : nr A = 1%N -> nc A = 1%N -> get A 0 0 = x -> x != 0 -> aany A.
  by rewrite /aany => -> -> /= -> ->.
have ndE : get (amul (sd H) (sd G)) 0 0 = n * d.
  by rewrite get_mk -?/(spn H) -?/(smn G) ?p1' ?m1 // -/(smn H) m1' /sumN /= addr0.
have ldE : get (loopD G H) 0 0 = 1 - n * d by rewrite /loopD /asub get_mk ?m1 // ndE get_mk.
have detE : adet (loopD G H) = 1 - n * d.
  have := @mxof_det _ _ [rmorphism of @idfun R] 1 (loopD G H); rewrite nr_mk [smn G]m1 => /(_ erefl) /= ->.
  by rewrite det_mx11 mxE.
have dl : adet (loopD G H) != 0 by rewrite detE subr_eq0 eq_sym mulrC.
rewrite /feedback check_ic_ok ?p1 ?m1 ?p1' ?m1' // [bind _ _]/= /fb_core.
rewrite np_matmul_same -?/(smn H) -?/(spn G) ?p1 ?m1' // [bind _ _]/=.
rewrite np_sub_same ?nr_mk ?nc_mk -?/(spn H) -?/(smn G) ?p1' ?m1 // [bind _ _]/=.
have -> : asub (aeye 1) (amul (sd H) (sd G)) = loopD G H by rewrite /loopD m1.
rewrite eill dl g g' (anyP _ _ p1 m1 erefl d0) (anyP _ _ p1' m1' erefl n0) [andb _ _]/=.
rewrite (@np_solveP _ 1 1) ?nr_mk ?nc_mk // (negbTE dl) [bind _ _]/=.
rewrite np_matmul_same ?nr_mk -?/(smn G) ?m1 // [bind _ _]/=.
rewrite np_add_same ?nr_mk ?nc_mk // [bind _ _]/= mkGain_ok ?(wfS_dt w) //.
eexists; split; first by [].
set mat := aadd _ _; have -> : get (sd (St (e00 R) (e00 R) (e00 R) mat true (sdt G))) 0 0 = get mat 0 0 by [].
pose f := [rmorphism of @idfun R].
have nE : nr (loopD G H) = 1%N by rewrite nr_mk.
have key : get mat 0 0 * (1 - n * d) = d - 2%:R * (d * n * d).
  have /matrixP/(_ 0 0) : mxof f 1 1 mat *m mxof f 1 1 (loopD G H) =
     mxof f 1 1 (sd G) *m mxof f 1 1 (loopD G H) - mxof f 1 1 (sd G) *m mxof f 1 1 (amul (sd H) (sd G)).
    rewrite /mat mxof_add // mxof_scale ?nr_mk ?nc_mk // mulmxDl -scalemxAl.
    rewrite (@mxof_mul _ _ _ _ 1) ?nr_mk ?nc_mk // (@mxof_mul _ _ _ _ 1) ?nr_mk ?nc_mk //.
    rewrite mxof_inv // /f /= scaleN1r; congr (_ - _); rewrite -!mulmxA; congr (_ *m _).
    have uE : mxof f 1 1 (loopD G H) \in unitmx by rewrite unit_adet.
    have lE : mxof f 1 1 (amul (sd H) (sd G)) = 1%:M - mxof f 1 1 (loopD G H).
      by rewrite /loopD m1 mxof_sub // mxof_eye subKr.
    by rewrite lE mulmxBl mulmxBr mul1mx mulmxA mulVmx // mul1mx.
  by rewrite !mxE !big_ord1 !mxE /= ndE ldE -/d => ->; mc_ring R.
apply/negP => /eqP e; have : get mat 0 0 * (1 - n * d) * (1 + d * n) = d * (1 - n * d).
  by rewrite mulrAC e.
rewrite key => /eqP; rewrite -subr_eq0.
have -> : (d - 2%:R * (d * n * d)) * (1 + d * n) - d * (1 - n * d) = - (2%:R * d * (d * n) ^+ 2) by mc_ring R.
by rewrite oppr_eq0 !mulf_eq0 pnatr_eq0 (negbTE d0) (negbTE n0).
Qed.


(* when the loop is accepted *)
Lemma feedback_total (ill : arr R -> bool) G H (neg : bool) :
  wfS G -> wfS H -> sdt G = sdt H -> spn G = smn H -> smn G = spn H ->
  ~~ ill (loopD G H) -> adet (loopD G H) != 0 ->
  (sgain G && sgain H -> aany (sd G) && aany (sd H)) ->
  is_ok (feedback ill (FState G) (FState H) neg).
Proof.
move=> w w' edt e1 e2 eill dl hg.
have dtk := wfS_dt w.
rewrite /feedback check_ic_ok // [bind _ _]/= /fb_core.
rewrite np_matmul_same // [bind _ _]/= np_sub_same ?nr_mk ?nc_mk // [bind _ _]/= -/(loopD G H).
rewrite eill; set sign : R := if neg then -1 else 1.
have cl nn a b c m : shp a = (nn, nn) -> shp b = (nn, smn G) -> shp c = (spn G, nn) -> shp m = (smn G, nn) ->
  is_ok (close_loop (ablock a b c (sd G)) (avcat b (sd G)) (ahcat m (amul (sd H) (sd G))) (loopD G H) sign nn (sdt G)).
  move=> h1 h2 h3 h4.
  have h5 : shp (sd G) = (spn G, smn G) by [].
  have h6 : shp (amul (sd H) (sd G)) = (smn G, smn G) by rewrite /shp nr_mk nc_mk -/(spn H) -e2.
  have h7 : shp (loopD G H) = (smn G, smn G) by rewrite /shp nr_mk nc_mk.
  by have [K [[-> _ _ _ _] _]] := close_loopP sign h1 h2 h3 h5 h4 h6 h7 dtk dl.
case g: (sgain G) in hg *; case g': (sgain H) in hg * => /=.
- rewrite hg // (@np_solveP _ (smn G) (smn G)) ?nr_mk ?nc_mk // (negbTE dl) [bind _ _]/=.
  rewrite np_matmul_same ?nr_mk // [bind _ _]/=.
  by rewrite np_add_same ?nr_mk ?nc_mk // [bind _ _]/= mkGain_ok.
- have [[wa' wb' wc' wd'] [x1 x2 x3 x4 x5]] := wfS_dyn w' g'.
  rewrite np_matmul_same ?x5 -?e1 // [bind _ _]/=.
  by apply: cl; rewrite /shp ?nr_mk ?nc_mk -?/(spn _) -?/(smn _) ?x1 ?x2 ?x3 ?x4 -?e1 -?e2.
- have [[wa wb wc wd'] [x1 x2 x3 x4 x5]] := wfS_dyn w g.
  rewrite np_matmul_same; last by rewrite x4 -/(smn H) -e1.
  rewrite [bind _ _]/=.
  by apply: cl; rewrite /shp ?nr_mk ?nc_mk -?/(spn _) -?/(smn _) ?x1 ?x2 ?x3 ?x4 ?x5 -?e1 -?e2.
- have [[wa wb wc wd] [x1 x2 x3 x4 x5]] := wfS_dyn w g.
  have [[wa' wb' wc' wd'] [y1 y2 y3 y4 y5]] := wfS_dyn w' g'.
  have q1 : nc (sb H) = nr (sc G) by rewrite x4 y5.
  have q2 : nc (sb H) = nr (sd G) by rewrite y5.
  have q3 : nc (sd H) = nr (sc G) by rewrite x4.
  rewrite (np_matmul_same q1) (np_matmul_same q2) (np_matmul_same q3) [bind _ _]/=.
  by apply: cl; rewrite /shp ?nr_mk ?nc_mk -?/(spn _) -?/(smn _) ?x1 ?x2 ?x3 ?x4 ?x5 ?y1 ?y2 ?y3 ?y4 ?y5 -?e1 -?e2.
Qed.

(* ---------------- statements used in PropsFeedback.v ---------------- *)
Lemma positive_feedback (ill : arr R -> bool) G H :
  wfS G -> wfS H -> sdt G = sdt H -> spn G = smn H -> smn G = spn H ->
  (forall M, ill M = (adet M == 0)) ->
  adet (asub (aeye (smn G)) (amul (sd H) (sd G))) != 0 ->
  (sgain G && sgain H -> aany (sd G) && aany (sd H)) ->
  exists K, [/\ feedback ill (FState G) (FState H) false = Ok K, wfS K, sshape K = sshape G,
     sdt K = sdt G & snn K = (snn G + snn H)%N] /\
  forall (L : fieldType) (f : {rmorphism R -> L}) (s : L), regS f G s -> regS f H s ->
   let Gs := evalS f (spn G) (smn G) G s in let Hs := evalS f (smn G) (spn G) H s in
   let Ks := evalS f (spn G) (smn G) K s in
   regS f K s = (1%:M - Hs *m Gs \in unitmx) /\ (regS f K s -> (1%:M - Gs *m Hs) *m Ks = Gs).
Proof.
move=> w w' edt e1 e2 eill dl hg.
have [K [h1 h2]] := feedbackP w w' edt e1 e2 eill (neg := false) dl hg.
exists K; split=> // L f s rG rH Gs Hs Ks; have := h2 L f s rG rH.
by rewrite /= !scale1r.
Qed.

Lemma negative_feedback (ill : arr R -> bool) G H :
  wfS G -> wfS H -> sdt G = sdt H -> spn G = smn H -> smn G = spn H ->
  (forall M, ill M = (adet M == 0)) ->
  ~~ (sgain G && sgain H) -> amul (sd H) (sd G) = azeros (smn G) (smn G) ->
  exists K, [/\ feedback ill (FState G) (FState H) true = Ok K, wfS K, sshape K = sshape G,
     sdt K = sdt G & snn K = (snn G + snn H)%N] /\
  forall (L : fieldType) (f : {rmorphism R -> L}) (s : L), regS f G s -> regS f H s ->
   let Gs := evalS f (spn G) (smn G) G s in let Hs := evalS f (smn G) (spn G) H s in
   let Ks := evalS f (spn G) (smn G) K s in
   regS f K s = (1%:M + Hs *m Gs \in unitmx) /\ (regS f K s -> (1%:M + Gs *m Hs) *m Ks = Gs).
Proof.
move=> w w' edt e1 e2 eill ng z.
have dl : adet (asub (aeye (smn G)) (amul (sd H) (sd G))) != 0.
  rewrite -(@unit_adet _ _ [rmorphism of @idfun R] (smn G)) // mxof_sub // z mxof_zeros subr0 mxof_eye.
  exact: unitmx1.
have [K [h1 h2]] := feedbackP w w' edt e1 e2 eill (neg := true) dl (conj ng z).
exists K; split=> // L f s rG rH Gs Hs Ks; have := h2 L f s rG rH.
by rewrite /= !scaleN1r !opprK.
Qed.

Lemma positive_illposed (ill : arr R -> bool) G H :
  wfS G -> wfS H -> sdt G = sdt H -> spn G = smn H -> smn G = spn H ->
  (forall M, ill M = (adet M == 0)) ->
  adet (asub (aeye (smn G)) (amul (sd H) (sd G))) = 0 ->
  feedback ill (FState G) (FState H) false = Err ValueError.
Proof. by move=> w w' edt e1 e2 eill z; apply: feedback_illposed => //; rewrite eill; apply/eqP. Qed.

Lemma mismatch (ill : arr R -> bool) G H neg :
  sdt G != sdt H \/ spn G != smn H \/ smn G != spn H ->
  feedback ill (FState G) (FState H) neg = Err ValueError.
Proof. by move=> h; apply: feedback_mismatch; case: h => [->//|[->|->]]; rewrite ?orbT. Qed.

Lemma array_operands (ill : arr R -> bool) G a neg :
  wfS G ->
  exists H, mkGain a (sdt G) = Ok H /\
  feedback ill (FState G) (FArr a) neg = feedback ill (FState G) (FState H) neg /\
  feedback ill (FArr a) (FState G) neg = feedback ill (FState H) (FState G) neg.
Proof.
move=> w; rewrite mkGain_ok ?(wfS_dt w) //; eexists; split; first by [].
by rewrite /feedback /check_feedback_ic mkGain_ok ?(wfS_dt w) //= eqxx.
Qed.

Lemma zero_gain (ill : arr R -> bool) G H neg :
  wfS G -> wfS H -> sdt G = sdt H -> spn G = smn H -> smn G = spn H ->
  ~~ ill (asub (aeye (smn G)) (amul (sd H) (sd G))) -> sgain G -> sgain H ->
  ~~ aany (sd G) || ~~ aany (sd H) ->
  feedback ill (FState G) (FState H) neg = Err UnboundLocalError.
Proof. by move=> w w' edt e1 e2 i g g' z; apply: feedback_unbound => //; rewrite negb_and. Qed.

Lemma negative_static (ill : arr R -> bool) G H :
  wfS G -> wfS H -> sdt G = sdt H -> sgain G -> sgain H -> sSISO G -> sSISO H ->
  (forall M, ill M = (adet M == 0)) ->
  let d := get (sd G) 0 0 in let n := get (sd H) 0 0 in
  d * n != 0 -> d * n != 1 ->
  exists K, feedback ill (FState G) (FState H) true = Ok K /\ (1 + d * n) * get (sd K) 0 0 != d.
Proof.
move=> w w' edt g g' si si' eill d n h0 h1.
have [K [e h]] := feedback_neg_static w w' edt g g' si si' eill h0 h1.
by exists K; split=> //; rewrite mulrC.
Qed.

Lemma det_siso_loop G H : sSISO G -> sSISO H ->
  adet (loopD G H) = 1 - get (sd G) 0 0 * get (sd H) 0 0.
Proof.
move=> si si'; have [p1 m1] := sSISOP _ si; have [p1' m1'] := sSISOP _ si'.
have := @mxof_det _ _ [rmorphism of @idfun R] 1 (loopD G H); rewrite nr_mk [smn G]m1 => /(_ erefl) /= ->.
rewrite det_mx11 mxE /= /loopD /asub get_mk ?m1 // get_mk //; congr (_ - _).
by rewrite get_mk -?/(spn H) -?/(smn G) ?p1' ?m1 // -/(smn H) m1' /sumN /= addr0 mulrC.
Qed.

Lemma negative_rejected (ill : arr R -> bool) G H :
  wfS G -> wfS H -> sdt G = sdt H -> sSISO G -> sSISO H ->
  (forall M, ill M = (adet M == 0)) ->
  get (sd G) 0 0 * get (sd H) 0 0 = 1 ->
  feedback ill (FState G) (FState H) true = Err ValueError /\ 1 + get (sd G) 0 0 * get (sd H) 0 0 != 0.
Proof.
move=> w w' edt si si' eill z; have [p1 m1] := sSISOP _ si; have [p1' m1'] := sSISOP _ si'.
split; last by rewrite z (_ : 1 + 1 = 2%:R) ?pnatr_eq0.
by apply: feedback_illposed; rewrite ?p1 ?m1' ?m1 ?p1' // eill det_siso_loop // z subrr.
Qed.

Lemma negative_accepted (ill : arr R -> bool) G H :
  wfS G -> wfS H -> sdt G = sdt H -> sSISO G -> sSISO H ->
  (forall M, ill M = (adet M == 0)) ->
  get (sd G) 0 0 * get (sd H) 0 0 = -1 ->
  is_ok (feedback ill (FState G) (FState H) true).
Proof.
move=> w w' edt si si' eill z; have [p1 m1] := sSISOP _ si; have [p1' m1'] := sSISOP _ si'.
have dl : adet (loopD G H) != 0 by rewrite det_siso_loop // z opprK (_ : 1 + 1 = 2%:R) ?pnatr_eq0.
apply: feedback_total; rewrite ?p1 ?m1' ?m1 ?p1' ?eill ?dl // => _.
have : get (sd G) 0 0 * get (sd H) 0 0 != 0 by rewrite z oppr_eq0 oner_eq0.
rewrite mulf_eq0 negb_or => /andP[d0 n0].
by rewrite /aany -/(spn G) -/(smn G) -/(spn H) -/(smn H) p1 m1 p1' m1' /= d0 n0.
Qed.

End Arr.
