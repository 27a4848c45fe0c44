(* A model with two outputs that meets the hypotheses of C71_continuous: [3/5; 4/5] / (s + 1) over any real closed
   field R, with the complex numbers R[i]. *)
From mathcomp Require Import all_ssreflect all_algebra zify.
From mathcomp Require Import complex.
From Coq Require Import String.
From Verif Require Import Base BaseTheory Spec ModelPoly ModelState Denote StateTheory StateProps ModelTransfer TransferTheory SpecSim ModelFreq
  SpecFreq FreqTheory PropsFreq ModelCtrl CtrlTheory ModelLyap SpecLyap ModelNorm SpecNorm NormTheory NormInf AuxTheory RingTac
  SpecConvert ConvertTf PropsNormInf PropsNormEx PdTheory NormMimo PropsNormMimo.

Set Implicit Arguments.
Unset Strict Implicit.
Unset Printing Implicit Defensive.

Import Order.Theory GRing.Theory Num.Theory.
Local Open Scope ring_scope.
Local Open Scope complex_scope.

Section Ex.
Variable R : rcfType.
Let L := [fieldType of R[i]].
Let f : {rmorphism R -> L} := [rmorphism of @real_complex_def R (Phant R)].
Let cj : {rmorphism L -> L} := [rmorphism of @conjc R].
Let ii : L := 'i.
Definition k3 : R := 3%:R / 5%:R.
Definition k4 : R := 4%:R / 5%:R.
Definition gex2 : state R := St (of_rows [:: [:: -1]]) (of_rows [:: [:: 1]]) (of_rows [:: [:: k3]; [:: k4]])
  (of_rows [:: [:: 0]; [:: 0]]) false None.
Definition mod2 (z : L) : R := complex.Re z ^+ 2 + complex.Im z ^+ 2.
(* the largest singular value of a column with two entries *)
Definition exnrm2 (M : arr L) : R := Num.sqrt (mod2 (get M 0 0) + mod2 (get M 1 0)).

Lemma k34 : k3 ^+ 2 + k4 ^+ 2 = 1.
Proof.
rewrite /k3 /k4 !expr_div_n -mulrDl -!natrX -natrD divff // pnatr_eq0 //.
Qed.
Lemma mod2_ge z : 0 <= mod2 z. Proof. by rewrite addr_ge0 ?sqr_ge0. Qed.
Lemma mod2E z : cj z * z = f (mod2 z).
Proof. by case: z => a b; apply/eqP; rewrite eq_complex /mod2 /= mulNr opprK -!expr2 mulNr [b * a]mulrC subrr !eqxx. Qed.
Lemma mod2M a z : mod2 (f a * z) = a ^+ 2 * mod2 z.
Proof. by case: z => x y; rewrite /mod2 /= !mul0r subr0 addr0 !exprMn -mulrDr. Qed.

Lemma ex2_cart : cartesian f ii.
Proof.
by case=> a b; exists a, b; apply/eqP; rewrite eq_complex /= !(mul0r, mul1r, mulr0, subr0, add0r, addr0, oppr0) !eqxx.
Qed.

Lemma ex2_wf : wfS gex2. Proof. by []. Qed.
Lemma ex2_A (s : L) : s%:M - mxof f 1 1 (sa gex2) = (s + 1)%:M.
Proof. by apply/matrixP => i j; rewrite !ord1 !mxE /= rmorphN1 opprK. Qed.
Lemma ex2_reg w : regS f gex2 (ii * f w).
Proof. by rewrite /regS /regular -[snn gex2]/1%N ex2_A unitmxE det_scalar1 unitfE (@ex_s _ _ w). Qed.
Definition kk (i : nat) : R := nth 0 [:: k3; k4] i.
Lemma ex2_ev w i : (i < 2)%N -> ev f gex2 (ii * f w) i 0 = f (kk i) * (ii * f w + 1)^-1.
Proof.
move=> hi; rewrite /ev -[snn gex2]/1%N ex2_A invmx_scalar.
have -> : get (sd gex2) i 0 = 0 by case: i hi => [|[|i]].
rewrite rmorph0 add0r !mxE big_ord1 !mxE big_ord1 !mxE /= rmorph1 mulr1 mulr1n.
by case: i hi => [|[|i]].
Qed.

Lemma ex2_freq : freq_req (@exqr R) (@exhess R) gex2.
Proof.
move=> i hi; split; first split.
- by split.
- by rewrite /= mxof_eye trmx1 mulmx1.
- by rewrite /= mxof_eye mul1mx.
- by move=> k j jk; rewrite /get /=; case: k jk => [|[|k]] //; case: j => [|[|j]].
split.
- by split.
- by rewrite /= mxof_eye trmx1 mulmx1.
- by rewrite /= mxof_eye trmx1 mulmx1 mul1mx.
- by move=> [|k] j.
by case=> [|k] //= _; rewrite get_mk.
Qed.

Lemma ex2_minor w i l : (i < 2)%N -> (l <= 1)%N -> lead_minor f (row_hess (@exqr R) (@exhess R) gex2 i) (ii * f w) l != 0.
Proof.
move=> hi; case: l => [|[|l]] // _; rewrite /lead_minor; first by rewrite det_mx00 oner_neq0.
have -> : (ii * f w)%:M - mxof f 1 1 (row_hess (@exqr R) (@exhess R) gex2 i) = (ii * f w + 1)%:M; last by rewrite det_scalar1 (@ex_s _ _ w).
apply/matrixP => a b; rewrite !ord1 !mxE /=.
have -> : get (row_hess (@exqr R) (@exhess R) gex2 i) 0 0 = -1.
  have m1 (A B : arr R) : nr A = 1%N -> nc A = 1%N -> nc B = 1%N -> get (amul A B) 0 0 = get A 0 0 * get B 0 0.
    by move=> r c c'; rewrite /amul r c c' get_mk // /sumN /= addr0.
  transitivity (get (amul (amul (aT (aeye 1)) (aT (sa gex2))) (aeye 1)) 0 0); first by [].
  by rewrite !m1 // /get /= mul1r mulr1.
by rewrite rmorphN1 opprK.
Qed.

Lemma ex2_mod w : mod2 ((ii * f w + 1)^-1) = (w ^+ 2 + 1)^-1.
Proof.
have h := @ex_s R _ w erefl; have e := mod2E ((ii * f w + 1)^-1).
apply: (fmorph_inj f); rewrite -e fmorphV fmorphV -invfM; congr (_^-1).
rewrite mod2E; congr (f _); rewrite /mod2 /= !(mul0r, mul1r, mulr0, subr0, add0r, addr0, oppr0) expr1n addrC //.
Qed.
Lemma ex2_resp w : exnrm2 (resp f gex2 (ii * f w)) ^+ 2 = (w ^+ 2 + 1)^-1 /\ 0 <= exnrm2 (resp f gex2 (ii * f w)).
Proof.
rewrite /exnrm2 sqrtr_ge0 sqr_sqrtr; last by apply: addr_ge0; apply: mod2_ge.
rewrite /resp !get_mk // !ex2_ev // !mod2M -mulrDl /kk /= k34 mul1r; split=> //.
exact: ex2_mod.
Qed.
Lemma ex2_D : exnrm2 (feed f gex2) = 0.
Proof. by rewrite /exnrm2 /feed !get_mk //= /mod2 /= !expr0n !addr0 sqrtr0. Qed.

Lemma ex2_induced w : induced_norm f cj (evalS f (spn gex2) (smn gex2) gex2 (ii * f w)) (exnrm2 (resp f gex2 (ii * f w))).
Proof.
have [h1 h2] := ex2_resp w; rewrite -[spn gex2]/2%N -[smn gex2]/1%N.
have e (u : 'cV[L]_1) : sqnorm cj (evalS f 2 1 gex2 (ii * f w) *m u) = f (exnrm2 (resp f gex2 (ii * f w)) ^+ 2) * sqnorm cj u.
  have -> : evalS f 2 1 gex2 (ii * f w) = (ii * f w + 1)^-1 *: (\col_i f (kk i)).
    by apply/matrixP => i j; rewrite evalSE !mxE ord1 ex2_ev // mulrC.
  rewrite -scalemxAl sq_scale mod2E ex2_mod h1; congr (_ * _).
  rewrite /sqnorm [u]mx11_scalar -scalemx1 -scalemxAr mulmx1 !adjZ -!scalemxAl -!scalemxAr !scalerA [LHS]mxE [RHS]mxE; congr (_ * _).
  have hc x : cj (f x) = f x by apply/eqP; rewrite eq_complex /= oppr0 !eqxx.
  have -> : (adjointc cj (1%:M : 'M[L]_1) *m 1%:M) 0 0 = 1 by rewrite mulmx1 !mxE eqxx rmorph1.
  have ad (v : 'cV[L]_2) i : adjointc cj v 0 i = cj (v i 0) by rewrite !mxE.
  rewrite [LHS]mxE !big_ord_recl big_ord0 addr0 !ad.
  have vE i : (\col_(i < 2) f (kk i)) i 0 = f (kk i) by rewrite mxE.
  by rewrite !vE !hc -!rmorphM -rmorphD -!expr2 /kk /= k34 rmorph1.
split=> //; last by exists 1; rewrite ?oner_neq0.
by move=> u; exists 0 => //; rewrite e subrr rmorph0.
Qed.

Lemma ex2_peak : @peak R L f (@exqr R) (@exhess R) ii id 1 exnrm2 gex2 [:: 0; 1] = Ok 1.
Proof.
rewrite /peak.
have [|fr [-> H]] := @fr_stateP R L f (@exqr R) (@exhess R) ii id 1 gex2 [:: 0; 1] "rad/s" "rad/s" ex2_wf erefl isT isT isT ex2_freq; first by left.
have H' i k : (i < 2)%N -> (k < 2)%N -> sample fr i 0 k = Some (ev f gex2 (ii * f (nth 0 [:: 0; 1] k)) i 0).
  move=> hi hk; have [hs H'] := H i 0%N hi isT; rewrite /= in hs.
  have := H' k hk; case: (sample fr i 0 k) => [v [_ -> _]|[l [hl /eqP h0]]] //.
  by have := @ex2_minor (nth 0 [:: 0; 1] k) i l hi hl; rewrite h0.
have F k : (k < 2)%N -> fr_at gex2 fr k = Some (resp f gex2 (ii * f (nth 0 [:: 0; 1] k))).
  move=> hk; transitivity (if [&& isSome (sample fr 0 0 k) && true, isSome (sample fr 1 0 k) && true & true] then
      Some (mk 2 1 (fun i j => odflt 0 (sample fr i j k))) else None); first by [].
  rewrite !H' //=; congr Some; apply: mk_ext => i [|j] //= hi _; by rewrite H'.
cbn [bind]; rewrite -[size _]/2%N /= !F //=.
congr Ok.
have [h0 p0] := ex2_resp 0; have [h1 p1] := ex2_resp 1.
have -> : exnrm2 (resp f gex2 (ii * f 0)) = 1.
  apply/eqP; rewrite -(@eqr_expn2 _ 2) ?ler01 // h0 expr0n add0r invr1 expr1n //.
have hy : exnrm2 (resp f gex2 (ii * f 1)) <= 1.
  rewrite -(@ler_pexpn2r _ 2) ?nnegrE ?ler01 // h1 !expr1n -[1 in X in _ <= X]invr1 lef_pinv ?posrE ?ltr01 ?addr_gt0 ?ltr01 //.
  by rewrite ler_addl ler01.
by rewrite /lmax /= (max_r hy) maxxx.
Qed.

Definition exnorm2 := @system_norm R L f (@exqr R) (@exhess R) ii id 1 0 (fun A => (A, A)) (fun A B => (A, B, A, B)) (fun n => azeros n n)
  Num.sqrt 0 1 (@exeigs R) (fun z => Num.sqrt (z.1 ^+ 2 + z.2 ^+ 2)) exnrm2 (fun=> [:: (-1, 0)]) xpredT gex2 PInf 0.

Lemma ex2_ham : exists M, ham gex2 3%:R = Ok M.
Proof.
rewrite /ham; set Rm := asub (amul (aT _) _) _; set Sm := asub (amul (sd gex2) _) _.
have d n (D : arr R) : shp D = (n, n) -> mxof [rmorphism of @idfun R] n n D = (- 9%:R)%:M -> adet D != 0.
  move=> [r c] e; rewrite -[adet D]/([rmorphism of @idfun R] (adet D)) (@mxof_det _ _ _ n) // e det_scalar expf_neq0 //.
  by rewrite oppr_eq0 pnatr_eq0.
have g9 : (3%:R ^+ 2 : R) = 9%:R by rewrite -natrX.
have e1 : mxof [rmorphism of @idfun R] 1 1 Rm = (- 9%:R)%:M.
  rewrite /Rm (@mxof_sub _ _ _ 1 1) // (@mxof_mul _ _ _ 1 2) // mxof_scale // mxof_eye.
  have -> : mxof [rmorphism of @idfun R] 2 1 (sd gex2) = 0 by apply/matrixP => i j; rewrite !mxE ord1; case: i => [[|[|i]] hi].
  by rewrite mulmx0 sub0r /= g9 scalemx1 -raddfN.
have e2 : mxof [rmorphism of @idfun R] 2 2 Sm = (- 9%:R)%:M.
  rewrite /Sm (@mxof_sub _ _ _ 2 2) // (@mxof_mul _ _ _ 2 1) // mxof_scale // mxof_eye.
  have -> : mxof [rmorphism of @idfun R] 2 1 (sd gex2) = 0 by apply/matrixP => i j; rewrite !mxE ord1; case: i => [[|[|i]] hi].
  by rewrite mul0mx sub0r /= g9 scalemx1 -raddfN.
have s1 n m (A B : arr R) : shp A = (n, n) -> shp B = (n, m) -> mxof [rmorphism of @idfun R] n n A = (- 9%:R)%:M -> exists X, np_solve A B = Ok X.
  move=> [r c] [r' c'] h; rewrite (@np_solveP _ n m) // (negbTE (d _ _ (f_equal2 pair r c) h)); by eexists.
have [x1 ->] := @s1 1%N 2%N Rm (aT (sd gex2)) erefl erefl e1.
have [x2 ->] := @s1 1%N 1%N Rm (aT (sb gex2)) erefl erefl e1.
have [x3 ->] := @s1 2%N 1%N Sm (sc gex2) erefl erefl e2.
by eexists.
Qed.

Lemma ex2_norm : exnorm2 = Ok (NVal 2%:R).
Proof.
rewrite /exnorm2 /system_norm /norm_inf /low_damp.
have -> : has (fun x : R * R => x.2 != 0) [:: (-1, 0)] = false by rewrite /= eqxx.
rewrite -[[:: (-1, 0)] != [::]]/true /= sqrrN expr1n expr0n addr0 sqrtr1 /Num.min ltxx; cbn [bind].
rewrite ex2_peak; cbn [bind].
rewrite -/(feed f gex2) ex2_D /Num.max ltNge ler01 /=.
have -> : (1 * (1 + 2%:R * 1) : R) = 3%:R by rewrite mul1r mulr1 -(natrD _ 1 2).
have [M ->] := ex2_ham; cbn [bind]; rewrite /= normrN.
have h : 0 < Num.sqrt (8%:R / 9%:R : R) by rewrite sqrtr_gt0 divr_gt0 ?ltr0n.
rewrite gtr0_norm // leNgt h /=; congr (Ok (NVal _)).
by apply: (@mulIf _ 2%:R); rewrite ?pnatr_eq0 // mulfVK ?pnatr_eq0 // -natrM -(natrD _ 1 3).
Qed.

(* the Hamiltonian matrix is that of 1/(s+1), because the column [3/5; 4/5] has norm 1 *)
Lemma ex2_eigs : eig_req f ii 1 (@exeigs R) gex2 2%:R.
Proof.
move=> l M hl; have l1 : l * (1 + 2%:R * 1) = 3%:R.
  have -> : l = 1 by apply: (@mulIf _ 2%:R); rewrite ?pnatr_eq0 // mul1r [RHS]hl -(natrD _ 1 1).
  by rewrite mul1r mulr1 -(natrD _ 1 2).
rewrite l1 => hM w hv.
have [M' hM'] := @ex_ham R.
apply: (@ex_eigs R l M' hl); first by rewrite l1.
have [_ _ _] := @hamP R L f gex2 3%:R M ex2_wf erefl hM.
have [_ _ _] := @hamP R L f (@gex R) 3%:R M' (@ex_wf R) erefl hM'.
rewrite -![snn _]/1%N -[smn gex2]/1%N -[spn gex2]/2%N -[smn (gex R)]/1%N -[spn (gex R)]/1%N => eM' eM.
have e : mxof f (1 + 1) (1 + 1) M = mxof f (1 + 1) (1 + 1) M'.
  rewrite eM eM' /hamx.
  have -> : mxof f 2 1 (sd gex2) = 0 by apply/matrixP => i j; rewrite !mxE ord1 /= -(rmorph0 f); case: i => [[|[|i]] hi].
  have -> : mxof f 1 1 (sd (gex R)) = 0 by apply/matrixP => i j; rewrite !mxE !ord1 /= rmorph0.
  rewrite !mulmx0 !trmx0 !mulmx0 !mul0mx !subr0 !sub0r.
  have eS n : invmx (- (f 3%:R ^+ 2)%:M) = (- f 3%:R ^+ 2)^-1%:M :> 'M[L]_n by rewrite -raddfN invmx_scalar.
  rewrite !eS; congr block_mx.
  rewrite !mul_scalar_mx -!scalemxAl -!scalemxAr; congr (_ *: (_ *: _)).
  apply/matrixP => i j; rewrite !ord1 [LHS]mxE [RHS]mxE !big_ord_recl !big_ord0 !addr0.
  have cE m n (C : arr R) (x : 'I_m) (y : 'I_n) : mxof f m n C x y = f (get C x y) by rewrite mxE.
  have tE m n (C : 'M[L]_(m, n)) x y : C^T x y = C y x by rewrite mxE.
  by rewrite !tE !cE -!rmorphM -rmorphD /get /= -!expr2 k34 expr1n.
case: hv => v v0 hv; exists v => //; rewrite -hv; congr (_ *m _).
by move/matrixP: e => e; apply/matrixP => i j; have := e i j; rewrite !mxE.
Qed.

(* system_norm([3/5; 4/5]/(s+1), inf) with sqrt(eps) = 1: the value 2 = 1 (1 + 1); every gain is below 1 (1 + 2) *)
Example C71_mimo_ex : exists l, [/\ 2%:R = l * (1 + 1),
  l = exnrm2 (feed f gex2) \/ (exists w : R, l = exnrm2 (resp f gex2 (ii * f w))) &
  forall w : R, exnrm2 (resp f gex2 (ii * f w)) < l * (1 + 2%:R * 1)].
Proof.
apply: (@C71_continuous R L f (@exqr R) (@exhess R) ii id 1 0 (fun A => (A, A)) (fun A B => (A, B, A, B)) (fun n => azeros n n)
  Num.sqrt 0 1 (@exeigs R) (fun z => Num.sqrt (z.1 ^+ 2 + z.2 ^+ 2)) exnrm2 (fun=> [:: (-1, 0)]) xpredT cj gex2 0 2%:R (@ex_complexes R)
  ex2_cart ex2_wf erefl erefl isT isT isT ex2_freq ltr01 (lexx _) ex2_eigs ex2_induced _ ex2_reg ex2_norm _); last by rewrite pnatr_eq0.
by rewrite ex2_D.
Qed.
End Ex.
Print Assumptions C71_mimo_ex.
