(* A model that meets the hypotheses of C71_no_crossing and C71_siso: 1/(s+1) over any real closed field R,
   with the complex numbers R[i]. *)
From mathcomp Require Import all_ssreflect all_algebra zify.
From mathcomp Require Import complex.
From Coq Require Import String.
From Verif Require Import Base BaseTheory Spec ModelPoly ModelState Denote StateTheory StateProps ModelTransfer TransferTheory SpecSim ModelFreq
  SpecFreq FreqTheory PropsFreq ModelCtrl CtrlTheory ModelLyap SpecLyap ModelNorm SpecNorm NormTheory NormInf AuxTheory RingTac
  SpecConvert ConvertTf PropsNormInf.

Set Implicit Arguments.
Unset Strict Implicit.
Unset Printing Implicit Defensive.

Import Order.Theory GRing.Theory Num.Theory.
Local Open Scope ring_scope.
Local Open Scope complex_scope.

Section Ex.
Variable R : rcfType.
Let L := [fieldType of R[i]].
Let f : {rmorphism R -> L} := [rmorphism of @real_complex_def R (Phant R)].
Let cj : {rmorphism L -> L} := [rmorphism of @conjc R].
Let ii : L := 'i.
Definition gex : state R := St (of_rows [:: [:: -1]]) (of_rows [:: [:: 1]]) (of_rows [:: [:: 1]]) (of_rows [:: [:: 0]]) false None.
Definition exqr (b : arr R) := (aeye (nr b) : arr R, b).
Definition exhess (a : arr R) := (a, aeye (nr a) : arr R).
Definition exabs (M : arr L) : R := Num.sqrt (complex.Re (get M 0 0) ^+ 2 + complex.Im (get M 0 0) ^+ 2).
(* the eigenvalues of the Hamiltonian matrix  [-1 1/3; -1/3 1]  *)
Definition exeigs (M : arr R) : seq (R * R) := [:: (Num.sqrt (8%:R / 9%:R), 0); (- Num.sqrt (8%:R / 9%:R), 0)].

Lemma ex_complexes : complexes f ii cj.
Proof.
split.
- exact: sqr_i.
- by apply/eqP; rewrite eq_complex /= oppr0 !eqxx.
- by move=> x; apply/eqP; rewrite eq_complex /= oppr0 !eqxx.
move=> x y /eqP; rewrite eq_complex /= => /andP[/eqP h1 /eqP h2].
by move: h1 h2; rewrite !(mul0r, mul1r, mulr0, subr0, add0r, addr0, oppr0).
Qed.

Lemma ex_wf : wfS gex. Proof. by []. Qed.

Lemma ex_s (s : L) (w : R) : s = ii * f w -> s + 1 != 0.
Proof. move=> ->; rewrite eq_complex /= !(mul0r, mul1r, mulr0, subr0, add0r, addr0, oppr0) /= oner_eq0 //. Qed.

Lemma ex_A (s : L) : s%:M - mxof f 1 1 (sa gex) = (s + 1)%:M.
Proof. by apply/matrixP => i j; rewrite !ord1 !mxE /= rmorphN1 opprK. Qed.
Lemma ex_reg w : regS f gex (ii * f w).
Proof. by rewrite /regS /regular -[snn gex]/1%N ex_A unitmxE det_scalar1 unitfE (@ex_s _ w). Qed.
Lemma ex_ev w : ev f gex (ii * f w) 0 0 = (ii * f w + 1)^-1.
Proof.
rewrite /ev -[snn gex]/1%N ex_A invmx_scalar rmorph0 add0r !mxE big_ord1 !mxE big_ord1 !mxE /= rmorph1 mulr1 mul1r mulr1n //.
Qed.

Lemma ex_freq : freq_req exqr exhess gex.
Proof.
case=> // _; split; first split.
- by split.
- by rewrite /= mxof_eye trmx1 mulmx1.
- by rewrite /= mxof_eye mul1mx.
- by case=> // i [|[|j]] hij; rewrite /get /=; case: i hij => [|[|i]].
split.
- by split.
- by rewrite /= mxof_eye trmx1 mulmx1.
- by rewrite /= mxof_eye trmx1 mulmx1 mul1mx.
- by move=> [|i] j.
by case=> [|i] //= _; rewrite get_mk.
Qed.

Lemma ex_minor w l : (l <= 1)%N -> lead_minor f (row_hess exqr exhess gex 0) (ii * f w) l != 0.
Proof.
case: l => [|[|l]] // _; rewrite /lead_minor; first by rewrite det_mx00 oner_neq0.
have -> : (ii * f w)%:M - mxof f 1 1 (row_hess exqr exhess gex 0) = (ii * f w + 1)%:M; last by rewrite det_scalar1 (@ex_s _ w).
apply/matrixP => i j; rewrite !ord1 !mxE /=.
have -> : get (row_hess exqr exhess gex 0) 0 0 = -1.
  have m1 (A B : arr R) : nr A = 1%N -> nc A = 1%N -> nc B = 1%N -> get (amul A B) 0 0 = get A 0 0 * get B 0 0.
    by move=> r c c'; rewrite /amul r c c' get_mk // /sumN /= addr0.
  transitivity (get (amul (amul (aT (aeye 1)) (aT (sa gex))) (aeye 1)) 0 0); first by [].
  by rewrite !m1 // /get /= mul1r mulr1.
by rewrite rmorphN1 opprK.
Qed.


Definition expeak := @peak R L f exqr exhess ii id 1 exabs gex.
Lemma ex_resp w : exabs (resp f gex (ii * f w)) ^+ 2 = (w ^+ 2 + 1)^-1 /\ 0 <= exabs (resp f gex (ii * f w)).
Proof.
rewrite /exabs sqrtr_ge0 sqr_sqrtr ?addr_ge0 ?sqr_ge0 // /resp get_mk // ex_ev; split=> //.
have h : w ^+ 2 + 1 != 0 by rewrite gt_eqF // ltr_paddl ?ltr01 ?sqr_ge0.
have -> : (ii * f w + 1)^-1 = (1 / (w ^+ 2 + 1)) +i* (- w / (w ^+ 2 + 1)).
  apply: (mulfI (@ex_s _ w erefl)); rewrite mulfV ?(@ex_s _ w) //; apply/eqP; rewrite eq_complex /=.
  rewrite !(mul0r, mul1r, mulr0, subr0, add0r, addr0, oppr0, sub0r).
  rewrite !mulNr addNr eqxx andbT mulrN opprK mulrA -expr2 -{1}[_^-1]mul1r -mulrDl addrC divff //.
rewrite /= !expr_div_n sqrrN expr1n -mulrDl [1 + _]addrC expr2 invfM mulrA divff // mul1r //.
Qed.

Lemma ex_peak : expeak [:: 0; 1] = Ok 1.
Proof.
rewrite /expeak /peak.
have [|fr [-> H]] := @fr_stateP R L f exqr exhess ii id 1 gex [:: 0; 1] "rad/s" "rad/s" ex_wf erefl isT isT isT ex_freq; first by left.
have [hs H'] := H 0%N 0%N isT isT; rewrite /= in hs.
have {}H' k : (k < 2)%N -> sample fr 0 0 k = Some (ev f gex (ii * f (nth 0 [:: 0; 1] k)) 0 0).
  move=> hk; have := H' k hk; case: (sample fr 0 0 k) => [v [_ -> _]|[l [hl /eqP h0]]] //.
  by have := @ex_minor (nth 0 [:: 0; 1] k) l hl; rewrite h0.
have F k : (k < 2)%N -> fr_at gex fr k = Some (resp f gex (ii * f (nth 0 [:: 0; 1] k))).
  move=> hk; transitivity (if isSome (sample fr 0 0 k) && true && true then
      Some (mk 1 1 (fun i j => odflt 0 (sample fr i j k))) else None); first by [].
  by rewrite H' //=; congr Some; apply: mk_ext => -[|i] [|j] //=; rewrite H'.
cbn [bind]; rewrite -[size _]/2%N /= !F //=.
congr Ok.
have [h0 p0] := ex_resp 0; have [h1 p1] := ex_resp 1.
have -> : exabs (resp f gex (ii * f 0)) = 1.
  apply/eqP; rewrite -(@eqr_expn2 _ 2) ?ler01 // h0 expr0n add0r invr1 expr1n //.
have hy : exabs (resp f gex (ii * f 1)) <= 1.
  rewrite -(@ler_pexpn2r _ 2) ?nnegrE ?ler01 // h1 !expr1n -[1 in X in _ <= X]invr1 lef_pinv ?posrE ?ltr01 ?addr_gt0 ?ltr01 //.
  by rewrite ler_addl ler01.
by rewrite /lmax /= (max_r hy) maxxx.
Qed.

Lemma ex_D : exabs (feed f gex) = 0.
Proof. by rewrite /exabs /feed get_mk //= !expr0n addr0 sqrtr0. Qed.

Definition exnorm := @system_norm R L f exqr exhess ii id 1 0 (fun A => (A, A)) (fun A B => (A, B, A, B)) (fun n => azeros n n)
  Num.sqrt 0 1 exeigs (fun z => Num.sqrt (z.1 ^+ 2 + z.2 ^+ 2)) exabs (fun=> [:: (-1, 0)]) xpredT gex PInf 0.

Lemma ex_ham : exists M, ham gex 3%:R = Ok M.
Proof.
rewrite /ham.
have d (D : arr R) : nr D = 1%N -> nc D = 1%N -> adet D = get D 0 0 by move=> r c; rewrite -[LHS]/([rmorphism of @idfun R] (adet D)) (@mxof_det _ _ _ 1) // det_mx11 !mxE.
have e0 : get (asub (amul (aT (sd gex)) (sd gex)) (ascale (3%:R ^+ 2) (aeye (nc (sd gex))))) 0 0 = - 9%:R.
  rewrite /asub get_mk // /amul /aT /ascale !get_mk //= /sumN /= !get_mk //= /get /= mul0r !addr0 mulr1 sub0r -natrX //.
have s1 (A B : arr R) : shp A = (1, 1)%N -> shp B = (1, 1)%N -> get A 0 0 = - 9%:R -> exists X, np_solve A B = Ok X.
  move=> [r c] [r' c'] h; rewrite (@np_solveP _ 1 1) // d // h oppr_eq0 pnatr_eq0; by eexists.
have [|||x1 ->] := s1 (asub (amul (aT (sd gex)) (sd gex)) (ascale (3%:R ^+ 2) (aeye (nc (sd gex))))) (aT (sd gex)) => //.
have [|||x2 ->] := s1 (asub (amul (aT (sd gex)) (sd gex)) (ascale (3%:R ^+ 2) (aeye (nc (sd gex))))) (aT (sb gex)) => //.
by eexists.
Qed.

Lemma ex_norm : exnorm = Ok (NVal 2%:R).
Proof.
rewrite /exnorm /system_norm /norm_inf /low_damp.
have -> : has (fun x : R * R => x.2 != 0) [:: (-1, 0)] = false by rewrite /= eqxx.
rewrite -[[:: (-1, 0)] != [::]]/true /= sqrrN expr1n expr0n addr0 sqrtr1 /Num.min ltxx; cbn [bind].
have ep := ex_peak; rewrite /expeak in ep; rewrite ep; cbn [bind].
rewrite -/(feed f gex) ex_D /Num.max ltNge ler01 /=.
have -> : (1 * (1 + 2%:R * 1) : R) = 3%:R by rewrite mul1r mulr1 -(natrD _ 1 2).
have [M ->] := ex_ham; cbn [bind]; rewrite /= normrN.
have h : 0 < Num.sqrt (8%:R / 9%:R : R) by rewrite sqrtr_gt0 divr_gt0 ?ltr0n.
rewrite gtr0_norm // leNgt h /=; congr (Ok (NVal _)).
by apply: (@mulIf _ 2%:R); rewrite ?pnatr_eq0 // mulfVK ?pnatr_eq0 // -natrM -(natrD _ 1 3).
Qed.

Lemma ex_eigs : eig_req f ii 1 exeigs gex 2%:R.
Proof.
move=> l M hl; have -> : l * (1 + 2%:R * 1) = 3%:R.
  have -> : l = 1 by apply: (@mulIf _ 2%:R); rewrite ?pnatr_eq0 // mul1r [RHS]hl -(natrD _ 1 1).
  by rewrite mul1r mulr1 -(natrD _ 1 2).
move=> hM w [v v0 hv]; exfalso; move: v0; apply/negP; rewrite negbK.
have [_ _ _] := @hamP R L f gex 3%:R M ex_wf erefl hM.
rewrite -[snn gex]/1%N -[spn gex]/1%N -[smn gex]/1%N => eM.
have eA : mxof f 1 1 (sa gex) = (-1)%:M by apply/matrixP => i j; rewrite !ord1 !mxE /= rmorphN1.
have eB : mxof f 1 1 (sb gex) = 1%:M by apply/matrixP => i j; rewrite !ord1 !mxE /= rmorph1.
have sN (a : L) : - (a%:M : 'M_1) = (- a)%:M by rewrite raddfN.
have eD : mxof f 1 1 (sd gex) = 0 by apply/matrixP => i j; rewrite !ord1 !mxE /= rmorph0.
have {}hv : mxof f (1 + 1) (1 + 1) M *m v = (ii * f w) *: v.
  rewrite -[ii * f w]add0r -(rmorph0 f) -hv; congr (_ *m _).
  by apply/matrixP => i j; rewrite !mxE.
move: hv; rewrite eM /hamx eA eB eD trmx0 !mulmx0 !mul0mx subr0 sub0r sN invmx_scalar trmx1 !mulmx1.
rewrite tr_scalar_mx sN opprK -[v in LHS]vsubmxK -[v in RHS]vsubmxK mul_block_col scale_col_mx => /eq_col_mx[].
rewrite !scalemx1 -!scalar_mxM !mul_scalar_mx => /matrixP/(_ 0 0) h1 /matrixP/(_ 0 0) h2.
move: h1 h2; rewrite mxE [in LHS]mxE [(_ *: dsubmx v) 0 0]mxE [RHS]mxE => h1.
rewrite mxE [in LHS]mxE [(1 *: dsubmx v) 0 0]mxE [RHS]mxE => h2.
have c0 : f 3%:R != 0 by rewrite fmorph_eq0 pnatr_eq0.
have kE : - f 3%:R * (- f 3%:R ^+ 2)^-1 = (f 3%:R)^-1 by rewrite mulNr invrN mulrN opprK expr2 invfM mulrA mulfV // mul1r.
have kE' : f 3%:R * (- f 3%:R ^+ 2)^-1 = - (f 3%:R)^-1 by rewrite invrN mulrN expr2 invfM mulrA mulfV // mul1r.
move: h1 h2; rewrite kE kE'; set x := usubmx v 0 0; set y := dsubmx v 0 0 => h1 h2.
have hy : y = (ii * f w + 1) * f 3%:R * x.
  by rewrite mulrAC mulrDl -h1 mul1r mulN1r addrAC addNr add0r mulrAC mulVf // mul1r.
have hx : x = (1 - ii * f w) * f 3%:R * y.
  by rewrite mulrAC mulrBl -h2 !mul1r mulNr opprD opprK addrCA subrr addr0 mulrAC mulVf // mul1r.
have hs : (1 - ii * f w) * f 3%:R * ((ii * f w + 1) * f 3%:R) = f ((1 + w ^+ 2) * 9%:R).
  have -> : 9%:R = 3%:R ^+ 2 :> R by rewrite -natrX.
  have <- : (1 - ii ^+ 2 * (f w) ^+ 2) * (f 3%:R) ^+ 2 = f ((1 + w ^+ 2) * 3%:R ^+ 2).
    have i2 : ii ^+ 2 = -1 := sqr_i R.
    rewrite i2 mulN1r opprK rmorphM !rmorphX; congr (_ * _).
    by rewrite raddfD /= -[1 in LHS](rmorph1 f) -!(rmorphX f).
  by move: (f w) (f 3%:R) (ii) => a b c; mc_ring L.
have x0 : x = 0.
  have /eqP : (1 - f ((1 + w ^+ 2) * 9%:R)) * x = 0 by rewrite mulrBl mul1r -hs -mulrA -hy -hx subrr.
  rewrite mulf_eq0 => /orP[|/eqP] //; rewrite -(rmorph1 f) -rmorphB fmorph_eq0 subr_eq0 => /eqP h; exfalso.
  have : 1 < (1 + w ^+ 2) * 9%:R.
    have h9 : (1 : R) < 9%:R by rewrite (ltr_nat R 1 9).
    by apply: lt_le_trans h9 _; rewrite mulrDl mul1r ler_addl mulr_ge0 ?sqr_ge0 ?ler0n.
  by rewrite -h ltxx.
have y0 : y = 0 by rewrite hy x0 mulr0.
apply/eqP; rewrite -[v]vsubmxK [usubmx v]mx11_scalar [dsubmx v]mx11_scalar -/x -/y x0 y0.
by rewrite !raddf0 col_mx0.
Qed.

Lemma ex_modulus w : modulus_ok f exabs cj (resp f gex (ii * f w)).
Proof.
have [_ h0] := ex_resp w; split=> //.
rewrite /exabs sqr_sqrtr ?addr_ge0 ?sqr_ge0 //; case: (get _ 0 0) => a b /=.
by apply/eqP; rewrite eq_complex /= mulrN opprK -!expr2 mulrN mulrC addNr !eqxx.
Qed.

(* system_norm(1/(s+1), inf) with sqrt(eps) = 1: the value 2 = 1 (1 + 1), the gain 1 is attained and every gain is below
   1 (1 + 2) *)
Example C71_ex : exists l, [/\ 2%:R = l * (1 + 1),
  l = exabs (feed f gex) \/ (exists w : R, l = exabs (resp f gex (ii * f w))) &
  forall w : R, exabs (resp f gex (ii * f w)) < l * (1 + 2%:R * 1)].
Proof.
apply: (@C71_siso R L f exqr exhess ii id 1 0 (fun A => (A, A)) (fun A B => (A, B, A, B)) (fun n => azeros n n)
  Num.sqrt 0 1 exeigs (fun z => Num.sqrt (z.1 ^+ 2 + z.2 ^+ 2)) exabs (fun=> [:: (-1, 0)]) xpredT cj gex 0 2%:R ex_complexes
  ex_wf erefl erefl isT erefl ex_freq ltr01 (lexx _) ex_eigs ex_modulus _ ex_reg ex_norm _); last by rewrite pnatr_eq0.
by rewrite ex_D.
Qed.
End Ex.
Print Assumptions C71_ex.
