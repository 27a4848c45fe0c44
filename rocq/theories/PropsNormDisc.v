(* C71 fails for discrete-time models: the Hamiltonian test of system_norm is that of continuous time.  For
   10 - 1/(z + 1/2) the value returned is about 10, the gain at z = -1 is 12. *)
From mathcomp Require Import all_ssreflect all_algebra zify.
From mathcomp Require Import complex.
From Coq Require Import String.
From Verif Require Import Base BaseTheory Spec ModelPoly ModelState Denote StateTheory StateProps ModelTransfer TransferTheory SpecSim ModelFreq
  SpecFreq FreqTheory PropsFreq ModelCtrl CtrlTheory ModelLyap SpecLyap ModelNorm SpecNorm NormTheory NormInf AuxTheory RingTac
  SpecConvert ConvertTf PropsNormInf PropsNormEx PdTheory NormMimo PropsNormMimo PropsNormMimoEx.

Set Implicit Arguments.
Unset Strict Implicit.
Unset Printing Implicit Defensive.

Import Order.Theory GRing.Theory Num.Theory.
Local Open Scope ring_scope.
Local Open Scope complex_scope.

Section Disc.
Variable R : rcfType.
Let L := [fieldType of R[i]].
Let f : {rmorphism R -> L} := [rmorphism of @real_complex_def R (Phant R)].
Let cj : {rmorphism L -> L} := [rmorphism of @conjc R].
Let ii : L := 'i.
Definition hf : R := 2%:R^-1.
(* 10 - 1/(z + 1/2), SamplingPeriod = 1 *)
Definition gd : state R := St (of_rows [:: [:: - hf]]) (of_rows [:: [:: 1]]) (of_rows [:: [:: -1]]) (of_rows [:: [:: 10%:R]]) false (Some 1).

Lemma gd_wf : wfS gd. Proof. by rewrite /wfS /= ltr01. Qed.
Lemma gd_A (s : L) : s%:M - mxof f 1 1 (sa gd) = (s + f hf)%:M.
Proof. by apply/matrixP => i j; rewrite !ord1 !mxE /= rmorphN opprK. Qed.
Lemma gd_reg s : regS f gd s = (s + f hf != 0).
Proof. by rewrite /regS /regular -[snn gd]/1%N gd_A unitmxE det_scalar1 unitfE. Qed.
Lemma gd_ev s : ev f gd s 0 0 = f 10%:R - (s + f hf)^-1.
Proof.
rewrite /ev -[snn gd]/1%N gd_A invmx_scalar; congr (_ + _).
by rewrite !mxE big_ord1 !mxE big_ord1 !mxE /= rmorph1 mulr1 rmorphN1 mulN1r mulr1n.
Qed.

Lemma gd_freq : freq_req (@exqr R) (@exhess R) gd.
Proof.
case=> // _; split; first split.
- by split.
- by rewrite /= mxof_eye trmx1 mulmx1.
- by rewrite /= mxof_eye mul1mx.
- by case=> // i [|[|j]] hij; rewrite /get /=; case: i hij => [|[|i]].
split.
- by split.
- by rewrite /= mxof_eye trmx1 mulmx1.
- by rewrite /= mxof_eye trmx1 mulmx1 mul1mx.
- by move=> [|i] j.
by case=> [|i] //= _; rewrite get_mk.
Qed.
Lemma gd_minor s l : s + f hf != 0 -> (l <= 1)%N -> lead_minor f (row_hess (@exqr R) (@exhess R) gd 0) s l != 0.
Proof.
move=> hs; case: l => [|[|l]] // _; rewrite /lead_minor; first by rewrite det_mx00 oner_neq0.
have -> : s%:M - mxof f 1 1 (row_hess (@exqr R) (@exhess R) gd 0) = (s + f hf)%:M; last by rewrite det_scalar1.
apply/matrixP => i j; rewrite !ord1 !mxE /=.
have -> : get (row_hess (@exqr R) (@exhess R) gd 0) 0 0 = - hf.
  have m1 (A B : arr R) : nr A = 1%N -> nc A = 1%N -> nc B = 1%N -> get (amul A B) 0 0 = get A 0 0 * get B 0 0.
    by move=> r c c'; rewrite /amul r c c' get_mk // /sumN /= addr0.
  transitivity (get (amul (amul (aT (aeye 1)) (aT (sa gd))) (aeye 1)) 0 0); first by [].
  by rewrite !m1 // /get /= mul1r mulr1.
by rewrite rmorphN opprK.
Qed.

Lemma hf2 : hf + hf = 1.
Proof. by rewrite -mulr2n -[_ *+ 2]mulr_natr /hf mulVf ?pnatr_eq0. Qed.

(* the gain on the right half of the unit circle *)
Lemma gd_gain (u : L) : mod2 u = 1 -> 0 <= complex.Re u -> u + f hf != 0 /\ exabs (resp f gd u) <= 10%:R.
Proof.
have h0 : 0 < hf by rewrite invr_gt0 ltr0n.
case: u => x y /= m1 x0; have u0 : x +i* y + f hf != 0.
  by rewrite eq_complex /= negb_and gt_eqF // ltr_paddl.
split=> //.
rewrite -(@ler_pexpn2r _ 2) ?nnegrE ?ler0n ?sqrtr_ge0 //.
rewrite /exabs sqr_sqrtr ?addr_ge0 ?sqr_ge0 // /resp get_mk // gd_ev -/(mod2 _).
set z := x +i* y + f hf in u0 *.
have mm (a b : L) : mod2 (a * b) = mod2 a * mod2 b.
  by case: a b => a a' [b b']; rewrite /mod2 /=; mc_ring R.
have z0 : 0 < mod2 z.
  rewrite lt_def mod2_ge andbT; apply: contra u0; rewrite paddr_eq0 ?sqr_ge0 // !sqrf_eq0 eq_complex //.
rewrite -(@ler_pmul2r _ (mod2 z)) // -mm mulrBl mulVf //.
rewrite /z /mod2 /= in m1 *; move: m1; rewrite /mod2 /=.
rewrite !(mul0r, addr0, subr0, mulr0, oppr0) => m1.
have y2 : y ^+ 2 = 1 - x ^+ 2 by rewrite -m1 [x ^+ 2 + _]addrC addrK.
have -> : (10%:R * y) ^+ 2 = 100%:R * (1 - x ^+ 2) by rewrite exprMn y2 -natrX.
rewrite y2 -subr_ge0.
have -> : 10%:R ^+ 2 * ((x + hf) ^+ 2 + (1 - x ^+ 2)) - ((10%:R * (x + hf) - 1) ^+ 2 + 100%:R * (1 - x ^+ 2)) =
   9%:R + 20%:R * x + (20%:R * hf - 10%:R) by mc_ring R.
have -> : 20%:R * hf - 10%:R = 0.
  by apply/eqP; rewrite subr_eq0 /hf -[20%N]/(10 * 2)%N natrM mulfK // pnatr_eq0.
by rewrite addr0 addr_ge0 ?mulr_ge0 ?ler0n.
Qed.

Section Run.
Variables (expL : L -> L) (twopi : R).
(* exp(0) and exp(i/2) lie on the right half of the unit circle *)
Hypothesis circ : forall x, x \in [:: 0; hf] -> mod2 (expL (ii * f x)) = 1 /\ 0 <= complex.Re (expL (ii * f x)).
Hypothesis tp1 : 1 <= twopi.

Lemma gd_peak : exists2 r, @peak R L f (@exqr R) (@exhess R) ii expL twopi (@exabs R) gd [:: 0; hf] = Ok r & r <= 10%:R.
Proof.
have h0 : 0 < hf by rewrite invr_gt0 ltr0n.
have W2 : below_nyquist twopi (sdt gd) (in_rad twopi "rad/s" [:: 0; hf]) = [:: 0; hf].
  have hh : hf <= twopi / 2%:R / 1 by rewrite divr1 /hf -[X in X <= _]mul1r ler_pmul2r // invr_gt0 ltr0n.
  by rewrite /below_nyquist /in_rad /= hh (le_trans (ltW h0) hh).
rewrite /peak.
have := @fr_stateP R L f (@exqr R) (@exhess R) ii expL twopi gd [:: 0; hf] "rad/s" "rad/s" gd_wf erefl isT isT isT gd_freq.
rewrite W2; case=> [|fr [-> H]]; first by right.
have [hs H'] := H 0%N 0%N isT isT; rewrite /= in hs.
have sE k : (k < 2)%N -> jw f ii expL (sdt gd) (nth 0 [:: 0; hf] k) = expL (ii * f (nth 0 [:: 0; hf] k)) by rewrite /jw /= mulr1.
have cE k : (k < 2)%N -> mod2 (expL (ii * f (nth 0 [:: 0; hf] k))) = 1 /\ 0 <= complex.Re (expL (ii * f (nth 0 [:: 0; hf] k))).
  by move=> hk; apply: circ; apply: mem_nth.
have {}H' k : (k < 2)%N -> sample fr 0 0 k = Some (ev f gd (expL (ii * f (nth 0 [:: 0; hf] k))) 0 0).
  move=> hk; have := H' k hk; rewrite sE //; case: (sample fr 0 0 k) => [v [_ -> _]|[l [hl /eqP h1]]] //.
  have [c1 c2] := cE k hk; have [c3 _] := gd_gain c1 c2.
  by have := gd_minor c3 hl; rewrite h1.
have F k : (k < 2)%N -> fr_at gd fr k = Some (resp f gd (expL (ii * f (nth 0 [:: 0; hf] k)))).
  move=> hk; transitivity (if isSome (sample fr 0 0 k) && true && true then
      Some (mk 1 1 (fun i j => odflt 0 (sample fr i j k))) else None); first by [].
  by rewrite H' //=; congr Some; apply: mk_ext => -[|i] [|j] //=; rewrite H'.
cbn [bind]; rewrite -[size _]/2%N /= !F //=.
set a := exabs _; set b := exabs _; exists (lmax [:: a; b]) => //.
have ha : a <= 10%:R by have [c1 c2] := cE 0%N isT; have [] := gd_gain c1 c2.
have hb : b <= 10%:R by have [c1 c2] := cE 1%N isT; have [] := gd_gain c1 c2.
have /allP al : all (fun x => x <= 10%:R) [:: a; b] by rewrite /= ha hb.
by apply: al; apply: lmax_in.
Qed.

Lemma gd_D : exabs (feed f gd) = 10%:R.
Proof. by rewrite /exabs /feed get_mk //= expr0n addr0 sqrtr_sqr ger0_norm ?ler0n. Qed.

(* the Hamiltonian matrix for g > 10, and its eigenvalues *)
Lemma gd_ham g : 10%:R < g -> exists M, ham gd g = Ok M.
Proof.
move=> hg; rewrite /ham.
have d (D : arr R) : nr D = 1%N -> nc D = 1%N -> adet D = get D 0 0 by move=> r c; rewrite -[LHS]/([rmorphism of @idfun R] (adet D)) (@mxof_det _ _ _ 1) // det_mx11 !mxE.
have gn : 10%:R * 10%:R - g ^+ 2 != 0.
  rewrite lt_eqF // subr_lt0 -expr2 ltr_pexpn2r ?nnegrE ?ler0n // ltW // (lt_trans _ hg) // ltr0n.
have e0 (A B : arr R) : shp A = (1, 1)%N -> shp B = (1, 1)%N -> get A 0 0 = 10%:R -> get B 0 0 = 10%:R ->
    get (asub (amul A B) (ascale (g ^+ 2) (aeye 1))) 0 0 != 0.
  move=> [r c] [r' c'] h h'; rewrite /asub /amul /ascale r c c' /= !get_mk //= ?get_mk //= /sumN /= h h' addr0 mulr1 //.
have s1 (A B : arr R) : shp A = (1, 1)%N -> shp B = (1, 1)%N -> get A 0 0 != 0 -> exists X, np_solve A B = Ok X.
  move=> [r c] [r' c'] h; rewrite (@np_solveP _ 1 1) // d // (negbTE h); by eexists.
pose Rm := asub (amul (aT (sd gd)) (sd gd)) (ascale (g ^+ 2) (aeye (nc (sd gd)))).
have R0 : get Rm 0 0 != 0 := e0 (aT (sd gd)) (sd gd) erefl erefl erefl erefl.
rewrite -/Rm; have [x1 ->] := @s1 Rm (aT (sd gd)) erefl erefl R0.
have [x2 ->] := @s1 Rm (aT (sb gd)) erefl erefl R0.
have [x3 e3] := @s1 Rm (sc gd) erefl erefl R0.
rewrite e3.
by eexists.
Qed.

Lemma gd_eig g M z : 10%:R < g -> ham gd g = Ok M -> eigenvalue_of f ii (mxof [rmorphism of @idfun R] (1 + 1) (1 + 1) M) z -> hf < `|z.1|.
Proof.
move=> hg hM [v v0 hv].
have [_ _ _] := @hamP R L f gd g M gd_wf erefl hM.
rewrite -[snn gd]/1%N -[spn gd]/1%N -[smn gd]/1%N => eM.
have a1 (a : 'M[L]_1) : a = (a 0 0)%:M by rewrite -mx11_scalar.
set r := 10%:R ^+ 2 - g ^+ 2.
have g1 : 0 < g by apply: lt_trans hg; rewrite ltr0n.
have r0 : r < 0 by rewrite subr_lt0 ltr_pexpn2r ?nnegrE ?ler0n // ltW.
have eA : mxof f 1 1 (sa gd) = (f (- hf))%:M by apply/matrixP => i j; rewrite !ord1 !mxE.
have eB : mxof f 1 1 (sb gd) = (f 1)%:M by apply/matrixP => i j; rewrite !ord1 !mxE.
have eC : mxof f 1 1 (sc gd) = (f (-1))%:M by apply/matrixP => i j; rewrite !ord1 !mxE.
have eD : mxof f 1 1 (sd gd) = (f 10%:R)%:M by apply/matrixP => i j; rewrite !ord1 !mxE.
pose a := - hf + 10%:R / r; pose b := - g / r; pose c := g / r.
have {}hv : block_mx (f a)%:M (f b)%:M (f c)%:M (f (- a))%:M *m v = (f z.1 + ii * f z.2) *: v.
  rewrite -hv; congr (_ *m _).
  have -> : map_mx f (mxof [rmorphism of @idfun R] (1 + 1) (1 + 1) M) = mxof f (1 + 1) (1 + 1) M by apply/matrixP => i j; rewrite !mxE.
  have sD (x y : L) : (x%:M : 'M[L]_1) - y%:M = (x - y)%:M by rewrite -raddfB.
  have sN (x : L) : - (x%:M : 'M[L]_1) = (- x)%:M by rewrite -raddfN.
  rewrite eM /hamx eA eB eC eD !tr_scalar_mx -!scalar_mxM !sD !invmx_scalar !scale_scalar_mx -!scalar_mxM !sD tr_scalar_mx sN.
  have rE : f 10%:R * f 10%:R - f g ^+ 2 = f r by rewrite -rmorphX -rmorphM -expr2 -rmorphB.
  rewrite rE -fmorphV -!rmorphN -!rmorphM -!rmorphB -?rmorphN /a /b /c.
  congr block_mx; congr (_%:M); congr (f _); rewrite ?mul1r ?mulr1 ?mulrN1 ?opprK ?mulN1r ?opprK //.
  - by rewrite [r^-1 * _]mulrC.
  - by rewrite mulrNN.
  - by rewrite [r^-1 * _]mulrC.
move: hv; rewrite -[v in LHS]vsubmxK -[v in RHS]vsubmxK mul_block_col scale_col_mx => /eq_col_mx[].
rewrite !mul_scalar_mx => /matrixP/(_ 0 0) h1 /matrixP/(_ 0 0) h2; set zz := f z.1 + ii * f z.2 in h1 h2.
have e1 (p q : 'M[L]_1) : (p + q) 0 0 = p 0 0 + q 0 0 by rewrite mxE.
have e2 (p : L) (q : 'M[L]_1) : (p *: q) 0 0 = p * q 0 0 by rewrite mxE.
rewrite e1 !e2 in h1; rewrite e1 !e2 in h2.
set x := usubmx v 0 0 in h1 h2; set y := dsubmx v 0 0 in h1 h2.
pose k := hf ^+ 2 - 9%:R / r.
have kE : a ^+ 2 + b * c = k.
  have rn : r != 0 by rewrite lt_eqF.
  rewrite /k; have -> : 9%:R / r = 10%:R / r - (10%:R ^+ 2 - g ^+ 2) / r ^+ 2.
    have -> : r / r ^+ 2 = r^-1 by rewrite expr2 invfM mulrA divff // mul1r.
    by rewrite -[X in _ - X]mul1r -mulrBl; congr (_ / _); rewrite -[10%N]/(9 + 1)%N natrD addrK.
  have h10 : hf * 10%:R + hf * 10%:R = 10%:R by rewrite -mulrDl hf2 mul1r.
  have gen (h t u w : R) : h * u + h * u = u -> (- h + u * t) ^+ 2 + (- w * t) * (w * t) = h ^+ 2 - (u * t - (u ^+ 2 - w ^+ 2) * (t * t)).
    move=> e; have -> : u * t - (u ^+ 2 - w ^+ 2) * (t * t) = (h * u + h * u) * t - (u ^+ 2 - w ^+ 2) * (t * t) by rewrite e.
    by mc_ring R.
  by rewrite /a /b /c (gen _ _ _ _ h10) [r ^+ 2]expr2 invfM.
have fk : (zz ^+ 2 - f k) * x = 0 /\ (zz ^+ 2 - f k) * y = 0.
  rewrite -kE rmorphD rmorphX rmorphM; rewrite rmorphN in h2.
  split.
    have -> : (zz ^+ 2 - (f a ^+ 2 + f b * f c)) * x = - (zz + f a) * (f a * x + f b * y - zz * x) - f b * (f c * x + - f a * y - zz * y) by mc_ring L.
    by rewrite h1 h2 !subrr !mulr0 subrr.
  have -> : (zz ^+ 2 - (f a ^+ 2 + f b * f c)) * y = (f a - zz) * (f c * x + - f a * y - zz * y) - f c * (f a * x + f b * y - zz * x) by mc_ring L.
  by rewrite h1 h2 !subrr !mulr0 subrr.
have k0 : hf ^+ 2 < k by rewrite /k ltr_addl oppr_gt0 ltr_ndivr_mulr // mul0r ltr0n.
have : zz ^+ 2 = f k.
  apply/eqP; rewrite -subr_eq0; apply: contraTT v0 => kn; rewrite negbK.
  have [/eqP] := fk; rewrite mulf_eq0 (negbTE kn) /= => /eqP x0 /eqP; rewrite mulf_eq0 (negbTE kn) /= => /eqP y0.
  by apply/eqP; rewrite -[v]vsubmxK [usubmx v]mx11_scalar [dsubmx v]mx11_scalar -/x -/y x0 y0 !raddf0 col_mx0.
have i2 : ii ^+ 2 = -1 := sqr_i R.
have [_ _ _ cx] := @ex_complexes R.
move=> hz; have /cx[] : f (z.1 ^+ 2 - z.2 ^+ 2 - k) + ii * f (2%:R * z.1 * z.2) = 0.
  have -> : f (z.1 ^+ 2 - z.2 ^+ 2 - k) = f z.1 ^+ 2 + ii ^+ 2 * f z.2 ^+ 2 - zz ^+ 2 by rewrite hz i2 mulN1r !rmorphB !rmorphX.
  rewrite /zz !rmorphM rmorph_nat; move: (f z.1) (f z.2) ii => u w i; mc_ring L.
move=> p1 /eqP; rewrite !mulf_eq0 pnatr_eq0 /= => p2.
have h0 : 0 < hf by rewrite invr_gt0 ltr0n.
have kk : 0 < k by apply: lt_trans k0; rewrite exprn_gt0.
have z1 : k <= z.1 ^+ 2.
  move/eqP: p1; rewrite subr_eq0 => /eqP p1; case/orP: p2 => /eqP p2; last by rewrite -p1 p2 expr0n subr0.
  by move: kk; rewrite -p1 p2 expr0n sub0r oppr_gt0 ltNge sqr_ge0.
by rewrite -(@ltr_pexpn2r _ 2) ?nnegrE ?normr_ge0 ?(ltW h0) // real_normK ?num_real // (lt_le_trans k0).
Qed.

Section Thm.
Variables (tol : R) (schur : arr R -> arr R * arr R) (qz : arr R -> arr R -> arr R * arr R * arr R * arr R).
Variable X0 : nat -> arr R.
Variables (sq : R -> R) (atol sqeps : R).
Variable eigs : arr R -> seq (R * R).
Variable cabs : R * R -> R.
Variable poles : state R -> seq (R * R).
Variable stable : state R -> bool.
Local Notation norm := (system_norm f (@exqr R) (@exhess R) ii expL twopi tol schur qz X0 sq atol sqeps eigs cabs (@exabs R) poles stable).

(* C71 for discrete models: 10 - 1/(z + 1/2) has its pole in the unit disc and gain 12 at z = -1, but the value
   returned is 10 (1 + sqeps); the eigenvalue routine returns the exact eigenvalues, in any order *)
Theorem C71_discrete_refuted et : 0 < sqeps -> et <= hf -> stable gd ->
  poles gd = [:: (- hf, 0)] -> cabs (- hf, 0) = hf ->
  (forall M z, z \in eigs M -> eigenvalue_of f ii (mxof [rmorphism of @idfun R] (1 + 1) (1 + 1) M) z) ->
  [/\ norm gd PInf et = Ok (NVal (10%:R * (1 + sqeps))), regS f gd (-1), exabs (resp f gd (-1)) = 12%:R &
      sqeps < 5%:R^-1 -> 10%:R * (1 + sqeps) < exabs (resp f gd (-1))].
Proof.
move=> se et0 st po ca he.
have g12 : exabs (resp f gd (-1)) = 12%:R.
  rewrite /exabs /resp get_mk // gd_ev.
  have -> : f 10%:R - (-1 + f hf)^-1 = f 12%:R.
    have -> : -1 + f hf = f (- hf) by rewrite -(rmorph1 f) -hf2 rmorphD opprD addrNK rmorphN.
    by rewrite -fmorphV -rmorphB; congr (f _); rewrite invrN opprK /hf invrK -natrD.
  by rewrite /= expr0n addr0 sqrtr_sqr ger0_norm ?ler0n.
split=> //; last 2 first.
- have hn : hf != 0 by rewrite invr_eq0 pnatr_eq0.
  by rewrite gd_reg -(rmorph1 f) -rmorphN -rmorphD -hf2 opprD addrNK fmorph_eq0 oppr_eq0.
- rewrite g12 => s5; rewrite -[12%N]/(10 + 2)%N natrD mulrDr mulr1 ltr_add2l.
  by rewrite -[10%N]/(2 * 5)%N natrM -mulrA gtr_pmulr ?ltr0n // -ltr_pdivl_mull ?ltr0n // mulr1.
rewrite /system_norm /norm_inf st [poles gd]po /= /low_damp /= eqxx /= /bind /= ca minxx.
have [r -> r10] := gd_peak.
have -> : Num.max r (exabs (feed f gd)) = 10%:R by rewrite gd_D; apply/max_idPr.
have gg : 10%:R < 10%:R * (1 + 2%:R * sqeps) :> R by rewrite ltr_pmulr ?ltr0n // ltr_addl mulr_gt0 // ltr0n.
have [M hM] := gd_ham gg.
rewrite /hinf_loop hM.
have -> : [seq x <- eigs M | `|x.1| <= et] = [::].
  apply/eqP; rewrite -[_ == _]negbK -has_filter; apply/hasP => -[z hz].
  by apply/negP; rewrite -ltNge; apply: (le_lt_trans et0); apply: (gd_eig gg hM (he _ _ hz)).
congr (Ok (NVal _)); apply: (@mulIf _ 2%:R); first by rewrite pnatr_eq0.
by rewrite divfK ?pnatr_eq0 //; mc_ring R.
Qed.
End Thm.
End Run.
End Disc.

Section DiscEx.
Variable R : rcfType.
Let L := [fieldType of R[i]].
Let f : {rmorphism R -> L} := [rmorphism of @real_complex_def R (Phant R)].
Let ii : L := 'i.
(* the real eigenvalues of [a b; c -a] for b != 0 *)
Definition exeigd (M : arr R) : seq (R * R) :=
  let: (a, b, c) := (get M 0 0, get M 0 1, get M 1 0) in
  if [&& get M 1 1 == - a, b != 0 & 0 <= a ^+ 2 + b * c] then
    [:: (Num.sqrt (a ^+ 2 + b * c), 0); (- Num.sqrt (a ^+ 2 + b * c), 0)] else [::].
(* a point of the unit circle near exp(s): the bilinear approximation of exp *)
Definition exexp (s : L) : L := let t := complex.Im s / 2%:R in ((1 - t ^+ 2) / (1 + t ^+ 2) +i* (2%:R * t / (1 + t ^+ 2))).

Lemma exexpP (x : R) : x \in [:: 0; hf R] -> mod2 (exexp (ii * f x)) = 1 /\ 0 <= complex.Re (exexp (ii * f x)).
Proof.
move=> hx; have -> : ii * f x = 0 +i* x.
  rewrite /ii; apply/eqP; rewrite eq_complex /=.
  by rewrite !(mul0r, mul1r, mulr0, subr0, add0r, addr0) oppr0 !eqxx.
rewrite /exexp /=; set t := x / 2%:R.
have d0 : 0 < 1 + t ^+ 2 by rewrite ltr_paddr ?sqr_ge0 ?ltr01.
split.
  clearbody t; rewrite /mod2 /= !expr_div_n -mulrDl; have -> : (1 - t ^+ 2) ^+ 2 + (2%:R * t) ^+ 2 = (1 + t ^+ 2) ^+ 2 by mc_ring R.
  by rewrite divff // expf_neq0 // gt_eqF.
rewrite divr_ge0 ?(ltW d0) // subr_ge0.
have h0 : 0 <= hf R by rewrite invr_ge0 ler0n.
have h1 : hf R <= 1 by rewrite invf_le1 ?ltr0n // (ler_nat _ 1 2).
have [x0 x1] : 0 <= x /\ x <= 1 by move: hx; rewrite !inE => /orP[]/eqP->; rewrite ?lexx ?ler01 ?h0 ?h1.
rewrite exprn_ile1 ?divr_ge0 ?ler0n // ler_pdivr_mulr ?ltr0n // mul1r (le_trans x1) //.
by rewrite (ler_nat _ 1 2).
Qed.

Lemma exeigdP M z : z \in exeigd M -> eigenvalue_of f ii (mxof [rmorphism of @idfun R] (1 + 1) (1 + 1) M) z.
Proof.
rewrite /exeigd; case: ifP => // /and3P[/eqP d b0 k0] hz.
set a := get M 0 0 in d k0 hz *; set b := get M 0 1 in b0 k0 hz *; set c := get M 1 0 in k0 hz *.
have [z2 z1] : z.2 = 0 /\ z.1 ^+ 2 = a ^+ 2 + b * c by move: hz; rewrite !inE => /orP[]/eqP-> /=; rewrite ?sqrrN sqr_sqrtr.
pose v : 'cV[L]_(1 + 1) := col_mx (f b)%:M (f (z.1 - a))%:M.
exists v; first by apply: contra b0 => /eqP/matrixP/(_ (lshift 1 0) 0); rewrite col_mxEu !mxE mulr1n => /eqP; rewrite fmorph_eq0.
have -> : map_mx f (mxof [rmorphism of @idfun R] (1 + 1) (1 + 1) M) = block_mx (f a)%:M (f b)%:M (f c)%:M (f (- a))%:M.
  rewrite -[LHS]submxK; congr block_mx; apply/matrixP => i j; rewrite !ord1 !mxE /= ?mulr1n //.
  by rewrite -[(1 + 0)%N]/1%N d.
rewrite z2 rmorph0 mulr0 addr0 mul_block_col scale_col_mx -!scalar_mxM -!raddfD /= !scale_scalar_mx -!rmorphM -!rmorphD.
congr col_mx; congr (_%:M); congr (f _); first by mc_ring R.
have -> : z.1 * (z.1 - a) = z.1 ^+ 2 - a * z.1 by mc_ring R.
rewrite z1; clear; move: a b c z.1 => a b c w.
mc_ring R.
Qed.

Example C71_discrete_ex : system_norm f (@exqr R) (@exhess R) ii exexp 6%:R 0 (fun A => (A, A)) (fun A B => (A, B, A, B))
    (fun n => azeros n n) Num.sqrt 0 10%:R^-1 exeigd (fun z => Num.sqrt (z.1 ^+ 2 + z.2 ^+ 2)) (@exabs R)
    (fun=> [:: (- hf R, 0)]) xpredT (gd R) PInf 0 = Ok (NVal (10%:R * (1 + 10%:R^-1))).
Proof.
have h0 : 0 <= hf R by rewrite invr_ge0 ler0n.
have e10 : 0 < 10%:R^-1 :> R by rewrite invr_gt0 ltr0n.
have tp : 1 <= 6%:R :> R by rewrite (ler_nat _ 1 6).
have ca : Num.sqrt ((- hf R) ^+ 2 + 0 ^+ 2) = hf R by rewrite expr0n addr0 sqrtr_sqr normrN ger0_norm.
by have [] := @C71_discrete_refuted R exexp 6%:R exexpP tp 0 (fun A => (A, A)) (fun A B => (A, B, A, B)) (fun n => azeros n n) Num.sqrt 0 10%:R^-1
  exeigd (fun z => Num.sqrt (z.1 ^+ 2 + z.2 ^+ 2)) (fun=> [:: (- hf R, 0)]) xpredT 0 e10 h0 isT erefl ca exeigdP.
Qed.
End DiscEx.
Print Assumptions C71_discrete_refuted.
