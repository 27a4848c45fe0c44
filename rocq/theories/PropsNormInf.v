(* C71: the H-infinity norm returned by system_norm for continuous-time models. *)
From mathcomp Require Import all_ssreflect all_algebra zify.
From Coq Require Import String.
From Verif Require Import Base BaseTheory Spec ModelPoly ModelState Denote StateTheory StateProps ModelTransfer TransferTheory SpecSim ModelFreq
  SpecFreq FreqTheory PropsFreq ModelCtrl CtrlTheory ModelLyap SpecLyap ModelNorm SpecNorm NormTheory NormInf AuxTheory RingTac
  SpecConvert ConvertTf.

Set Implicit Arguments.
Unset Strict Implicit.
Unset Printing Implicit Defensive.

Import Order.Theory GRing.Theory Num.Theory.
Local Open Scope ring_scope.

Local Notation Q := rat_realFieldType.

Lemma lmax_in (R : realFieldType) (s : seq R) : s != [::] -> lmax s \in s.
Proof.
case: s => // x s _; rewrite /lmax /=.
have h (t : seq R) : foldr Num.max x t \in x :: t.
  elim: t => [|y t IH] /=; first by rewrite inE.
  rewrite /Num.max; case: ifP => _; last by rewrite !inE eqxx orbT.
  by move: IH; rewrite !inE => /orP[->|->]; rewrite ?orbT.
by rewrite /Num.max; case: ifP => _; [exact: h | rewrite inE eqxx].
Qed.

Section Hinf.
Variables (R : realFieldType) (L : fieldType) (f : {rmorphism R -> L}).
Variables (qr hess : arr R -> arr R * arr R) (ii : L) (expL : L -> L) (twopi : R).
Variables (tol : R) (schur : arr R -> arr R * arr R) (qz : arr R -> arr R -> arr R * arr R * arr R * arr R).
Variable X0 : nat -> arr R.
Variables (sq : R -> R) (atol sqeps : R).
Variable eigs : arr R -> seq (R * R).
Variable cabs : R * R -> R.
Variable norm2 : arr L -> R.
Variable poles : state R -> seq (R * R).
Variable stable : state R -> bool.
Local Notation mx := (mxof [rmorphism of @idfun R]).
Local Notation norm := (system_norm f qr hess ii expL twopi tol schur qz X0 sq atol sqeps eigs cabs norm2 poles stable).
Local Notation peak_ := (peak f qr hess ii expL twopi norm2).
Implicit Types (G : state R) (w : seq R).

(* the transfer matrix at s, and the feedthrough, as arrays *)
Definition resp G (s : L) : arr L := mk (spn G) (smn G) (ev f G s).
Definition feed G : arr L := mk (nr (sd G)) (nc (sd G)) (fun i j => f (get (sd G) i j)).

Definition freq_req G := forall i, (i < spn G)%N -> hess_req qr hess (aT (sa G)) (aT (arows (sc G) [:: i])).

Lemma peakP G w r : wfS G -> sgain G = false -> (0 < snn G)%N -> freq_req G -> peak_ G w = Ok r ->
  exists2 x, x \in w & (let s := jw f ii expL (sdt G) x in r = norm2 (resp G s) /\
    ((0 < spn G)%N -> (0 < smn G)%N -> regS f G s)).
Proof.
move=> wf g n0 rq; rewrite /peak.
have := @fr_stateP R L f qr hess ii expL twopi G w "rad/s" "rad/s" wf g n0 erefl erefl rq.
rewrite /in_rad /=; set W := below_nyquist _ _ _ => H.
have [hW|hW] := boolP ((sdt G == None) || (W != [::])); last first.
  move: hW; rewrite negb_or negbK => /andP[h1 /eqP h2].
  have -> : fr_state f qr hess ii expL twopi G w "rad/s" "rad/s" = Err ValueError.
    by rewrite /fr_state /= freq_gridE /in_rad /= -/W h2 h1.
  by [].
have {}hW : sdt G = None \/ W != [::] by case/orP: hW => [/eqP|]; [left | right].
have [fr [-> {}H]] := H hW; rewrite [bind _ _]/= /to_unit /=.
case: ifP => // hs; case: ifP => // hn E.
have <- : lmax [seq norm2 (odflt (azeros 0 0) m) | m <- [seq fr_at G fr k | k <- iota 0 (size W)]] = r by case: E.
move: (lmax_in hn); rewrite -map_comp => /mapP [k]; rewrite mem_iota /= add0n => hk ->.
have sub : nth 0 W k \in w.
  by have := mem_nth 0 hk; rewrite /W /below_nyquist; case: (sdt G) => [h|] //; rewrite mem_filter => /andP[].
exists (nth 0 W k) => //=.
move: hs; rewrite all_map => /allP /(_ k); rewrite mem_iota /= add0n => /(_ hk).
rewrite /fr_at; case: ifP => // /allP ha _ /=.
have hij i j : (i < spn G)%N -> (j < smn G)%N -> regS f G (jw f ii expL (sdt G) (nth 0 W k)) /\
    odflt 0 (nth None (nth [::] (nth [::] fr i) j) k) = ev f G (jw f ii expL (sdt G) (nth 0 W k)) i j.
  move=> hi hj; have [_ /(_ k hk) /=] := H i j hi hj.
  have hi' : i \in iota 0 (spn G) by rewrite mem_iota.
  have hj' : j \in iota 0 (smn G) by rewrite mem_iota.
  by move: (ha i hi') => /allP /(_ j hj'); rewrite /sample; case: (nth None _ k) => // v _ [h1 -> _].
split; last by move=> p0 m0; have [] := hij 0%N 0%N p0 m0.
by congr norm2; apply: mk_ext => i j hi hj; have [_ ->] := hij i j hi hj.
Qed.

Local Notation A_ G := (mxof f (snn G) (snn G) (sa G)).
Local Notation B_ G := (mxof f (snn G) (smn G) (sb G)).
Local Notation C_ G := (mxof f (spn G) (snn G) (sc G)).
Local Notation D_ G := (mxof f (spn G) (smn G) (sd G)).

Lemma hamP G g M : wfS G -> sgain G = false -> ham G g = Ok M ->
  [/\ (D_ G)^T *m D_ G - (f g ^+ 2)%:M \in unitmx, D_ G *m (D_ G)^T - (f g ^+ 2)%:M \in unitmx,
      nr M = (snn G + snn G)%N &
      mxof f (snn G + snn G) (snn G + snn G) M = hamx (A_ G) (B_ G) (C_ G) (D_ G) (f g)].
Proof.
move=> w hg; have [[wa wb wc wd] [ca rb cc rc cb]] := wfS_dyn w hg; rewrite /ham.
set Rm := asub (amul (aT _) _) _; set Sm := asub (amul (sd G) _) _ => E.
have eR : mxof f (smn G) (smn G) Rm = (D_ G)^T *m D_ G - (f g ^+ 2)%:M.
  rewrite /Rm (@mxof_sub _ _ _ (smn G) (smn G)) // (@mxof_mul _ _ _ (smn G) (spn G)) // (@mxof_T _ _ _ (spn G) (smn G)) //.
  by rewrite mxof_scale // mxof_eye rmorphX scalemx1.
have eS : mxof f (spn G) (spn G) Sm = D_ G *m (D_ G)^T - (f g ^+ 2)%:M.
  rewrite /Sm (@mxof_sub _ _ _ (spn G) (spn G)) // (@mxof_mul _ _ _ (spn G) (smn G)) // (@mxof_T _ _ _ (spn G) (smn G)) //.
  by rewrite mxof_scale // mxof_eye rmorphX scalemx1.
have [x1 E1 {}E] := bindOk E; have [x2 E2 {}E] := bindOk E; have [x3 E3 {}E] := bindOk E.
have [w1 r1 c1 u1 e1] := @np_solve_ok _ _ f (smn G) (spn G) Rm (aT (sd G)) x1 erefl erefl E1.
have [w2 r2 c2 u2 e2] := @np_solve_ok _ _ f (smn G) (snn G) Rm (aT (sb G)) x2 erefl rb E2.
have [w3 r3 c3 u3 e3] := @np_solve_ok _ _ f (spn G) (snn G) Sm (sc G) x3 erefl cc E3.
rewrite eR in e1 u1; rewrite eR in e2 u2; rewrite eS in e3 u3.
set a1 := asub _ (amul (amul _ x1) _) in E.
have ea : mxof f (snn G) (snn G) a1 = A_ G - B_ G *m (invmx ((D_ G)^T *m D_ G - (f g ^+ 2)%:M) *m (D_ G)^T) *m C_ G.
  rewrite /a1 (@mxof_sub _ _ _ (snn G) (snn G)) // (@mxof_mul _ _ _ (snn G) (spn G)) //= (@mxof_mul _ _ _ (snn G) (smn G)) //=.
  by rewrite e1 (@mxof_T _ _ _ (spn G) (smn G)).
have <- : ablock a1 (amul (ascale (- g) (sb G)) x2) (amul (ascale g (aT (sc G))) x3) (aneg (aT a1)) = M by case: E.
split=> //=; first by rewrite cc.
rewrite (@mxof_block _ _ _ (snn G) (snn G) (snn G) (snn G)) //= /hamx -ea.
congr block_mx.
- rewrite (@mxof_mul _ _ _ (snn G) (smn G)) //= mxof_scale //= rmorphN e2.
  by rewrite (@mxof_T _ _ _ (snn G) (smn G)).
- rewrite (@mxof_mul _ _ _ (snn G) (spn G)) //= mxof_scale //= e3.
  by rewrite (@mxof_T _ _ _ (spn G) (snn G)).
by rewrite mxof_neg //= (@mxof_T _ _ _ (snn G) (snn G)).
Qed.

(* what the loop returns *)
Lemma hinf_loopP et G k lb v (P : R -> Prop) : (forall w r, peak_ G w = Ok r -> P r) -> P lb ->
  hinf_loop f qr hess ii expL twopi sqeps eigs norm2 et G k lb = Ok v ->
  exists l M, [/\ P l, v = l * (1 + sqeps), ham G (l * (1 + 2%:R * sqeps)) = Ok M &
    forall x, x \in eigs M -> et < `|x.1|].
Proof.
move=> hP; elim: k lb => [|k IH] lb // h0 /= E; have [M EM {}E] := bindOk E.
case F : [seq x <- eigs M | _] E => [|y s] E; last first.
  by have [r Er {}E] := bindOk E; apply: IH (hP _ _ Er) E.
exists lb, M; split=> //.
  have <- : (lb + lb * (1 + 2%:R * sqeps)) / 2%:R = v by case: E.
  apply: (@mulIf _ 2%:R); rewrite ?pnatr_eq0 // mulfVK ?pnatr_eq0 //; mc_ring R.
move=> x hx; rewrite ltNge; apply/negP => hle.
have : x \in [seq x <- eigs M | `|x.1| <= et] by rewrite mem_filter hle hx.
by rewrite F.
Qed.

Variable conj : {rmorphism L -> L}.

Lemma conj_mx m n (M : arr R) : (forall x, conj (f x) = f x) -> map_mx conj (mxof f m n M) = mxof f m n M.
Proof. by move=> h; apply/matrixP => i j; rewrite !mxE h. Qed.

Lemma conj_reg G s : complexes f ii conj -> conj s = - s -> regS f G s -> regS f G (- s).
Proof.
move=> [_ _ cf _] cs; rewrite /regS /regular => u.
have -> : (- s)%:M - A_ G = map_mx conj (s%:M - A_ G) by rewrite map_mxB map_scalar_mx cs conj_mx.
by rewrite map_unitmx.
Qed.
Lemma conj_ev G s : complexes f ii conj -> conj s = - s ->
  adjointc conj (evalS f (spn G) (smn G) G s) = (evalS f (spn G) (smn G) G (- s))^T.
Proof.
move=> [_ _ cf _] cs; rewrite /adjointc /evalS /tfmx map_mxD !map_mxM map_invmx map_mxB map_scalar_mx cs.
by rewrite !conj_mx.
Qed.
Lemma conj_iw (w : R) : complexes f ii conj -> conj (ii * f w) = - (ii * f w).
Proof. by move=> [_ ci cf _]; rewrite rmorphM ci cf mulNr. Qed.

(* the imaginary eigenvalues of the Hamiltonian matrix that decided about the result v are found *)
Definition eig_req G (v : R) := forall l M, v = l * (1 + sqeps) -> ham G (l * (1 + 2%:R * sqeps)) = Ok M ->
  forall w : R, eigenvalue_of f ii (mx (snn G + snn G) (snn G + snn G) M) (0, w) -> (0, w) \in eigs M.

Lemma hinf_core G et v : complexes f ii conj -> wfS G -> sgain G = false -> sdt G = None ->
  (0 < snn G)%N -> (0 < spn G)%N -> (0 < smn G)%N -> freq_req G -> 0 <= sqeps -> 0 <= et -> eig_req G v ->
  norm G PInf et = Ok (NVal v) -> v != 0 ->
  exists l, [/\ v = l * (1 + sqeps),
    l = norm2 (feed G) \/ (exists w : R, regS f G (ii * f w) /\ l = norm2 (resp G (ii * f w))),
    exists w : R, norm2 (resp G (ii * f w)) <= l &
    forall w : R, regS f G (ii * f w) -> ~ singular_value f conj (evalS f (spn G) (smn G) G (ii * f w)) (l * (1 + 2%:R * sqeps))].
Proof.
move=> cx wf hg hd n0 p0 m0 fq se et0 he; rewrite /system_norm /norm_inf; case: ifP => // _ E v0.
have [w0 E0 {}E] := bindOk E; have [lb Eb {}E] := bindOk E; have [v' El {}E] := bindOk E.
have ev' : v' = v by case: E.
rewrite ev' in El.
pose P l := (l = norm2 (feed G) \/ (exists w : R, regS f G (ii * f w) /\ l = norm2 (resp G (ii * f w)))) /\
  exists w : R, norm2 (resp G (ii * f w)) <= l.
have hP (w : seq R) r : peak_ G w = Ok r -> P r.
  move=> Ep; have [x _] := peakP wf hg n0 fq Ep; rewrite hd /= => -[e1 e2]; split.
    by right; exists x; split=> //; apply: e2.
  by exists x; rewrite e1.
have h0 : P (Num.max lb (norm2 (feed G))).
  have [h1 [w hw]] := hP _ _ Eb; split; last by exists w; rewrite le_maxr hw.
  by rewrite /Num.max; case: ifP => _; [left | ].
have [l [M [[Pl Pw] vl hM hE]]] := hinf_loopP hP h0 El.
exists l; split=> // w rw [u u0 Hu].
have [uR uS rM eM] := hamP wf hg hM; set g := l * _ in hM Hu uR uS eM.
have g0 : f g != 0.
  rewrite fmorph_eq0 mulf_neq0 //; first by apply: contra v0 => /eqP e; rewrite vl e mul0r.
  by rewrite gt_eqF // ltr_paddr ?ltr01 // mulr_ge0 ?ler0n.
have cs := conj_iw w cx.
have Hu' : (tfmx (A_ G) (B_ G) (C_ G) (D_ G) (- (ii * f w)))^T *m tfmx (A_ G) (B_ G) (C_ G) (D_ G) (ii * f w) *m u = f g ^+ 2 *: u.
  by rewrite -rmorphX -Hu conj_ev.
have [z z0 Hz] := ham_eig uR uS g0 rw (conj_reg cx cs rw) u0 Hu'.
have /(he _ _ vl hM) hin : eigenvalue_of f ii (mx (snn G + snn G) (snn G + snn G) M) (0, w).
  exists z => //=; rewrite rmorph0 add0r -Hz -eM; congr (_ *m _).
  by apply/matrixP => i j; rewrite !mxE.
by have := hE _ hin; rewrite /= normr0 ltNge et0.
Qed.

(* The result is  l (1 + sqrt(eps))  where l is the largest singular value of the feedthrough or of the response at
   some real frequency, and  l (1 + 2 sqrt(eps))  is not a singular value of the response at any frequency. *)
Theorem C71_no_crossing G et v : complexes f ii conj -> wfS G -> sgain G = false -> sdt G = None ->
  (0 < snn G)%N -> (0 < spn G)%N -> (0 < smn G)%N -> freq_req G -> 0 <= sqeps -> 0 <= et -> eig_req G v ->
  norm G PInf et = Ok (NVal v) -> v != 0 ->
  exists l, [/\ v = l * (1 + sqeps),
    l = norm2 (feed G) \/ (exists w : R, regS f G (ii * f w) /\ l = norm2 (resp G (ii * f w))) &
    forall w : R, regS f G (ii * f w) -> ~ singular_value f conj (evalS f (spn G) (smn G) G (ii * f w)) (l * (1 + 2%:R * sqeps))].
Proof.
move=> h1 h2 h3 h4 h5 h6 h7 h8 h9 h10 h11 h12 h13.
by have [l [? ? _ ?]] := hinf_core h1 h2 h3 h4 h5 h6 h7 h8 h9 h10 h11 h12 h13; exists l.
Qed.

(* Unstable models have the norm inf, and only they. *)
Theorem C71_infinite G et : norm G PInf et = Ok NInf <-> ~~ stable G.
Proof.
rewrite /system_norm /norm_inf; case: ifP => // _; split=> // E.
by have [w0 _ {}E] := bindOk E; have [lb _ {}E] := bindOk E; have [v' _ {}E] := bindOk E.
Qed.

(* False for static gains, whose norm is that of the matrix: np.min of the empty list of poles raises *)
Theorem C71_gain_refuted G et : stable G -> poles G = [::] -> norm G PInf et = Err ValueError.
Proof. by move=> st ps; rewrite /system_norm /norm_inf st ps. Qed.
End Hinf.
Print Assumptions C71_no_crossing.
Print Assumptions C71_infinite.
Print Assumptions C71_gain_refuted.

(* ------------------------------------------------------------------ one input, one output, over a real closed field *)
(* real and imaginary part of p(i w) *)
Lemma reim (R : realFieldType) (L : fieldType) (f : {rmorphism R -> L}) (ii : L) (p : {poly R}) : ii ^+ 2 = -1 ->
  exists a b : {poly R}, forall w, (map_poly f p).[ii * f w] = f a.[w] + ii * f b.[w].
Proof.
move=> i2; elim/poly_ind: p => [|p c [a [b IH]]]; first by exists 0, 0 => w; rewrite rmorph0 !horner0 rmorph0 mulr0 addr0.
exists (c%:P - b * 'X), (a * 'X) => w.
rewrite rmorphD rmorphM /= map_polyX map_polyC /= !(hornerD, hornerN, hornerM, hornerX, hornerC) IH !rmorphM rmorphB rmorphM.
have -> : (f a.[w] + ii * f b.[w]) * (ii * f w) = ii * (f a.[w] * f w) + (ii ^+ 2) * (f b.[w] * f w) by mc_ring L.
by rewrite i2 mulN1r -addrA addrC [- _ + _]addrC.
Qed.

Lemma sv1 (R : realFieldType) (L : fieldType) (f : {rmorphism R -> L}) (conj : {rmorphism L -> L}) p m (M : 'M[L]_(p, m)) (g : R)
    (i : 'I_p) (j : 'I_m) : p = 1%N -> m = 1%N -> M i j * conj (M i j) = f (g ^+ 2) -> singular_value f conj M g.
Proof.
move=> ep em; subst p m; rewrite !ord1 => h; exists 1; first exact: oner_neq0.
apply/matrixP => a b; rewrite !ord1 mulmx1 !mxE big_ord1 !mxE eqxx mulr1 -h mulrC.
by [].
Qed.

Section Siso.
Variables (R : rcfType) (L : fieldType) (f : {rmorphism R -> L}).
Variables (qr hess : arr R -> arr R * arr R) (ii : L) (expL : L -> L) (twopi : R).
Variables (tol : R) (schur : arr R -> arr R * arr R) (qz : arr R -> arr R -> arr R * arr R * arr R * arr R).
Variable X0 : nat -> arr R.
Variables (sq : R -> R) (atol sqeps : R).
Variable eigs : arr R -> seq (R * R).
Variable cabs : R * R -> R.
Variable norm2 : arr L -> R.
Variable poles : state R -> seq (R * R).
Variable stable : state R -> bool.
Variable conj : {rmorphism L -> L}.
Local Notation norm := (system_norm f qr hess ii expL twopi tol schur qz X0 sq atol sqeps eigs cabs norm2 poles stable).
Local Notation mx := (mxof [rmorphism of @idfun R]).
Implicit Types (G : state R).

(* norm2 of a 1 x 1 array is the modulus of its entry *)
Definition modulus_ok (M : arr L) := 0 <= norm2 M /\ f (norm2 M ^+ 2) = get M 0 0 * conj (get M 0 0).

Lemma siso_polys G : complexes f ii conj -> wfS G -> sgain G = false -> sshape G = (1, 1)%N ->
  exists a b : {poly R}, forall w, regS f G (ii * f w) ->
    0 < a.[w] /\ (modulus_ok (resp f G (ii * f w)) -> norm2 (resp f G (ii * f w)) ^+ 2 * a.[w] = b.[w]).
Proof.
move=> [i2 ci cf cj] wf hg [p1 m1].
pose A := mx (snn G) (snn G) (sa G); pose b := mx (snn G) 1 (sb G); pose c := mx 1 (snn G) (sc G).
pose N := get (sd G) 0 0 *: char_poly A + numpoly A b c.
have [xa [xb hx]] := @reim R L f ii (char_poly A) i2.
have [na [nb hn]] := @reim R L f ii N i2.
exists (xa ^+ 2 + xb ^+ 2), (na ^+ 2 + nb ^+ 2) => w rw.
have eA : mxof f (snn G) (snn G) (sa G) = map_mx f A by apply/matrixP => i j; rewrite !mxE.
have x0 : (map_poly f (char_poly A)).[ii * f w] != 0.
  by rewrite map_char_poly -char_unit -eA.
have a0 : 0 < (xa ^+ 2 + xb ^+ 2).[w].
  rewrite !hornerE lt_def addr_ge0 ?sqr_ge0 // andbT; apply: contra x0; rewrite paddr_eq0 ?sqr_ge0 // !sqrf_eq0.
  by move=> /andP[/eqP h1 /eqP h2]; rewrite hx h1 h2 rmorph0 mulr0 addr0.
split=> // -[_ hm]; apply: (fmorph_inj f).
have e : ev f G (ii * f w) 0 0 = (map_poly f N).[ii * f w] / (map_poly f (char_poly A)).[ii * f w].
  rewrite /ev eA; have -> : (\row_k f (get (sc G) 0 k)) = map_mx f c by apply/matrixP => i j; rewrite !mxE ord1.
  have -> : (\col_k f (get (sb G) k 0)) = map_mx f b by apply/matrixP => i j; rewrite !mxE ord1.
  rewrite (numpoly_tf (A := map_mx f A)) -?eA // eA /N -numpoly_map -map_char_poly rmorphD /= linearZ /= hornerD hornerZ mulrDl.
  by rewrite mulfK // -map_char_poly.
have cc (x y : R) : (f x + ii * f y) * conj (f x + ii * f y) = f (x ^+ 2 + y ^+ 2).
  rewrite rmorphD rmorphM ci !cf rmorphD !rmorphX.
  have -> : (f x + ii * f y) * (f x + - ii * f y) = f x ^+ 2 - (ii ^+ 2) * f y ^+ 2 by mc_ring L.
  by rewrite i2 mulN1r opprK.
have cne : conj (map_poly f (char_poly A)).[ii * f w] != 0 by rewrite fmorph_eq0.
have eg : get (resp f G (ii * f w)) 0 0 = ev f G (ii * f w) 0 0 by rewrite /resp get_mk // /spn /smn ?p1 ?m1.
rewrite rmorphM hm eg e rmorphM fmorphV.
rewrite hornerD !horner_exp -cc -hx hornerD !horner_exp -cc -hn.
by rewrite mulrACA mulfVK // mulfVK.
Qed.

(* one input and one output: every gain is below  l (1 + 2 sqrt(eps)),  and l is the gain at a frequency or the
   gain |D| at infinity *)
Theorem C71_siso G et v : complexes f ii conj -> wfS G -> sgain G = false -> sdt G = None ->
  (0 < snn G)%N -> sshape G = (1, 1)%N -> freq_req qr hess G -> 0 < sqeps -> 0 <= et -> eig_req f ii sqeps eigs G v ->
  (forall w, modulus_ok (resp f G (ii * f w))) -> 0 <= norm2 (feed f G) ->
  (forall w, regS f G (ii * f w)) ->
  norm G PInf et = Ok (NVal v) -> v != 0 ->
  exists l, [/\ v = l * (1 + sqeps),
    l = norm2 (feed f G) \/ (exists w : R, l = norm2 (resp f G (ii * f w))) &
    forall w : R, norm2 (resp f G (ii * f w)) < l * (1 + 2%:R * sqeps)].
Proof.
move=> cx wf hg hd n0 sh fq se et0 he hm hf reg E v0; have [p1 m1] := sh.
have p0 : (0 < spn G)%N by rewrite /spn p1.
have m0 : (0 < smn G)%N by rewrite /smn m1.
have [l [vl hl [w0 hw0] hs]] := @hinf_core R L f qr hess ii expL twopi tol schur qz X0 sq atol sqeps eigs cabs norm2 poles stable conj
  G et v cx wf hg hd n0 p0 m0 fq (ltW se) et0 he E v0.
exists l; split=> //; first by case: hl => [|[w [_ e]]]; [left | right; exists w].
have l0 : 0 <= l by case: hl => [->|[w [_ ->]]] //; have [] := hm w.
have l1 : 0 < l by rewrite lt_def l0 andbT; apply: contra v0 => /eqP e; rewrite vl e mul0r.
set g := l * (1 + 2%:R * sqeps).
have lg : l < g by rewrite /g ltr_pmulr // ltr_addl mulr_gt0 // ltr0n.
have g0 : 0 < g by apply: lt_trans lg.
have [a [b hab]] := siso_polys cx wf hg sh.
pose p := g ^+ 2 *: a - b.
have pE w : p.[w] = a.[w] * ((g - norm2 (resp f G (ii * f w))) * (g + norm2 (resp f G (ii * f w)))).
  have [_ /(_ (hm w)) e] := hab w (reg w); rewrite /p hornerD hornerN hornerZ -e.
  by move: (norm2 _) (a.[w]) => x y; mc_ring R.
have np w : ~~ root p w.
  apply/negP; rewrite /root pE mulf_eq0 gt_eqF ?(hab w (reg w)).1 //= mulf_eq0 => /orP[|]; last first.
    by rewrite gt_eqF // ltr_paddr //; have [] := hm w.
  rewrite subr_eq0 => /eqP e; apply: (hs w (reg w)).
  apply: (@sv1 R L f conj _ _ _ _ (Ordinal p0) (Ordinal m0)) => //.
  by rewrite evalSE -/g e (hm w).2 /resp get_mk.
have pos : 0 < p.[w0].
  rewrite pE !mulr_gt0 ?(hab w0 (reg w0)).1 //; first by rewrite subr_gt0; apply: le_lt_trans hw0 lg.
  by rewrite ltr_paddr //; have [] := hm w0.
move=> w; rewrite ltNge; apply/negP => hge.
have neg : p.[w] <= 0.
  rewrite pE pmulr_rle0 ?(hab w (reg w)).1 // pmulr_lle0 ?subr_le0 //.
  by rewrite ltr_paddr //; have [] := hm w.
have [h|h] := leP w w0.
  have [|x _ rx] := @poly_ivt R p w w0 h; first by rewrite neg ltW.
  by have := np x; rewrite rx.
have [|x _ rx] := @poly_ivt R (- p) w0 w (ltW h); first by rewrite !hornerN oppr_le0 oppr_ge0 neg ltW.
by have := np x; rewrite -rootN rx.
Qed.
End Siso.
Print Assumptions C71_siso.
