(* Property C77 for one channel, and C33 with the transmission zeros computed by the code. *)
From mathcomp Require Import all_ssreflect all_algebra zify.
From Verif Require Import Base BaseTheory Spec ModelPoly PolyTheory PolyOps LcmTheory ModelState Denote StateTheory StateProps
  ModelTransfer DenoteT TransferTheory TransferOps TransferProps ConvertTheory ConvertOps ConvertMimo ConvertState PropsConvert
  ModelAux SpecSim RingTac SpecConvert ModelConvert ConvertTf PropsStt KalmanTheory SpecMin ModelTz SpecTz TzTheory TzFinal PropsTz.

Set Implicit Arguments.
Unset Strict Implicit.
Unset Printing Implicit Defensive.

Import Order.TTheory GRing.Theory Num.Theory.
Local Open Scope ring_scope.

Lemma det_border (K : idomainType) n (M : 'M[K]_n) (b : 'cV[K]_n) (c : 'rV[K]_n) : \det M != 0 ->
  \det (block_mx M b c 0) = - (c *m \adj M *m b) 0 0.
Proof.
move=> M0; have Mn : \det M ^+ n != 0 by rewrite expf_neq0.
have E : block_mx M b c (0 : 'M_1) *m block_mx (\adj M) (- (\adj M *m b)) 0 (\det M)%:M = block_mx (\det M)%:M 0 (c *m \adj M) (- (c *m \adj M *m b)).
  rewrite mulmx_block !mulmx0 !mul0mx !addr0 mul_mx_adj !mulmxN !mulmxA mul_mx_adj; congr (block_mx _ _ _ _).
  by rewrite mul_scalar_mx mul_mx_scalar addNr.
have := congr1 determinant E; rewrite det_mulmx det_ublock det_lblock det_scalar1 det_scalar det_mx11 [X in _ = _ * X]mxE.
have -> : \det (\adj M) * \det M = \det M ^+ n by rewrite -det_mulmx mul_adj_mx det_scalar.
by rewrite mulrC => /(mulfI Mn).
Qed.

Lemma det_siso (L : fieldType) n (A : 'M[L]_n) (b : 'cV[L]_n) (c : 'rV[L]_n) s :
  \det (sysmx A b c 0 s) = (-1) ^+ n * (numpoly A b c).[s].
Proof.
have E : \det (block_mx (s%:M - A) b c 0) = - (numpoly A b c).[s].
  have h : \det (block_mx (char_poly_mx A) (map_mx polyC b) (map_mx polyC c) 0) = - numpoly A b c.
    by rewrite det_border //; apply: monic_neq0 (char_poly_monic A).
  have := congr1 (horner_eval s) h; rewrite -det_map_mx map_block_mx /horner_eval hornerN => <-; congr (\det (block_mx _ _ _ _)).
  - by apply/matrixP => i j; rewrite !mxE /= /horner_eval hornerD hornerN hornerC hornerMn hornerX.
  - by apply/matrixP => i j; rewrite !mxE /= /horner_eval hornerC.
  - by apply/matrixP => i j; rewrite !mxE /= /horner_eval hornerC.
  by apply/matrixP => i j; rewrite !mxE /= /horner_eval horner0.
have -> : sysmx A b c 0 s = block_mx (- 1%:M) 0 0 1%:M *m block_mx (s%:M - A) b c 0 *m block_mx 1%:M 0 0 (- 1%:M).
  by rewrite !mulmx_block !(mulmx0, mul0mx, addr0, add0r) !mulNmx !mulmxN !mul1mx !mulmx1 opprK ?oppr0 opprB.
rewrite !det_mulmx !det_ublock !det1 E -!scaleN1r !detZ !det1 !mulr1 mul1r expr1 -mulrA mulrN1 opprK //.
Qed.

Section Siso.
Variables (R : realFieldType) (L : fieldType) (f : {rmorphism R -> L}).
Variable npsvd : arr R -> arr R * seq R * arr R.
Variable spac : R.
Variable meps : arr R -> arr R -> arr R -> R.
Variable qz : arr R -> arr R -> seq (L * L).
Hypothesis sp0 : 0 <= spac.
Implicit Types (A b c : arr R).

(* one input, one output, no feedthrough: the zeros are the roots of the numerator c adj(sI - A) b of the transfer
   function, with multiplicity (tz_ok, SpecConvert.v), unless the transfer function is 0 *)
Theorem C77_siso n A b c : shp A = (n, n) -> shp b = (n, 1)%N -> shp c = (1, n)%N -> wfa A -> wfa b -> wfa c ->
  tz_exact f npsvd spac meps qz A b c (azeros 1 1) ->
  numpoly (amx n n A) (amx n 1 b) (amx 1 n c) != 0 ->
  exists zs, transmission_zeros npsvd spac meps qz A b c (azeros 1 1) = Ok [seq Some z | z <- zs] /\ tz_ok f A b c zs.
Proof.
move=> sA sb sc wA wb wc ex P0; set P := numpoly _ _ _ in P0.
have mf : map_poly f P = numpoly (mxof f n n A) (mxof f n 1 b) (mxof f 1 n c) by rewrite numpoly_map !(mx_map f).
have Pf0 : map_poly f P != 0 by rewrite map_poly_eq0.
have D0 : mxof f 1 1 (azeros 1 1) = 0 by apply: mxof_zeros.
have dS s : \det (sysmx (mxof f n n A) (mxof f n 1 b) (mxof f 1 n c) (mxof f 1 1 (azeros 1 1)) s) = (-1) ^+ n * (map_poly f P).[s].
  by rewrite D0 det_siso -mf.
have b0 : mxof f n 1 b <> 0 by move=> h; move: Pf0; rewrite mf h /numpoly map_mx0 mulmx0 mxE eqxx.
have c0 : mxof f 1 n c <> 0 by move=> h; move: Pf0; rewrite mf h /numpoly map_mx0 !mul0mx mxE eqxx.
have wZ : wfa (azeros 1 1 : arr R) by apply: wfa_mk.
have sZ : shp (azeros 1 1 : arr R) = (1, 1)%N by [].
have [|zs [k [E k0 h]]] := C77_square sp0 sA sb sc sZ wA wb wc wZ ex b0 c0.
  have [t ht] : exists t, (map_poly f P).[t] != 0.
    have [/hasP[x _ hx]|/hasPn h1] := boolP (has (fun x => (map_poly f P).[x] != 0) [seq f i%:R | i <- iota 0 (size (map_poly f P))]); first by exists x.
    have := max_poly_roots Pf0 _ (_ : uniq [seq f i%:R | i <- iota 0 (size (map_poly f P))]); rewrite size_map size_iota ltnn => F.
    suff : false by []; apply: F; first by apply/allP => x hx; rewrite rootE; have := h1 x hx; rewrite negbK.
    by rewrite map_inj_in_uniq ?iota_uniq // => i j _ _ /fmorph_inj /eqP; rewrite eqr_nat => /eqP.
  by exists t; rewrite dS mulf_neq0 // signr_eq0.
exists zs; split=> //.
have e : map_poly f P = ((-1) ^+ n * k) *: \prod_(z <- zs) ('X - z%:P).
  apply: (poly_ext f) => s; rewrite hornerZ -mulrA (_ : (\prod_(z <- zs) ('X - z%:P)).[s] = \prod_(z <- zs) (s - z)) -?h ?dS ?signrMK //.
  by rewrite horner_prod; apply: eq_bigr => z _; rewrite hornerXsubC.
have lc : f (lead_coef P) = (-1) ^+ n * k.
  have := congr1 lead_coef e; rewrite lead_coef_map lead_coefZ (monicP (monic_prod_XsubC _ _ _)) mulr1 //.
have l0 : lead_coef P != 0 by rewrite lead_coef_eq0.
exists (lead_coef P), ((lead_coef P)^-1 *: P); rewrite (_ : nr A = n); last by case: sA.
split; last by rewrite scalerA mulfV // scale1r.
by rewrite linearZ /= e -lc fmorphV scalerA mulVf ?scale1r // fmorph_eq0.
Qed.

(* the zeros handed to state_to_transfer, line 2848 *)
Definition tz_of A b c : seq L :=
  if transmission_zeros npsvd spac meps qz A b c (azeros 1 1) is Ok zs then pmap id zs else [::].

Lemma tz_of_ok n A b c : shp A = (n, n) -> shp b = (n, 1)%N -> shp c = (1, n)%N -> wfa A -> wfa b -> wfa c ->
  tz_exact f npsvd spac meps qz A b c (azeros 1 1) ->
  [\/ amx n 1 b = 0, amx 1 n c = 0 | numpoly (amx n n A) (amx n 1 b) (amx 1 n c) != 0] -> tz_ok f A b c (tz_of A b c).
Proof.
move=> sA sb sc wA wb wc ex h.
have triv : mxof f n 1 b = 0 \/ mxof f 1 n c = 0 -> numpoly (amx n n A) (amx n 1 b) (amx 1 n c) = 0 -> tz_ok f A b c (tz_of A b c).
  move=> h0 hp; rewrite /tz_of (C77_trivial sp0 sb sc (erefl : shp (azeros 1 1) = (1, 1)%N) (wfa_mk _ _ _) ex) //.
  exists 0, 1; rewrite big_nil rmorph1; split=> //; by rewrite scale0r (_ : nr A = n) //; case: sA.
have am k l M : mxof f k l M = map_mx f (amx k l M) by apply/matrixP => i j; rewrite !mxE.
case: h => h.
- by apply: triv; [left; rewrite am h map_mx0 | rewrite h /numpoly map_mx0 mulmx0 mxE].
- by apply: triv; [right; rewrite am h map_mx0 | rewrite h /numpoly map_mx0 !mul0mx mxE].
have [zs [E ok]] := C77_siso sA sb sc wA wb wc ex h.
by rewrite /tz_of E (_ : pmap id _ = zs) //; elim: (zs) => //= z t ->.
Qed.
End Siso.
Print Assumptions C77_siso.

(* C33 with these zeros: no assumption on the zeros is left, only on the decompositions they are computed from.  The
   numerator of each entry without its feedthrough is nonzero, or its column of B or row of C is 0 *)
Theorem C77_state_to_transfer (R : realFieldType) (L : fieldType) (f : {rmorphism R -> L}) re absL eig lsq
    (sca : arr R -> seq R) svd (eps : R) npsvd (spac : R) meps qz (G : state R) :
  re_ok f re -> abs_ok f absL -> lsq_ok lsq ->
  (forall a, sca_ok a (sca a)) -> (forall C, wfa C -> svd_ok C (svd C)) -> 0 <= spac ->
  wfS G -> sgain G = false -> (0 < snn G)%N -> (0 < spn G)%N -> (0 < smn G)%N ->
  eig_ok f (sa G) (eig (sa G)) ->
  (forall i j, (i < spn G)%N -> (j < smn G)%N -> tz_exact f npsvd spac meps qz (sa G) (bcol G j) (crow G i) (azeros 1 1)) ->
  (forall i j, (i < spn G)%N -> (j < smn G)%N ->
    [\/ amx (snn G) 1 (bcol G j) = 0, amx 1 (snn G) (crow G i) = 0 | numpoly (Amx G) (amx (snn G) 1 (bcol G j)) (amx 1 (snn G) (crow G i)) != 0]) ->
  exists K, [/\ state_to_transfer f re absL eig (tz_of npsvd spac meps qz) lsq (haroldlcm sca svd 0) eps G = Ok K,
    wfT K, tshape K = sshape G, tdt K = sdt G &
    forall i j, (i < spn G)%N -> (j < smn G)%N ->
      (if numS G i j == 0 then ent (tn K) i j = [:: 0] /\ ent (td K) i j = [:: 1]
       else polyhi (ent (tn K) i j) = numS G i j /\ polyhi (ent (td K) i j) = chiS G) /\
      forall (L' : fieldType) (g : {rmorphism R -> L'}) (s : L'), regS g G s ->
        dfT g K s i j /\ evT g K s i j = ev g G s i j].
Proof.
move=> h1 h2 h3 h4 h5 sp w hg n0 p0 m0 he ht hn.
apply: C33_dynamic => // i j hi hj.
have [[wa _ _ _] [ca _ _ _ _]] := wfS_dyn w hg.
apply: (@tz_of_ok _ _ _ _ _ _ _ sp (snn G)); rewrite ?wfa_mk //.
- by rewrite /shp ca.
- by rewrite /shp /= subn0 subSnn.
- by rewrite /shp /= subn0 subSnn.
- exact: ht.
exact: hn.
Qed.
Print Assumptions C77_state_to_transfer.
