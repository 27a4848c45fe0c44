(* Proofs for cancellation_distance: Euclidean norms over a closed field, the Bauer-Fike bound. *)
From mathcomp Require Import all_ssreflect all_algebra zify.
From Verif Require Import Base BaseTheory RingTac SpecCancel ModelCancel.

Set Implicit Arguments.
Unset Strict Implicit.
Unset Printing Implicit Defensive.

Import Order.TTheory GRing.Theory Num.Theory.
Local Open Scope ring_scope.

Section Norms.
Variable C : numClosedFieldType.
Implicit Types (x y z : C).

Lemma vn_ge0 n (u : 'cV[C]_n) : 0 <= vn u.
Proof. by rewrite sqrtC_ge0 sumr_ge0 // => i _; rewrite exprn_ge0. Qed.
Lemma vn2 n (u : 'cV[C]_n) : vn u ^+ 2 = \sum_i `|u i 0| ^+ 2.
Proof. exact: sqrtCK. Qed.
Lemma vn_eq0 n (u : 'cV[C]_n) : (vn u == 0) = (u == 0).
Proof.
rewrite sqrtC_eq0; apply/eqP/eqP => [h|->]; last by rewrite big1 // => i _; rewrite mxE normr0 expr0n.
apply/matrixP => i j; rewrite ord1 mxE.
have := psumr_eq0P (fun i _ => exprn_ge0 2 (normr_ge0 (u i 0))) h isT.
by move/(_ i)/eqP; rewrite expf_eq0 /= normr_eq0 => /eqP.
Qed.
Lemma vn0 n : vn (0 : 'cV[C]_n) = 0.
Proof. by apply/eqP; rewrite vn_eq0. Qed.
Lemma vnZ n a (u : 'cV[C]_n) : vn (a *: u) = `|a| * vn u.
Proof.
have h0 : 0 <= `|a| * vn u by rewrite mulr_ge0 ?vn_ge0.
apply/eqP; rewrite -(@eqr_expn2 _ 2) ?vn_ge0 // exprMn !vn2 mulr_sumr; apply/eqP; apply: eq_bigr => i _.
by rewrite mxE normrM exprMn.
Qed.
Lemma vnN n (u : 'cV[C]_n) : vn (- u) = vn u.
Proof. by rewrite -scaleN1r vnZ normrN1 mul1r. Qed.

(* the inner product *)
Definition ip n (u w : 'cV[C]_n) : C := \sum_i (u i 0)^* * w i 0.
Lemma ipuu n (u : 'cV[C]_n) : ip u u = vn u ^+ 2.
Proof. by rewrite vn2; apply: eq_bigr => i _; rewrite normCKC. Qed.
Lemma ipD n (u v w : 'cV[C]_n) : ip u (v + w) = ip u v + ip u w.
Proof. by rewrite -big_split; apply: eq_bigr => i _; rewrite mxE mulrDr. Qed.
Lemma ipZ n (u w : 'cV[C]_n) a : ip u (a *: w) = a * ip u w.
Proof. by rewrite mulr_sumr; apply: eq_bigr => i _; rewrite mxE mulrCA. Qed.
Lemma ip_conj n (u w : 'cV[C]_n) : (ip u w)^* = ip w u.
Proof. by rewrite rmorph_sum; apply: eq_bigr => i _; rewrite rmorphM /= conjCK mulrC. Qed.

Lemma vnD2 n (a b : 'cV[C]_n) : vn (a + b) ^+ 2 = vn a ^+ 2 + ip a b + (ip a b)^* + vn b ^+ 2.
Proof.
rewrite -!ipuu ip_conj ipD -(ip_conj a (a + b)) -(ip_conj b (a + b)) !ipD !rmorphD /= !ip_conj.
by rewrite !addrA; congr (_ + _); rewrite -!addrA; congr (_ + _); rewrite addrC.
Qed.

Lemma cauchy n (u w : 'cV[C]_n) : `|ip u w| <= vn u * vn w.
Proof.
have h0 : 0 <= vn u * vn w by rewrite mulr_ge0 ?vn_ge0.
case: (eqVneq u 0) => [->|u0].
  rewrite [ip _ _]big1 ?normr0 ?mulr_ge0 ?vn_ge0 // => i _; by rewrite mxE conjC0 mul0r.
have p0 : 0 < vn u ^+ 2 by rewrite exprn_gt0 // lt_def vn_eq0 u0 vn_ge0.
have [k kE] : exists k, k = vn u ^+ 2 by eexists.
rewrite -kE in p0.
have r2 : k^* = k by apply/CrealP; rewrite kE rpredX // ger0_real ?vn_ge0.
have := exprn_ge0 2 (vn_ge0 (k *: w - ip u w *: u)).
rewrite vnD2 vnN !vnZ -scaleNr ipZ -(ip_conj u) ipZ.
set t := ip u w.
rewrite !(rmorphM, rmorphN) /= r2 !conjCK (ger0_norm (ltW p0)) !exprMn normCK.
set a := vn u; set b := vn w => h.
have {}h : 0 <= a ^+ 2 * (a ^+ 2 * b ^+ 2 - t * t^*).
  move: h; rewrite [X in 0 <= X](_ : _ = a ^+ 2 * (a ^+ 2 * b ^+ 2 - t * t^*)) //.
  by rewrite r2 kE -/a; move: (t^*) => tc; mc_ring C.
rewrite kE in p0; move: h; rewrite pmulr_rge0 // subr_ge0 -normCK -exprMn => h.
by rewrite -(@ler_pexpn2r _ 2) ?nnegrE.
Qed.

Lemma vn_tri n (u w : 'cV[C]_n) : vn (u + w) <= vn u + vn w.
Proof.
have h0 := vn_ge0.
have h : ip u w + (ip u w)^* <= vn u * vn w + vn u * vn w.
  have r : ip u w + (ip u w)^* \is Num.real by apply/CrealP; rewrite rmorphD /= conjCK addrC.
  apply: le_trans (real_ler_norm r) _; apply: le_trans (ler_norm_add _ _) _.
  by rewrite norm_conjC ler_add ?cauchy.
rewrite -(@ler_pexpn2r _ 2) ?nnegrE ?addr_ge0 // vnD2 sqrrD ler_add2r -addrA ler_add2l mulr2n //.
Qed.

Lemma norm_le_ge0 p q (E : 'M[C]_(p, q)) b (u : 'cV[C]_q) : u != 0 -> norm_le E b -> 0 <= b.
Proof.
move=> u0 /(_ u) h; have p0 : 0 < vn u by rewrite lt_def vn_eq0 u0 vn_ge0.
by have := le_trans (vn_ge0 _) h; rewrite pmulr_lge0.
Qed.

(* a perturbation of norm s that makes M singular, when s is a value |M u| / |u| *)
Lemma rank_one p q (M : 'M[C]_(p, q)) s u : 0 <= s -> u != 0 -> vn (M *m u) = s * vn u ->
  exists2 E, norm_le E s & (M + E) *m u = 0.
Proof.
move=> s0 u0 hu; have p0 : 0 < vn u by rewrite lt_def vn_eq0 u0 vn_ge0.
pose uc : 'rV[C]_q := \row_i (u i 0)^*.
have ucE (w : 'cV[C]_q) : uc *m w = (ip u w)%:M.
  by apply/matrixP => i j; rewrite !ord1 !mxE eqxx mulr1n; apply: eq_bigr => k _; rewrite mxE.
exists (- (vn u ^+ 2)^-1 *: (M *m u *m uc)).
  move=> w; rewrite -scalemxAl -mulmxA ucE mul_mx_scalar scalerA vnZ hu normrM normrN normfV.
  have n2 : 0 <= vn u ^+ 2 by rewrite exprn_ge0 ?vn_ge0.
  rewrite (ger0_norm n2) mulrCA -mulrA; apply: ler_wpmul2l => //.
  rewrite mulrC ler_pdivr_mulr ?exprn_gt0 // [_ * vn u]mulrC [vn w * _]mulrC expr2 -mulrA ler_wpmul2l ?(ltW p0) //.
  exact: cauchy.
rewrite mulmxDl -scalemxAl -mulmxA ucE ipuu mul_mx_scalar scalerA mulNr mulVf ?expf_neq0 ?gt_eqF // scaleN1r subrr //.
Qed.

(* Bauer-Fike: an eigenvalue of M + E lies within K |E| of one of the eigenvalues of M *)
Lemma bauer_fike n (M E V : 'M[C]_n) d K b p (x : 'cV[C]_n) : eigenbasis M V d -> condition V K -> norm_le E b ->
  x != 0 -> (M + E) *m x = p *: x -> exists j, `|d 0 j - p| <= K * b.
Proof.
move=> [uV hV] [a [c [a0 c0 ha hc hK]]] hb x0 hx.
have b0 := norm_le_ge0 x0 hb.
have [z zE] : exists z : 'cV[C]_n, z = invmx V *m x by eexists.
have xz : x = V *m z by rewrite zE mulmxA mulmxV ?mul1mx.
have z0 : z != 0 by apply: contra x0 => /eqP h; rewrite xz h mulmx0.
have pz : 0 < vn z by rewrite lt_def vn_eq0 z0 vn_ge0.
have e : diag_mx d *m z - p *: z = - (invmx V *m (E *m x)).
  have h1 : V *m (diag_mx d *m z) = M *m x by rewrite mulmxA -hV -mulmxA -xz.
  have h2 : V *m (p *: z) = p *: x by rewrite -scalemxAr -xz.
  have h3 : V *m (diag_mx d *m z - p *: z) = - (E *m x).
    by rewrite mulmxBr h1 h2 -hx mulmxDl opprD addrA subrr add0r.
  by rewrite -mulmxN -h3 mulKmx.
have up : vn (diag_mx d *m z - p *: z) <= K * b * vn z.
  rewrite e vnN; apply: le_trans (hc _) _; apply: (@le_trans _ _ (c * (b * (a * vn z)))).
    rewrite ler_wpmul2l //; apply: le_trans (hb _) _; rewrite ler_wpmul2l // xz; exact: ha.
  have -> : c * (b * (a * vn z)) = a * c * (b * vn z) by mc_ring C.
  by rewrite -[K * b * _]mulrA ler_wpmul2r // mulr_ge0 ?(ltW pz).
case: (pickP (fun j => `|d 0 j - p| <= K * b)) => [j hj|no]; first by exists j.
exfalso.
have Kb0 : 0 <= K * b by rewrite mulr_ge0 // (le_trans _ hK) // mulr_ge0.
have lt j : K * b < `|d 0 j - p| by rewrite real_ltNge ?ger0_real // no.
have Kz0 : 0 <= K * b * vn z by rewrite mulr_ge0 // ltW.
have sq : vn (diag_mx d *m z - p *: z) ^+ 2 <= (K * b * vn z) ^+ 2.
  by apply: ler_expn2r; rewrite ?nnegrE ?vn_ge0.
have [i0 hi0] : exists i, z i 0 != 0.
  apply/existsP; move: z0; apply: contraNT => /existsPn h; apply/eqP/matrixP => i j; rewrite ord1.
  by rewrite mxE; have /negPn/eqP := h i.
have en i : (diag_mx d *m z - p *: z) i 0 = (d 0 i - p) * z i 0.
  by rewrite mul_diag_mx !mxE mulrBl.
have f i : (K * b) ^+ 2 * `|z i 0| ^+ 2 <= `|(diag_mx d *m z - p *: z) i 0| ^+ 2.
  rewrite en normrM [X in _ <= X]exprMn; apply: ler_wpmul2r; first by rewrite exprn_ge0.
  by apply: ler_expn2r; rewrite ?nnegrE // ltW.
have f0 : (K * b) ^+ 2 * `|z i0 0| ^+ 2 < `|(diag_mx d *m z - p *: z) i0 0| ^+ 2.
  rewrite en normrM [X in _ < X]exprMn ltr_pmul2r ?exprn_gt0 ?normr_gt0 //.
  by rewrite ltr_expn2r.
have : (K * b * vn z) ^+ 2 < vn (diag_mx d *m z - p *: z) ^+ 2.
  rewrite exprMn !vn2 mulr_sumr (bigD1 i0) //= [X in _ < X](bigD1 i0) //=.
  by apply: ltr_le_add => //; apply: ler_sum => i _.
by move/lt_le_trans => /(_ _ sq); rewrite ltxx.
Qed.

(* a deficient pair, transposed *)
Lemma deficientP n m (F : 'M[C]_n) (G : 'M[C]_(n, m)) p :
  deficient F G p <-> exists2 u : 'cV[C]_n, u != 0 & (row_mx (F - p%:M) G)^T *m u = 0.
Proof.
split=> [[x x0 [h1 h2]]|[u u0 h]].
  exists x^T; first by apply: contra x0 => /eqP e; rewrite -[x]trmxK e trmx0.
  by rewrite -trmx_mul mul_mx_row h1 h2 row_mx0 trmx0.
exists u^T; first by apply: contra u0 => /eqP e; rewrite -[u]trmxK e trmx0.
have := congr1 trmx h; rewrite trmx_mul trmxK trmx0 mul_mx_row -(row_mx0 _ _ n m).
by case/eq_row_mx.
Qed.

(* upper2: the distance to deficiency at p *)
Lemma dist_at n m (F : 'M[C]_n) (G : 'M[C]_(n, m)) p s : smallest_sv (row_mx (F - p%:M) G)^T s ->
  (exists dF dG, pert_le dF dG s /\ deficient (F + dF) (G + dG) p) /\
  forall dF dG b, pert_le dF dG b -> deficient (F + dF) (G + dG) p -> s <= b.
Proof.
move=> [s0 hs [u u0 hu]]; split.
  have [E hE h] := rank_one s0 u0 hu.
  exists (lsubmx E^T), (rsubmx E^T); split; first by rewrite /pert_le hsubmxK trmxK.
  apply/deficientP; exists u => //.
  by rewrite addrAC -add_row_mx hsubmxK linearD /= trmxK.
move=> dF dG b hb /deficientP [w w0]; rewrite addrAC -add_row_mx linearD /= mulmxDl => /eqP.
rewrite addr_eq0 => /eqP e.
have pw : 0 < vn w by rewrite lt_def vn_eq0 w0 vn_ge0.
rewrite -(ler_pmul2r pw); apply: le_trans (hs w) _; rewrite e vnN; exact: hb.
Qed.

Lemma vn_col n m (u : 'cV[C]_n) (w : 'cV[C]_m) : vn (col_mx u w) ^+ 2 = vn u ^+ 2 + vn w ^+ 2.
Proof.
rewrite !vn2 big_split_ord /=; congr (_ + _); apply: eq_bigr => i _; by rewrite ?col_mxEu ?col_mxEd.
Qed.
Lemma vn_usub n m (w : 'cV[C]_(n + m)) : vn (usubmx w) <= vn w.
Proof.
by rewrite -(@ler_pexpn2r _ 2) ?nnegrE ?vn_ge0 // -{2}[w]vsubmxK vn_col ler_addl exprn_ge0 // vn_ge0.
Qed.

(* the random columns do not matter to the eigenvalues that are there for a deficient pair *)
Lemma locate n m (F dF : 'M[C]_n) (G dG : 'M[C]_(n, m)) (Q : 'M[C]_(n + m, m)) V d K b p :
  eigenbasis (row_mx (row_mx F G)^T Q) V d -> condition V K -> pert_le dF dG b ->
  deficient (F + dF) (G + dG) p -> exists j, `|d 0 j - p| <= K * b.
Proof.
move=> hV hK hb /deficientP [u u0]; rewrite addrAC -add_row_mx => hu.
pose x : 'cV[C]_(n + m) := col_mx u 0.
apply: (@bauer_fike _ _ (row_mx (row_mx dF dG)^T 0) V d K b p x hV hK).
- move=> w; rewrite -{1}[w]vsubmxK mul_row_col mul0mx addr0; apply: le_trans (hb _) _.
  by rewrite ler_wpmul2l ?vn_usub // (norm_le_ge0 u0 hb).
- by rewrite /x; apply: contra u0 => /eqP; rewrite -(col_mx0 _ n m 1) => /eq_col_mx [-> _].
- move: hu; have -> : row_mx (F - p%:M) G = row_mx F G - row_mx p%:M 0 by rewrite opp_row_mx add_row_mx oppr0 addr0.
  rewrite addrAC linearB /= mulmxBl => /eqP; rewrite subr_eq0 => /eqP hu.
  rewrite add_row_mx mul_row_col mulmx0 addr0 -linearD /= hu tr_row_mx tr_scalar_mx trmx0 mul_col_mx mul_scalar_mx mul0mx.
  by rewrite /x scale_col_mx scaler0.
Qed.

Lemma lower n m (F dF : 'M[C]_n) (G dG : 'M[C]_(n, m)) (Q : 'M[C]_(n + m, m)) V d K b p s :
  eigenbasis (row_mx (row_mx F G)^T Q) V d -> condition V K -> 0 <= s ->
  (forall j u, s * vn u <= vn ((row_mx (F - (d 0 j)%:M) G)^T *m u)) ->
  pert_le dF dG b -> deficient (F + dF) (G + dG) p -> s / (K + 1) <= b.
Proof.
move=> hV hK s0 hs hb df; have [j hj] := locate hV hK hb df.
have K0 : 0 <= K by case: hK => a [c [a0 c0 _ _ h]]; apply: le_trans h; rewrite mulr_ge0.
have K1 : 0 < K + 1 := ltr_paddl K0 ltr01.
rewrite ler_pdivr_mulr // mulrDr mulr1.
case/deficientP: df => u u0; rewrite addrAC -add_row_mx linearD /= mulmxDl => /eqP; rewrite addr_eq0 => /eqP hu.
have pu : 0 < vn u by rewrite lt_def vn_eq0 u0 vn_ge0.
rewrite -(ler_pmul2r pu); apply: le_trans (hs j u) _.
have -> : row_mx (F - (d 0 j)%:M) G = row_mx (F - p%:M) G - row_mx (d 0 j - p)%:M 0.
  rewrite opp_row_mx add_row_mx oppr0 addr0; congr row_mx.
  by rewrite raddfB /= opprB addrA addrNK.
rewrite linearB /= mulmxBl hu [(row_mx _%:M 0)^T]tr_row_mx tr_scalar_mx trmx0 mul_col_mx mul_scalar_mx mul0mx.
apply: le_trans (vn_tri _ _) _; rewrite !vnN mulrDl addrC; apply: ler_add; last exact: hb.
have -> : vn (col_mx ((d 0 j - p) *: u) (0 : 'cV[C]_m)) = `|d 0 j - p| * vn u.
  apply/eqP; rewrite -(@eqr_expn2 _ 2) ?vn_ge0 ?mulr_ge0 ?vn_ge0 // vn_col vn0 expr0n addr0 vnZ //.
by rewrite ler_wpmul2r ?(ltW pu) // mulrC.
Qed.

(* upper1 against upper2 *)
Lemma upper_le n m (F : 'M[C]_n) (G : 'M[C]_(n, m)) (Q : 'M[C]_(n + m, m)) (x : 'cV[C]_n) (y : 'cV[C]_m) l s :
  row_mx (row_mx F G)^T Q *m col_mx x y = l *: col_mx x y -> smallest_sv (row_mx (F - l%:M) G)^T s -> x != 0 ->
  s <= vn ((Q - l *: col_mx 0 1%:M) *m y) / vn x.
Proof.
move=> h [s0 hs _] x0; have px : 0 < vn x by rewrite lt_def vn_eq0 x0 vn_ge0.
rewrite ler_pdivl_mulr //; apply: le_trans (hs x) _.
suff -> : (row_mx (F - l%:M) G)^T *m x = - ((Q - l *: col_mx 0 1%:M) *m y) by rewrite vnN.
have -> : row_mx (F - l%:M) G = row_mx F G - row_mx l%:M 0 by rewrite opp_row_mx add_row_mx oppr0 addr0.
apply/eqP; rewrite -addr_eq0 linearB /= mulmxBl [in X in _ + X]mulmxBl addrACA -mul_row_col h.
rewrite tr_row_mx tr_scalar_mx trmx0 -scalemxAl !mul_col_mx mul_scalar_mx !mul0mx mul1mx.
by rewrite scale_col_mx -opprD !scale_col_mx scaler0 add_col_mx addr0 add0r subrr.
Qed.

(* with simple eigenvalues every eigenvector is a multiple of a column of the basis *)
Lemma simple_eig n (M V : 'M[C]_n) d p (x : 'cV[C]_n) : eigenbasis M V d -> injective (d 0) -> x != 0 -> M *m x = p *: x ->
  exists j c, [/\ d 0 j = p, c != 0 & x = c *: col j V].
Proof.
move=> [uV hV] dinj x0 hx.
have [z zE] : exists z : 'cV[C]_n, z = invmx V *m x by eexists.
have xz : x = V *m z by rewrite zE mulmxA mulmxV ?mul1mx.
have e i : (d 0 i - p) * z i 0 = 0.
  have h : diag_mx d *m z = p *: z.
    by rewrite -(mulKmx uV (diag_mx d *m z)) [V *m _]mulmxA -hV -mulmxA -xz hx -scalemxAr zE.
  by have /matrixP/(_ i 0) := h; rewrite mul_diag_mx !mxE => h'; rewrite mulrBl h' subrr.
have [j hj] : exists i, z i 0 != 0.
  apply/existsP; move: x0; apply: contraNT => /existsPn h; rewrite xz; suff -> : z = 0 by rewrite mulmx0.
  by apply/matrixP => i k; rewrite ord1 mxE; have /negPn/eqP := h i.
have dj : d 0 j = p by have /eqP := e j; rewrite mulf_eq0 (negPf hj) orbF subr_eq0 => /eqP.
exists j, (z j 0); split => //; apply/matrixP => i k; rewrite ord1 xz !mxE (bigD1 j) //= big1 ?addr0 1?mulrC // => l lj.
have /eqP := e l; rewrite mulf_eq0 subr_eq0 -dj (inj_eq dinj) (negPf lj) /= => /eqP ->; by rewrite mulr0.
Qed.

(* every matrix is bounded *)
Lemma vn_sum n k (f : 'I_k -> 'cV[C]_n) : vn (\sum_i f i) <= \sum_i vn (f i).
Proof.
elim/big_rec2: _ => [|i x y _ h]; first by rewrite vn0.
by apply: le_trans (vn_tri _ _) _; rewrite ler_add2l.
Qed.
Lemma vn_entry n (w : 'cV[C]_n) j : `|w j 0| <= vn w.
Proof.
rewrite -(@ler_pexpn2r _ 2) ?nnegrE ?vn_ge0 // vn2 (bigD1 j) //= ler_addl sumr_ge0 // => i _.
by rewrite exprn_ge0.
Qed.
Lemma bounded p q (M : 'M[C]_(p, q)) : exists2 a, 0 <= a & norm_le M a.
Proof.
exists (\sum_j vn (col j M)); first by rewrite sumr_ge0 // => j _; rewrite vn_ge0.
move=> w; have -> : M *m w = \sum_j w j 0 *: col j M.
  apply/matrixP => i k; rewrite ord1 mxE summxE; apply: eq_bigr => j _; by rewrite !mxE mulrC.
apply: le_trans (vn_sum _) _; rewrite mulr_suml; apply: ler_sum => j _.
by rewrite vnZ mulrC ler_wpmul2l ?vn_ge0 ?vn_entry.
Qed.
Lemma conditioned n (V : 'M[C]_n) : exists2 K, 0 <= K & condition V K.
Proof.
have [a a0 ha] := bounded V; have [c c0 hc] := bounded (invmx V).
by exists (a * c); [rewrite mulr_ge0 | exists a, c; split].
Qed.
End Norms.
