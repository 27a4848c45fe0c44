(* The gain of a rational matrix on the imaginary axis, in real terms. *)
From mathcomp Require Import all_ssreflect all_algebra zify.
From Verif Require Import Base BaseTheory Spec ModelState SpecSim SpecNorm PdTheory RingTac.

Set Implicit Arguments.
Unset Strict Implicit.
Unset Printing Implicit Defensive.

Import Order.Theory GRing.Theory Num.Theory.
Local Open Scope ring_scope.

Lemma pd_familyM (R : rcfType) n (H : 'M[{poly R}]_n) w0 : H^T = H ->
  (forall w, \det (map_mx (horner_eval w) H) != 0) -> pd (map_mx (horner_eval w0) H) ->
  forall w, pd (map_mx (horner_eval w) H).
Proof.
move=> /matrixP sH dn p0 w.
pose K i j : {poly R} := if (insub i : option 'I_n, insub j : option 'I_n) is (Some i', Some j') then H i' j' else 0.
have KE t : mxf n (fun i j => (K i j).[t]) = map_mx (horner_eval t) H.
  by apply/matrixP => i j; rewrite !mxE /K !valK.
rewrite -KE; apply: (@pd_family R n K w0); rewrite ?KE //; last by move=> t; rewrite KE.
by move=> i j; rewrite /K; case: (insub i) => [i'|]; case: (insub j) => [j'|] //; rewrite -[in RHS]sH mxE.
Qed.

Section Real.
Variables (R : realFieldType) (L : fieldType) (f : {rmorphism R -> L}) (ii : L) (conj : {rmorphism L -> L}).
Hypothesis cx : complexes f ii conj.

(* a vector of R^2n as a vector of L^n, and a pair of real matrices as a complex matrix and as a real one *)
Definition cxv n (x : 'cV[R]_(n + n)) : 'cV[L]_n := map_mx f (usubmx x) + ii *: map_mx f (dsubmx x).
Definition cxm p m (X Y : 'M[R]_(p, m)) : 'M[L]_(p, m) := map_mx f X + ii *: map_mx f Y.
Definition rem p m (X Y : 'M[R]_(p, m)) : 'M[R]_(p + p, m + m) := block_mx X (- Y) Y X.

Lemma i2 : ii * ii = -1. Proof. by case: cx => <-; rewrite expr2. Qed.

Lemma cxv0 n (x : 'cV[R]_(n + n)) : cxv x = 0 -> x = 0.
Proof.
case: cx => _ _ _ h /matrixP e; rewrite -[x]vsubmxK.
have z i : usubmx x i 0 = 0 /\ dsubmx x i 0 = 0 by apply: h; have := e i 0; rewrite !mxE.
by rewrite -[RHS]vsubmxK; congr col_mx; apply/colP => i; have [a b] := z i; rewrite ?a ?b; rewrite !mxE.
Qed.
Lemma cxvZ n a (x : 'cV[R]_(n + n)) : cxv (a *: x) = f a *: cxv x.
Proof. by apply/matrixP => i j; rewrite !mxE !rmorphM mulrDr mulrCA. Qed.
Lemma cxv_onto n (u : 'cV[L]_n) : cartesian f ii -> exists x, u = cxv x.
Proof.
move=> h; have [a ha] := @fin_all_exists _ _ _ (fun i => h (u i 0)).
have [b hb] := @fin_all_exists _ _ _ ha.
exists (col_mx (\col_i a i) (\col_i b i)); apply/colP => i; rewrite /cxv col_mxKu col_mxKd !mxE; exact: hb.
Qed.
Lemma cxM p m (X Y : 'M[R]_(p, m)) x : cxm X Y *m cxv x = cxv (rem X Y *m x).
Proof.
rewrite -[x]vsubmxK /rem mul_block_col /cxv !col_mxKu !col_mxKd; move: (usubmx x) (dsubmx x) => a b.
rewrite /cxm mulmxDl !mulmxDr -!scalemxAl -!scalemxAr scalerA i2 scaleN1r !map_mxD !map_mxM map_mxN mulNmx !scalerDr.
by rewrite -!addrA; congr (_ + _); rewrite addrCA [RHS]addrC -!addrA; congr (_ + _); rewrite addrC.
Qed.
Lemma cxA p m (X Y : 'M[R]_(p, m)) : adjointc conj (cxm X Y) = cxm X^T (- Y^T).
Proof.
by case: cx => _ ci cf _; apply/matrixP => i j; rewrite !mxE rmorphD rmorphM ci !cf rmorphN mulrN mulNr.
Qed.
Lemma remT p m (X Y : 'M[R]_(p, m)) : rem X^T (- Y^T) = (rem X Y)^T.
Proof. by rewrite /rem tr_block_mx opprK linearN. Qed.
Lemma cxAM p m (X Y : 'M[R]_(p, m)) x : adjointc conj (cxm X Y) *m cxv x = cxv ((rem X Y)^T *m x).
Proof. by rewrite cxA cxM remT. Qed.
Lemma cx_sq n (x : 'cV[R]_(n + n)) : sqnorm conj (cxv x) = f ((x^T *m x) 0 0).
Proof.
case: cx => _ ci cf _; rewrite /sqnorm -{3 4}[x]vsubmxK tr_col_mx mul_row_col !mxE rmorphD !rmorph_sum -big_split /=.
apply: eq_bigr => i _; rewrite !mxE rmorphD rmorphM ci !cf !rmorphM.
have -> : forall a b : L, (a + - ii * b) * (a + ii * b) = a * a - ii * ii * (b * b) by move=> a b; mc_ring L.
by rewrite i2 mulN1r opprK.
Qed.
Lemma adjZ p m c (M : 'M[L]_(p, m)) : adjointc conj (c *: M) = conj c *: adjointc conj M.
Proof. by apply/matrixP => i j; rewrite !mxE rmorphM. Qed.
Lemma sq_scale n c (u : 'cV[L]_n) : sqnorm conj (c *: u) = conj c * c * sqnorm conj u.
Proof. by rewrite /sqnorm adjZ -scalemxAl -scalemxAr scalerA [LHS]mxE. Qed.
End Real.

Section Gain.
Variables (R : rcfType) (L : fieldType) (f : {rmorphism R -> L}) (ii : L) (conj : {rmorphism L -> L}).
Hypotheses (cx : complexes f ii conj) (ct : cartesian f ii).
Variables (p m : nat) (X Y : 'M[{poly R}]_(p, m)) (d : {poly R}) (chi : R -> L) (M : R -> 'M[L]_(p, m)).
Local Notation at_ w Z := (map_mx (horner_eval w) Z).
Hypothesis chi0 : forall w, chi w != 0.
Hypothesis hd : forall w, conj (chi w) * chi w = f d.[w].
Hypothesis dp : forall w, 0 < d.[w].
Hypothesis hM : forall w, cxm f ii (at_ w X) (at_ w Y) = chi w *: M w.

Lemma gain_below (nrm : R -> R) g w0 : (forall w, induced_norm f conj (M w) (nrm w)) -> nrm w0 < g ->
  (forall w, ~ singular_value f conj (M w) g) -> forall w, nrm w < g.
Proof.
move=> hn h0 hs.
have g0 : 0 < g by apply: le_lt_trans h0; have [] := hn w0.
pose Z w := rem (at_ w X) (at_ w Y).
pose ZP := block_mx X (- Y) Y X.
pose H : 'M[{poly R}]_(m + m) := (g ^+ 2 *: d)%:M - ZP^T *m ZP.
have ZE w : at_ w ZP = Z w by rewrite /ZP map_block_mx map_mxN.
have HE w : at_ w H = (g ^+ 2 * d.[w])%:M - (Z w)^T *m Z w.
  by rewrite /H map_mxB map_mxM -map_trmx ZE map_scalar_mx /= /horner_eval hornerZ.
have sH : H^T = H by rewrite /H linearB /= tr_scalar_mx trmx_mul trmxK.
have eM w : M w = (chi w)^-1 *: cxm f ii (at_ w X) (at_ w Y) by rewrite hM scalerA mulVf ?scale1r.
have fd w : f d.[w] != 0 by rewrite fmorph_eq0 gt_eqF.
have ci w : conj (chi w)^-1 * (chi w)^-1 = (f d.[w])^-1 by rewrite fmorphV -invfM hd.
have sv w x : sqnorm conj (M w *m cxv f ii x) = f (((Z w *m x)^T *m (Z w *m x)) 0 0 / d.[w]).
  by rewrite eM -scalemxAl (cxM cx) sq_scale ci (cx_sq cx) rmorphM fmorphV mulrC.
have qE w x : qf (at_ w H) x = d.[w] * (g ^+ 2 * (x^T *m x) 0 0 - ((Z w *m x)^T *m (Z w *m x)) 0 0 / d.[w]).
  rewrite /qf HE mulmxBr mulmxBl trmx_mul !mulmxA -[in x^T *m _]scalemx1 -scalemxAr -scalemxAl mulmx1 mxE mxE [X in _ + X]mxE.
  rewrite mulrBr mulrCA [d.[w] * (_ / _)]mulrC divfK ?gt_eqF //.
  by rewrite mulrAC -mulrA [_ * d.[w]]mulrC !mulrA.
have nz (x : 'cV[R]_(m + m)) : x != 0 -> 0 < (x^T *m x) 0 0 :> R.
  by move=> x0; have := qf1_gt x0; rewrite /qf mulmx1.
have dn w : \det (at_ w H) != 0.
  apply/negP => /det0P[v v0 e]; apply: (hs w).
  have hv : at_ w H *m v^T = 0 by apply: trmx_inj; rewrite trmx_mul trmxK trmx0 map_trmx sH.
  exists (cxv f ii v^T); first by apply: contra v0 => /eqP /(cxv0 cx) /eqP; rewrite trmx_eq0.
  move: hv; rewrite HE mulmxBl mul_scalar_mx => /eqP; rewrite subr_eq0 => /eqP hv.
  rewrite eM adjZ -scalemxAl -scalemxAr scalerA ci -scalemxAl -mulmxA (cxM cx) (cxAM cx) mulmxA -hv cxvZ scalerA rmorphM.
  by congr (_ *: _); rewrite mulrCA mulVf ?mulr1.
have p0 : pd (at_ w0 H).
  move=> x x0; rewrite qE pmulr_rgt0 // subr_gt0.
  have [n0 /(_ (cxv f ii x)) [r r0 e] _] := hn w0.
  move: e; rewrite sv (cx_sq cx) -rmorphM -rmorphB => /(fmorph_inj f) e.
  apply: (@le_lt_trans _ _ (nrm w0 ^+ 2 * (x^T *m x) 0 0)); first by rewrite -subr_ge0 e.
  by rewrite ltr_pmul2r ?nz // ltr_expn2r ?qualifE // ltW.
move=> w; have [n0 _ [u u0]] := hn w.
have [x ex] := cxv_onto u ct; rewrite ex sv (cx_sq cx) -rmorphM => /(fmorph_inj f) e.
have x0 : x != 0 by apply: contra u0 => /eqP x0; rewrite ex x0 -(scale0r (0 : 'cV[R]_(m + m))) cxvZ rmorph0 scale0r.
have := pd_familyM sH dn p0 w x0; rewrite qE pmulr_rgt0 // subr_gt0 e ltr_pmul2r ?nz //.
by rewrite ltr_pexpn2r ?nnegrE ?n0 ?(ltW g0).
Qed.
End Gain.
