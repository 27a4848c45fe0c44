(* Annihilating polynomials of a vector under a matrix: the algebra behind
   the least common multiple computation.  Pure theory, no model. *)
From mathcomp Require Import all_ssreflect all_algebra zify.
From Verif Require Import Base BaseTheory Spec PolyTheory.

Set Implicit Arguments.
Unset Strict Implicit.
Unset Printing Implicit Defensive.

Import GRing.Theory.
Local Open Scope ring_scope.

Section Ann.
Variable F : fieldType.
Implicit Types (p q r : {poly F}) (c : F).

(* A^t b *)
Definition kv n (A : 'M[F]_n) (b : 'cV[F]_n) (t : nat) : 'cV[F]_n := iter t (mulmx A) b.

(* q(A) b *)
Definition ann n (A : 'M[F]_n) (b : 'cV[F]_n) (q : {poly F}) : 'cV[F]_n :=
  \sum_(t < size q) q`_t *: kv A b t.

Lemma annE n (A : 'M[F]_n) b q N : (size q <= N)%N -> ann A b q = \sum_(t < N) q`_t *: kv A b t.
Proof.
move=> h; rewrite /ann (big_ord_widen N (fun t => q`_t *: kv A b t)) // [RHS](bigID (fun t : 'I_N => (t < size q)%N)) /=.
rewrite [X in _ = _ + X]big1 ?addr0 // => i; rewrite -leqNgt => hi.
by rewrite nth_default // scale0r.
Qed.

Lemma annD n (A : 'M[F]_n) b p q : ann A b (p + q) = ann A b p + ann A b q.
Proof.
set N := maxn (size p) (size q).
rewrite (@annE _ _ _ (p + q) N) ?size_add // (@annE _ _ _ p N) ?leq_maxl // (@annE _ _ _ q N) ?leq_maxr //.
by rewrite -big_split /=; apply: eq_bigr => i _; rewrite coefD scalerDl.
Qed.

Lemma annZ n (A : 'M[F]_n) b c q : ann A b (c *: q) = c *: ann A b q.
Proof.
rewrite (@annE _ _ _ (c *: q) (size q)) ?size_scale_leq // scaler_sumr.
by apply: eq_bigr => i _; rewrite coefZ scalerA.
Qed.

Lemma ann0 n (A : 'M[F]_n) b : ann A b 0 = 0.
Proof. by rewrite /ann size_poly0 big_ord0. Qed.

Lemma ann_mulX n (A : 'M[F]_n) b q : ann A b (q * 'X) = A *m ann A b q.
Proof.
rewrite (@annE _ _ _ (q * 'X) (size q).+1); last first.
  by case: (eqVneq q 0) => [->|q0]; rewrite ?mul0r ?size_poly0 // size_mulX.
rewrite big_ord_recl coefMX /= scale0r add0r mulmx_sumr; apply: eq_bigr => i _.
by rewrite coefMX /= -scalemxAr.
Qed.

Lemma ann_mul n (A : 'M[F]_n) b p q : ann A b q = 0 -> ann A b (p * q) = 0.
Proof.
move=> h; elim/poly_ind: p => [|p c IH]; first by rewrite mul0r ann0.
rewrite mulrDl annD -mulrA ['X * q]mulrC mulrA ann_mulX IH mulmx0 add0r.
by rewrite mul_polyC annZ h scaler0.
Qed.

Lemma ann_dvd n (A : 'M[F]_n) b p q : ann A b p = 0 -> p %| q -> ann A b q = 0.
Proof. by move=> h /dvdpP[r ->]; exact: ann_mul. Qed.

(* p annihilates and nothing shorter does: p generates the annihilator *)
Lemma ann_min n (A : 'M[F]_n) b p : p != 0 -> ann A b p = 0 ->
  (forall r, (size r < size p)%N -> ann A b r = 0 -> r = 0) ->
  forall q, (p %| q) <-> ann A b q = 0.
Proof.
move=> p0 hp hm q; split; first exact: ann_dvd.
move=> hq; rewrite /dvdp; apply/eqP; apply: hm; first by rewrite ltn_modp.
have := hq; rewrite {1}(divp_eq q p) annD ann_mul // add0r //.
Qed.

Lemma kv_block n1 n2 (A : 'M[F]_n1) (B : 'M[F]_n2) u v t :
  kv (block_mx A 0 0 B) (col_mx u v) t = col_mx (kv A u t) (kv B v t).
Proof.
elim: t => // t IH; rewrite /kv /= -/(kv _ _ t) IH mul_block_col.
by rewrite !mul0mx addr0 add0r.
Qed.

Lemma ann_block n1 n2 (A : 'M[F]_n1) (B : 'M[F]_n2) u v q :
  ann (block_mx A 0 0 B) (col_mx u v) q = col_mx (ann A u q) (ann B v q).
Proof.
rewrite /ann; elim/big_rec3: _ => [|i x y z _ ->]; first by rewrite col_mx0.
by rewrite kv_block scale_col_mx add_col_mx.
Qed.

Lemma kv_sim n (A D : 'M[F]_n) b t : D \in unitmx ->
  kv (invmx D *m A *m D) (invmx D *m b) t = invmx D *m kv A b t.
Proof.
move=> uD; elim: t => // t IH; rewrite /kv /= -/(kv _ _ t) IH.
by rewrite mulmxA -(mulmxA _ D) mulmxV // mulmx1 mulmxA.
Qed.

Lemma ann_sim n (A D : 'M[F]_n) b q : D \in unitmx ->
  (ann (invmx D *m A *m D) (invmx D *m b) q = 0) <-> ann A b q = 0.
Proof.
move=> uD; have -> : ann (invmx D *m A *m D) (invmx D *m b) q = invmx D *m ann A b q.
  by rewrite /ann mulmx_sumr; apply: eq_bigr => i _; rewrite kv_sim // scalemxAr.
split=> [h|->]; last by rewrite mulmx0.
by rewrite -[ann A b q](mulKVmx uD) h mulmx0.
Qed.

(* a companion matrix with its coefficients in the last row *)
Section Comp.
Variables (n : nat) (A : 'M[F]_n.+1) (p : {poly F}).
Hypothesis hA : forall i j : 'I_n.+1, (i < n)%N -> A i j = (j == i.+1 :> nat)%:R.
Hypothesis hp : char_poly A = p.
Let e : 'cV[F]_n.+1 := \col_i (i == n :> nat)%:R.

Lemma kv_shift t (i : 'I_n.+1) (j : 'I_n.+1) : (i < n)%N -> j = i.+1 :> nat ->
  kv A e t.+1 i 0 = kv A e t j 0.
Proof.
move=> hi ij; rewrite /kv /= mxE (bigD1 j) //= hA // ij eqxx mul1r big1 ?addr0 //.
move=> k kj; rewrite hA //; case: eqP => [h|]; last by rewrite mul0r.
by move: kj; rewrite -val_eqE /= h ij eqxx.
Qed.

Lemma kv_tri t (i : 'I_n.+1) : (i + t <= n)%N -> kv A e t i 0 = (i + t == n)%N%:R.
Proof.
elim: t i => [|t IH] i h; first by rewrite mxE addn0.
have hi : (i < n)%N by lia.
rewrite (@kv_shift t i (inord i.+1)) //; last by rewrite inordK.
by rewrite IH inordK // ?addSn ?addnS //; lia.
Qed.

Lemma ann_CH : ann A e p = 0.
Proof.
have H : forall q, ann A e q = horner_mx A q *m e.
  elim/poly_ind => [|q c IH]; first by rewrite ann0 rmorph0 mul0mx.
  rewrite annD ann_mulX IH rmorphD rmorphM /= horner_mx_X horner_mx_C mulmxDl.
  rewrite mulmxA; congr (_ + _).
    congr (_ *m e); have := comm_horner_mx2 A 'X q; rewrite horner_mx_X => h; exact: h.
  by rewrite -[c%:P]mulr1 mul_polyC annZ /ann size_poly1 big_ord1 coef1 scale1r /= mul_scalar_mx.
by rewrite H -hp Cayley_Hamilton mul0mx.
Qed.

Lemma ann_comp_min r : (size r <= n.+1)%N -> ann A e r = 0 -> r = 0.
Proof.
move=> sr h; apply/eqP; apply/negP => /negP r0.
have s0 : (0 < size r)%N by rewrite size_poly_gt0.
pose d := (size r).-1; have hd : (d <= n)%N by rewrite /d; move: sr s0; plia F.
have dr : (d < size r)%N by rewrite /d prednK.
have := congr1 (fun M : 'cV[F]__ => M (inord (n - d)) 0) h.
rewrite /= summxE (bigD1 (Ordinal dr)) //=.
rewrite mxE kv_tri inordK ?ltnS ?leq_subr ?subnK // eqxx mulr1 big1 ?addr0.
  by rewrite mxE => /eqP; rewrite lead_coef_eq0 (negbTE r0).
move=> k kd; rewrite mxE kv_tri ?inordK ?ltnS ?leq_subr //; have := ltn_ord k.
  move: kd; rewrite -val_eqE /= /d => kd hk; rewrite (_ : _ == _ = false) ?mulr0 //; move: kd hk sr s0; rewrite /d; plia F.
rewrite /d; move: sr s0; plia F.
Qed.

Lemma ann_comp q : (p %| q) <-> ann A e q = 0.
Proof.
have mp : p \is monic by rewrite -hp char_poly_monic.
have sp : size p = n.+2 by rewrite -hp size_char_poly.
apply: ann_min; [exact: monic_neq0 | exact: ann_CH |].
by move=> r hr; apply: ann_comp_min; move: hr; rewrite sp ltnS.
Qed.

(* the Markov parameters of 1/p *)
Definition hm t : F := kv A e t 0 0.

Lemma hm_tri t : (t <= n)%N -> hm t = (t == n)%:R.
Proof. by move=> h; rewrite /hm kv_tri ?add0n. Qed.

Lemma mult_coef q k e' : (n < k)%N -> (size (q * p)%R <= k.+1)%N ->
  \sum_(x < k) hm x * (q * p)`_(x + e').+1 = q`_e'.
Proof.
move=> nk; have mp : p \is monic by rewrite -hp char_poly_monic.
have sp : size p = n.+2 by rewrite -hp size_char_poly.
elim/poly_ind: q k nk e' => [|q c IH] k nk e' hs.
  by rewrite big1 ?coef0 // => i _; rewrite mul0r coef0 mulr0.
have hs' : (size (q * p)%R <= k)%N.
  case: (eqVneq q 0) => [->|q0]; first by rewrite mul0r size_poly0.
  move: hs; rewrite !size_Mmonic // ?sp; last first.
    rewrite -size_poly_gt0 size_addl ?size_mulX // size_polyC; case: eqP => //; rewrite ?size_poly_gt0 //.
    by move=> _; rewrite ltnS size_poly_gt0.
  rewrite size_addl ?size_mulX //; first by rewrite addSn addnS.
  by rewrite size_polyC; case: eqP => //= _; rewrite ltnS size_poly_gt0.
have -> : (q * 'X + c%:P) * p = q * p * 'X + c *: p by rewrite mulrDl mul_polyC -!mulrA ['X * p]mulrC.
rewrite (eq_bigr (fun x : 'I_k => hm x * (q * p)`_(x + e') + c * (hm x * p`_(x + e').+1))); last first.
  by move=> x _; rewrite coefD coefMX coefZ mulrDr [hm x * (c * _)]mulrCA.
rewrite big_split /= -mulr_sumr coefD coefMX coefC; congr (_ + _).
  case: e' => [|e''] /=; last first.
    by rewrite -(IH k) //; [apply: eq_bigr => x _; rewrite addnS | apply: leqW].
  have h : ann A e (q * p) = 0 by apply: (ann_dvd ann_CH); apply: dvdp_mulIr.
  have E : ann A e (q * p) 0 0 = 0 by rewrite h mxE.
  rewrite -[RHS]E (annE _ _ hs') summxE; apply: eq_bigr => x _.
  by rewrite mxE addn0 mulrC.
rewrite (bigD1 (Ordinal nk)) //= hm_tri // eqxx mul1r big1 ?addr0; last first.
  move=> x xn; case: (leqP x n) => hx; last by rewrite [p`_ _]nth_default ?mulr0 // sp; lia.
  by rewrite hm_tri // -val_eqE /= in xn *; rewrite (negbTE xn) mul0r.
case: e' => [|e'']; last by rewrite /= [p`_ _]nth_default ?mulr0 // sp addnS !ltnS leq_addr.
by move/monicP: mp; rewrite /lead_coef sp addn0 /= => ->; rewrite mulr1.
Qed.

End Comp.

End Ann.

Section Kry.
Variable F : fieldType.
Implicit Types (p q r : {poly F}) (c : F).

Lemma rVpoly_lin m (y : 'cV[F]_m) (t : 'I_m) : (rVpoly y^T)`_t = y t 0.
Proof. by rewrite coef_rVpoly_ord mxE. Qed.

Definition kmx n (A : 'M[F]_n) b m : 'M[F]_(n, m) := \matrix_(i, t) kv A b t i 0.

Lemma kmx_ann n (A : 'M[F]_n) b m (y : 'cV_m) : kmx A b m *m y = ann A b (rVpoly y^T).
Proof.
apply/colP => i; rewrite mxE (@annE _ _ _ _ _ m) ?size_poly // summxE.
by apply: eq_bigr => t _; rewrite !mxE rVpoly_lin mulrC.
Qed.

Definition indep n (A : 'M[F]_n) b m := forall r, (size r <= m)%N -> ann A b r = 0 -> r = 0.

Lemma ker0_free n m (T : 'M[F]_(n, m)) : (forall x : 'cV_m, T *m x = 0 -> x = 0) -> \rank T = m.
Proof.
move=> h; rewrite -mxrank_tr; apply/eqP; rewrite -/(row_free _) -kermx_eq0 -submx0.
apply/rV_subP => v /sub_kermxP hv.
have /h/(congr1 trmx) : T *m v^T = 0 by rewrite -[T]trmxK -trmx_mul hv trmx0.
by rewrite trmxK trmx0 => ->; rewrite sub0mx.
Qed.

Lemma ker0_unit m (T : 'M[F]_m) : (forall x : 'cV_m, T *m x = 0 -> x = 0) -> T \in unitmx.
Proof. by move=> h; rewrite -row_free_unit /row_free (ker0_free h). Qed.

Lemma free_ker0 n m (T : 'M[F]_(n, m)) : \rank T = m -> forall x : 'cV_m, T *m x = 0 -> x = 0.
Proof.
rewrite -mxrank_tr => /eqP; rewrite -/(row_free _) => fr x h.
apply: trmx_inj; apply: (row_free_inj fr); by rewrite -trmx_mul h !trmx0 mul0mx.
Qed.

Lemma indepP n (A : 'M[F]_n) b m : (\rank (kmx A b m) == m) <-> indep A b m.
Proof.
split=> [/eqP h r sr hr|h].
  have := free_ker0 h (x := (poly_rV r)^T); rewrite kmx_ann trmxK poly_rV_K // => /(_ hr).
  by move/(congr1 trmx); rewrite trmxK trmx0 => /(congr1 rVpoly); rewrite poly_rV_K // linear0.
apply/eqP; apply: ker0_free => x; rewrite kmx_ann => /h; rewrite size_poly => /(_ isT) e.
by apply: trmx_inj; rewrite trmx0 -(rVpolyK x^T) e linear0.
Qed.

(* at most n independent vectors in dimension n *)
Lemma indep_le n (A : 'M[F]_n) b m : indep A b m -> (m <= n)%N.
Proof. by move/indepP => /eqP <-; exact: rank_leq_row. Qed.

Lemma indep1 n (A : 'M[F]_n) b : b != 0 -> indep A b 1.
Proof.
move=> b0 r sr; rewrite (annE _ _ sr) big_ord1 /= => /eqP; rewrite scaler_eq0 (negbTE b0) orbF => /eqP h.
by rewrite (size1_polyC sr) h.
Qed.

(* the factorisation u s v of the Krylov matrix with u, v invertible and s
   diagonal, its zero diagonal entries last; the solution of the linear system
   gives the monic minimal annihilator *)
Lemma kry_solve n m (A : 'M[F]_n) b (u : 'M[F]_n) (s : 'M[F]_(n, m.+1)) (v : 'M[F]_m.+1) :
  u \in unitmx -> v \in unitmx -> kmx A b m.+1 = u *m s *m v ->
  (forall (i : 'I_n) (j : 'I_m.+1), i != j :> nat -> s i j = 0) ->
  (forall (i i' : 'I_n) (j j' : 'I_m.+1), i = j :> nat -> i' = j' :> nat -> (i <= i')%N -> s i j = 0 -> s i' j' = 0) ->
  indep A b m -> ~ indep A b m.+1 ->
  forall (mn : (m <= n)%N),
  let T := s *m v in
  let T11 := \matrix_(i < m, j < m) T (widen_ord mn i) (widen_ord (leqnSn m) j) in
  let T12 := \col_(i < m) T (widen_ord mn i) ord_max in
  T11 \in unitmx /\
  forall x : 'cV_m, T11 *m x = - T12 -> ann A b ('X^m + rVpoly x^T) = 0.
Proof.
move=> uu uv e off mono hi hd mn T T11 T12.
have rows : forall (i : 'I_n) j, (m <= i)%N -> T i j = 0.
  move=> i j mi; rewrite mxE big1 // => k _.
  case: (eqVneq (i : nat) (k : nat)) => [ik|/off->]; last by rewrite mul0r.
  rewrite (_ : s i k = 0) ?mul0r //; apply/eqP; apply/negP => /negP sn0; apply: hd.
  apply/indepP/eqP; apply: ker0_free => x; rewrite e -!mulmxA => /(congr1 (mulmx (invmx u))).
  rewrite mulKmx // mulmx0 => h; rewrite -(mulKmx uv x); move: (v *m x) h => y h.
  suff -> : y = 0 by rewrite mulmx0.
  have kn : forall l : 'I_m.+1, (l < n)%N by move=> l; have := ltn_ord l; have := ltn_ord i; lia.
  apply/colP => l; have := congr1 (fun M : 'cV_n => M (Ordinal (kn l)) 0) h.
  rewrite !mxE (bigD1 l) //= big1 ?addr0; last by move=> l' ll'; rewrite off ?mul0r // eq_sym val_eqE.
  move/eqP; rewrite mulf_eq0 => /orP[/eqP hs|/eqP//].
  have := mono (Ordinal (kn l)) i l k erefl ik; rewrite /= => /(_ _ hs) h2; case/eqP: sn0; apply: h2.
  have := ltn_ord l; have := ltn_ord k; lia.
have Tker : forall y : 'cV_m.+1, T *m y = 0 -> kmx A b m.+1 *m y = 0.
  by move=> y h; rewrite e -(mulmxA u) -mulmxA h mulmx0.
clearbody T; have Tsplit : forall (x : 'cV_m) c, T11 *m x + c *: T12 = 0 -> T *m (\col_(j < m.+1) if insub (j : nat) is Some k then x k 0 else c) = 0.
  move=> x c h; apply/colP => i; rewrite [LHS]mxE [RHS]mxE big_ord_recr /= mxE insubF ?ltnn //.
  case: (ltnP i m) => im; last by rewrite rows // mul0r addr0 big1 // => j _; rewrite rows // mul0r.
  have := congr1 (fun M : 'cV_m => M (Ordinal im) 0) h; rewrite !mxE => h'.
  rewrite -[RHS]h' [c * _]mulrC; congr (_ + _ * _); last by congr (T _ _); apply: val_inj.
  apply: eq_bigr => j _; rewrite !mxE /= valK; congr (T _ _ * _); exact: val_inj.
split.
  apply: ker0_unit => x hx; have := Tsplit x 0; rewrite hx scale0r addr0 => /(_ erefl)/Tker.
  rewrite kmx_ann; set y := \col_j _ => hy.
  have := hi (rVpoly x^T); rewrite size_poly => /(_ isT) h.
  apply: trmx_inj; rewrite trmx0 -(rVpolyK x^T) h ?linear0 //.
  rewrite -hy; congr ann; apply/polyP => k; rewrite !coef_rVpoly.
  case: insubP => [j jm jk|]; rewrite ?mxE.
    rewrite insubT /=; first by rewrite -jk leqW // ltn_ord.
    by move=> h'; rewrite !mxE /= -jk valK.
  rewrite -leqNgt => mk; case: insubP => // j _ jk; rewrite !mxE insubF // jk; lia.
move=> x hx; have := Tsplit x 1; rewrite hx scale1r addNr => /(_ erefl)/Tker.
rewrite kmx_ann => <-; congr ann; apply/polyP => k; rewrite coefD coefXn !coef_rVpoly.
case: (ltngtP k m) => km.
- rewrite insubT add0r insubT /=; first by apply: leqW.
  move=> h'; rewrite !mxE /= insubT //=; congr (x _ _); exact: val_inj.
- by rewrite insubF ?add0r ?insubF //; lia.
- rewrite insubF; last by lia. rewrite addr0 insubT /= ?km // => h'; rewrite !mxE insubF //=; lia.
Qed.

End Kry.

Section CompN.
Variable F : fieldType.
Implicit Types (p q : {poly F}).

Lemma ann_comp_n n (A : 'M[F]_n) p q : (0 < n)%N ->
  (forall i j : 'I_n, (i.+1 < n)%N -> A i j = (j == i.+1 :> nat)%:R) -> char_poly A = p ->
  (p %| q) <-> ann A (\col_i (i == n.-1 :> nat)%:R) q = 0.
Proof. by case: n A => // n A _ hA hp; apply: ann_comp => // i j hi; rewrite hA. Qed.

Lemma mult_coef_n n (A : 'M[F]_n) p (i0 : 'I_n) q k e : 
  (forall i j : 'I_n, (i.+1 < n)%N -> A i j = (j == i.+1 :> nat)%:R) -> char_poly A = p ->
  i0 = 0%N :> nat -> (n <= k)%N -> (size (q * p)%R <= k.+1)%N ->
  \sum_(x < k) kv A (\col_i (i == n.-1 :> nat)%:R) x i0 0 * (q * p)`_(x + e).+1 = q`_e.
Proof.
case: n A i0 => [A []//|n A] i0 hA hp h0 hk hs.
have -> : i0 = ord0 by apply: val_inj.
by apply: mult_coef => // i j hi; rewrite hA.
Qed.

End CompN.
