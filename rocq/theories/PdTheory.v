(* Positive definite symmetric matrices over a real closed field: Sylvester's criterion, and a polynomial family of
   symmetric matrices that is nowhere singular is positive definite everywhere as soon as it is so at one point. *)
From mathcomp Require Import all_ssreflect all_algebra zify.
From mathcomp Require Import polyrcf.
From Verif Require Import Base RingTac.

Set Implicit Arguments.
Unset Strict Implicit.
Unset Printing Implicit Defensive.

Import Order.Theory GRing.Theory Num.Theory.
Local Open Scope ring_scope.

Section Pd.
Variable R : rcfType.
Implicit Types F H : nat -> nat -> R.

Definition mxf (T : Type) k (F : nat -> nat -> T) : 'M[T]_k := \matrix_(i, j) F i j.
Definition qf n (M : 'M[R]_n) (x : 'cV[R]_n) : R := (x^T *m M *m x) 0 0.
Definition pd n (M : 'M[R]_n) : Prop := forall x : 'cV[R]_n, x != 0 -> 0 < qf M x.

Lemma qfD n (M N : 'M[R]_n) x : qf (M + N) x = qf M x + qf N x.
Proof. by rewrite /qf mulmxDr mulmxDl mxE. Qed.
Lemma qfZ n a (M : 'M[R]_n) x : qf (a *: M) x = a * qf M x.
Proof. by rewrite /qf -scalemxAr -scalemxAl mxE. Qed.
Lemma qf1 n (x : 'cV[R]_n) : qf 1%:M x = \sum_i x i 0 ^+ 2.
Proof. by rewrite /qf mulmx1 mxE; apply: eq_bigr => i _; rewrite !mxE. Qed.
Lemma qf1_gt n (x : 'cV[R]_n) : x != 0 -> 0 < qf 1%:M x.
Proof.
move=> x0; rewrite qf1 lt_def sumr_ge0 ?andbT; last by move=> i _; rewrite sqr_ge0.
apply: contra x0 => /eqP h; apply/eqP/colP => i; rewrite mxE.
by apply/eqP; rewrite -sqrf_eq0; move/eqP: h; rewrite psumr_eq0 => [|j _]; rewrite ?sqr_ge0 // => /allP /(_ i); rewrite mem_index_enum => /(_ isT).
Qed.


Lemma pd_det0 n (M : 'M[R]_n) : pd M -> \det M != 0.
Proof.
move=> h; apply/negP => /det0P[v v0 e].
have := h v^T; rewrite trmx_eq0 v0 => /(_ isT).
by rewrite /qf trmxK e mul0mx mxE ltxx.
Qed.

Lemma pd_det n (M : 'M[R]_n) : pd M -> 0 < \det M.
Proof.
move=> h; rewrite lt_def pd_det0 //= leNgt; apply/negP => hn.
pose P : {poly R} := \det (1%:M + 'X *: map_mx polyC (M - 1%:M)).
have PE t : P.[t] = \det (1%:M + t *: (M - 1%:M)).
  rewrite -horner_evalE -det_map_mx; congr (\det _); apply/matrixP => i j; rewrite !mxE /= /horner_eval.
  by rewrite !(hornerD, hornerM, hornerX, hornerN, hornerMn, hornerC).
have [|t /andP[t0 t1] rt] := @poly_ivt R (- P) 0 1 ler01.
  rewrite !hornerN oppr_le0 oppr_ge0 !PE scale0r addr0 det1 ler01 scale1r addrC subrK ltW //.
move: rt; rewrite rootN /root PE => /eqP d0; move/eqP: d0; apply/negP; apply: pd_det0 => x x0.
have -> : 1%:M + t *: (M - 1%:M) = (1 - t) *: 1%:M + t *: M.
  by apply/matrixP => i j; rewrite !mxE; move: (_%:R) (M i j) => a b; mc_ring R.
rewrite qfD !qfZ.
have q1 := qf1_gt x0; have q2 := h x x0.
have [->|tn] := eqVneq t 1; first by rewrite subrr mul0r add0r mul1r.
apply: ltr_paddr; first by rewrite mulr_ge0 // ltW.
by rewrite mulr_gt0 // subr_gt0 lt_neqAle tn.
Qed.

(* a symmetric matrix bordered by one row and column *)
Section Border.
Variables (n : nat) (M : 'M[R]_n) (b : 'cV[R]_n) (c : R).
Hypotheses (sM : M^T = M) (pM : pd M).
Let B : 'M[R]_(n + 1) := block_mx M b b^T c%:M.
Let s : R := c - (b^T *m invmx M *m b) 0 0.
Let L : 'M[R]_(n + 1) := block_mx 1%:M (invmx M *m b) 0 1%:M.
Let E : 'M[R]_(n + 1) := block_mx M 0 0 s%:M.

Let uM : M \in unitmx.
Proof. by rewrite unitmxE unitfE pd_det0. Qed.

Lemma border_fact : B = L^T *m E *m L.
Proof.
rewrite /L /E tr_block_mx !trmx1 trmx0 !mulmx_block !(mul1mx, mulmx1, mulmx0, mul0mx, addr0, add0r).
rewrite trmx_mul trmx_inv sM mulKVmx // mulmxKV // /B; congr block_mx.
rewrite mulmxA (mx11_scalar (b^T *m _ *m _)) -[in RHS]raddfD /= /s; congr (_%:M).
by rewrite addrC subrK.
Qed.
Lemma border_det : \det B = \det M * s.
Proof.
rewrite border_fact !det_mulmx det_tr /L det_ublock !det1 mulr1 !mul1r mulr1 /E det_ublock.
by rewrite det_scalar1.
Qed.
Lemma border_pd : 0 < \det B -> pd B.
Proof.
rewrite border_det pmulr_rgt0 ?pd_det // => s0 x x0.
rewrite border_fact /qf !mulmxA -mulmxA -trmx_mul.
set y := L *m x; have y0 : y != 0.
  apply: contra x0 => /eqP e; have uL : L \in unitmx by rewrite unitmxE det_ublock !det1 mulr1 unitr1.
  by rewrite -[x](mulKmx uL) -/y e mulmx0.
rewrite -[y]vsubmxK /E tr_col_mx mul_row_block mul_row_col !(mulmx0, addr0, add0r).
rewrite mxE; move: y0; rewrite -{1}[y]vsubmxK; move: (usubmx y) (dsubmx y) => u v uv.
have e2 : (v^T *m s%:M *m v) 0 0 = s * (v 0 0) ^+ 2.
  by rewrite -scalemx1 -scalemxAr -scalemxAl mulmx1 !mxE big_ord1 !mxE.
rewrite e2; have [u0|u0] := eqVneq u 0.
  rewrite u0 mulmx0 mxE add0r pmulr_rgt0 // lt_def sqr_ge0 andbT sqrf_eq0.
  apply: contra uv => /eqP v0; rewrite u0; apply/eqP/colP => i; rewrite !mxE; case: splitP => k _; rewrite ?mxE //.
  by rewrite ord1.
by apply: ltr_paddr; [rewrite mulr_ge0 ?sqr_ge0 ?ltW | apply: pM].
Qed.
End Border.

Lemma mxf_border k F : (forall i j, F i j = F j i) ->
  mxf (k + 1) F = block_mx (mxf k F) (\col_i F i k) (\col_i F i k)^T (F k k)%:M.
Proof.
move=> sF; apply/matrixP => i j; rewrite !mxE.
case: splitP => [i' ->|i' ->]; rewrite !mxE; case: splitP => [j' ->|j' ->]; rewrite ?mxE //= ?ord1 ?addn0 //.
Qed.
Lemma mxf_sym k F : (forall i j, F i j = F j i) -> (mxf k F)^T = mxf k F.
Proof. by move=> sF; apply/matrixP => i j; rewrite !mxE. Qed.

(* Sylvester's criterion *)
Lemma sylvester F n : (forall i j, F i j = F j i) -> (forall k, (k <= n)%N -> 0 < \det (mxf k F)) -> pd (mxf n F).
Proof.
move=> sF; elim: n => [|n IH] h; first by move=> x; rewrite [x]flatmx0 eqxx.
have hn := h n.+1 (leqnn _); move: hn; rewrite -addn1 mxf_border // => hn.
by apply: border_pd => //; [apply: mxf_sym | apply: IH => k kn; apply: h; apply: leqW].
Qed.

Lemma pd_lead F n k : pd (mxf n F) -> (k <= n)%N -> pd (mxf k F).
Proof.
move=> h kn x x0.
pose y : 'cV[R]_n := \col_i (if insub (val i) is Some j then x j 0 else 0).
have yE (j : 'I_k) (i : 'I_n) : i = j :> nat -> y i 0 = x j 0.
  move=> e; rewrite mxE; case: insubP => [j' _ e'|]; last by rewrite /= e ltn_ord.
  by congr (x _ _); apply: val_inj; rewrite /= e'.
have y0 : y != 0.
  apply: contra x0 => /eqP e; apply/eqP/colP => j; rewrite mxE -(yE j (widen_ord kn j)) // e mxE //.
suff -> : qf (mxf k F) x = qf (mxf n F) y by apply: h.
have big (g : 'I_n -> R) (g' : 'I_k -> R) : (forall i : 'I_n, (k <= i)%N -> g i = 0) -> (forall j, g (widen_ord kn j) = g' j) ->
    \sum_i g i = \sum_j g' j.
  move=> z e; rewrite (bigID (fun i : 'I_n => (i < k)%N)) /= [X in _ + X]big1 ?addr0; last by move=> i; rewrite -leqNgt => /z.
  rewrite (big_ord_narrow kn); apply: eq_bigr => j _; exact: e.
have yz (i : 'I_n) : (k <= i)%N -> y i 0 = 0 by move=> ki; rewrite mxE; case: insubP => // j; rewrite ltnNge ki.
rewrite /qf !mxE; symmetry; apply: (big _ _) => [i ki|j]; first by rewrite yz // mulr0.
rewrite (yE j) // !mxE; congr (_ * _); apply: (big _ _) => [i ki|i]; first by rewrite [y^T _ _]mxE yz // mul0r.
by rewrite ![_^T _ _]mxE (yE i) // !mxE.
Qed.

(* positive semidefinite and regular is positive definite *)
Lemma psd_pd n (M : 'M[R]_n) : M^T = M -> \det M != 0 -> (forall x, 0 <= qf M x) -> pd M.
Proof.
move=> sM d0 h x x0; rewrite lt_def h andbT; apply/negP => /eqP q0.
have z (y : 'cV[R]_n) : (y^T *m M *m x) 0 0 = 0.
  set b : R := (y^T *m M *m x) 0 0.
  have e a t : qf M (a *: x + t *: y) = 2%:R * a * t * b + t ^+ 2 * qf M y.
    have tE : (a *: x + t *: y)^T = a *: x^T + t *: y^T by apply/matrixP => i j; rewrite !mxE.
    have aE (U V : 'M[R]_1) : (U + V) 0 0 = U 0 0 + V 0 0 by rewrite mxE.
    have zE (d : R) (U : 'M[R]_1) : (d *: U) 0 0 = d * U 0 0 by rewrite mxE.
    rewrite /qf tE !(mulmxDl, mulmxDr) -?scalemxAl -?scalemxAr ?scalerA !(aE, zE) -/b.
    have -> : (x^T *m M *m y) 0 0 = b.
      by rewrite /b -[y^T *m M *m x]trmxK [RHS]mxE !trmx_mul trmxK sM mulmxA.
    rewrite -/(qf M x) q0 -/(qf M y); move: b (qf M y) => b0 c0; mc_ring R.
  have q := h y; apply/eqP/negPn/negP => b0.
  have := h ((qf M y + 1) *: x + (- b) *: y); rewrite e lt_geF //.
  have -> : 2%:R * (qf M y + 1) * (- b) * b + (- b) ^+ 2 * qf M y = - ((qf M y + 2%:R) * b ^+ 2).
    by move: (qf M y) => c; mc_ring R.
  by rewrite oppr_lt0 mulr_gt0 ?exprn_even_gt0 // ltr_paddl // ltr0n.
have Mx : M *m x = 0.
  by apply/colP => i; have := z (delta_mx i 0); rewrite -mulmxA trmx_delta -rowE mxE => ->; rewrite mxE.
move: x0; have uM : M \in unitmx by rewrite unitmxE unitfE.
by rewrite -[x](mulKmx uM) Mx mulmx0 eqxx.
Qed.

Section Family.
Variables (n : nat) (H : nat -> nat -> {poly R}).
Hypothesis sH : forall i j, H i j = H j i.
Local Notation at_ w := (fun i j => (H i j).[w]).

Lemma det_at k w : (\det (mxf k H)).[w] = \det (mxf k (at_ w)).
Proof. by rewrite -horner_evalE -det_map_mx; congr (\det _); apply/matrixP => i j; rewrite !mxE. Qed.
Lemma qf_at x : exists p : {poly R}, forall w, p.[w] = qf (mxf n (at_ w)) x.
Proof.
exists (((map_mx polyC x)^T *m mxf n H *m map_mx polyC x) 0 0) => w.
rewrite -horner_evalE.
have -> : forall (m k : nat) (M : 'M[{poly R}]_(m, k)) i j, horner_eval w (M i j) = map_mx (horner_eval w) M i j by move=> *; rewrite mxE.
have e1 : map_mx (horner_eval w) (map_mx polyC x) = x by apply/matrixP => i j; rewrite !mxE /= /horner_eval hornerC.
have e2 : map_mx (horner_eval w) (mxf n H) = mxf n (at_ w) by apply/matrixP => i j; rewrite !mxE.
by rewrite /qf !map_mxM -map_trmx e1 e2.
Qed.

Lemma pd_forth a b : a <= b -> (forall w, a <= w -> w <= b -> \det (mxf n (at_ w)) != 0) -> pd (mxf n (at_ a)) -> pd (mxf n (at_ b)).
Proof.
move=> ab dn pa.
pose q := \prod_(k < n.+1) \det (mxf k H).
have qa : q.[a] != 0.
  rewrite horner_prod; apply/prodf_neq0 => k _; rewrite det_at; apply: pd_det0; apply: pd_lead pa _; by rewrite -ltnS ltn_ord.
have q0 : q != 0 by apply: contra qa => /eqP ->; rewrite horner0.
have qk t k : (k <= n)%N -> ~~ root q t -> ~~ root (\det (mxf k H)) t.
  move=> kn; apply: contra; rewrite /root horner_prod => /eqP h; apply/prodf_eq0; exists (inord k) => //.
  by rewrite inordK ?ltnS // h.
have step r : a <= r -> r <= b -> (forall t, a < t -> t < r -> ~~ root q t) -> pd (mxf n (at_ r)).
  move=> ar rb nr.
  have nr' t : a <= t -> t < r -> ~~ root q t by rewrite le_eqVlt => /orP[/eqP <- _|]; [exact: qa | exact: nr].
  have pt t : a <= t -> t < r -> pd (mxf n (at_ t)).
    move=> at' tr; apply: sylvester => [i j|k kn]; first by rewrite sH.
    rewrite -det_at lt_def; rewrite -/(root _ _) (qk t k kn (nr' t at' tr)) /= leNgt; apply/negP => neg.
    have pos : 0 < (\det (mxf k H)).[a] by rewrite det_at; apply: pd_det; apply: pd_lead pa _.
    have [|y /andP[y1 y2] ry] := @poly_ivt R (- \det (mxf k H)) a t at'.
      by rewrite !hornerN oppr_le0 oppr_ge0 !ltW.
    by have := qk y k kn (nr' y y1 (le_lt_trans y2 tr)); rewrite -rootN ry.
  apply: psd_pd; [by apply: mxf_sym => i j; rewrite sH | exact: dn |] => x.
  have [->|x0] := eqVneq x 0; first by rewrite /qf mulmx0 mxE.
  have [p hp] := qf_at x; rewrite -hp leNgt; apply/negP => neg.
  have pos : 0 < p.[a] by rewrite hp; apply: pa.
  have [|y /andP[y1 y2] ry] := @poly_ivt R (- p) a r ar; first by rewrite !hornerN oppr_le0 oppr_ge0 !ltW.
  have y3 : y < r.
    by rewrite lt_neqAle y2 andbT; apply: contraTneq neg => <-; move: ry; rewrite rootN /root => /eqP ->; rewrite ltxx.
  by move: ry; rewrite rootN /root hp gt_eqF // pt.
have [eab|nab] := eqVneq a b; first by rewrite -eab.
have ltab : a < b by rewrite lt_neqAle nab.
have := @next_rootP R q a b; case=> [q00|y _ qy hy nr|c _ _ nr]; first by move: q0; rewrite q00 eqxx.
  move: hy; rewrite in_itv /= => /andP[y1 y2].
  have py : pd (mxf n (at_ y)) by apply: step; rewrite ?ltW // => t t1 t2; apply: nr; rewrite in_itv /= t1.
  move: qy; rewrite horner_prod => /eqP; rewrite prodf_seq_eq0 => /hasP[k _ /=].
  by rewrite det_at (negbTE (pd_det0 (pd_lead py _))) // -ltnS ltn_ord.
by apply: step => // t t1 t2; apply: nr; rewrite in_itv /= t1.
Qed.
End Family.

(* a polynomial family of symmetric matrices *)
Lemma pd_family n (H : nat -> nat -> {poly R}) w0 : (forall i j, H i j = H j i) ->
  (forall w, \det (mxf n (fun i j => (H i j).[w])) != 0) -> pd (mxf n (fun i j => (H i j).[w0])) ->
  forall w, pd (mxf n (fun i j => (H i j).[w])).
Proof.
move=> sH dn p0 w; have [h|h] := leP w0 w; first exact: pd_forth p0.
pose K i j := H i j \Po (- 'X).
have KE t : mxf n (fun i j => (K i j).[- t]) = mxf n (fun i j => (H i j).[t]).
  by apply/matrixP => i j; rewrite !mxE /K horner_comp hornerN hornerX opprK.
rewrite -KE; apply: (@pd_forth n K _ (- w0)); rewrite ?ler_opp2 ?ltW // ?KE //; first by move=> i j; rewrite /K sH.
by move=> t _ _; rewrite -[t]opprK KE.
Qed.
End Pd.
