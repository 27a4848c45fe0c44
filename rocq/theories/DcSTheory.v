(* State.dcgain: rational functions and minimal realizations. *)
From mathcomp Require Import all_ssreflect all_algebra zify.
From Coq Require Import String.
From Verif Require Import Base BaseTheory RingTac Spec ModelState Denote StateTheory ModelAux AuxTheory SpecSim SimTheory KalmanTheory FeedbackTheory SpecReach ReachTheory
  ModelMin SpecMin MinTheory ModelDc SpecDcS.

Set Implicit Arguments.
Unset Strict Implicit.
Unset Printing Implicit Defensive.

Import Order.TTheory GRing.Theory Num.Theory.
Local Open Scope ring_scope.

Section Ratl.
Variable R : realFieldType.


(* polynomials of a matrix, for every size *)
Definition pmx n (A : 'M[R]_n) (q : {poly R}) : 'M[R]_n := \sum_(i < size q) q`_i *: mpow A i.

Lemma pmxE n (A : 'M[R]_n.+1) q : pmx A q = horner_mx A q.
Proof. by rewrite /pmx horner_mxE; apply: eq_bigr => i _; rewrite mpowE. Qed.

Lemma pmxM n (A : 'M[R]_n) q q' : pmx A (q * q') = pmx A q *m pmx A q'.
Proof. by case: n A => [|n] A; [rewrite [LHS]flatmx0 [RHS]flatmx0 | rewrite !pmxE rmorphM]. Qed.
Lemma pmxD n (A : 'M[R]_n) q q' : pmx A (q + q') = pmx A q + pmx A q'.
Proof. by case: n A => [|n] A; [rewrite [LHS]flatmx0 [RHS]flatmx0 | rewrite !pmxE rmorphD]. Qed.
Lemma pmxC n (A : 'M[R]_n) c : pmx A c%:P = c%:M.
Proof. by case: n A => [|n] A; [rewrite [LHS]flatmx0 [RHS]flatmx0 | rewrite pmxE horner_mx_C]. Qed.
Lemma pmxX n (A : 'M[R]_n) s : pmx A ('X - s%:P) = A - s%:M.
Proof. by case: n A => [|n] A; [rewrite [LHS]flatmx0 [RHS]flatmx0 | rewrite pmxE rmorphB /= horner_mx_X horner_mx_C]. Qed.
Lemma pmx_char n (A : 'M[R]_n) : pmx A (char_poly A) = 0.
Proof. by case: n A => [|n] A; [rewrite [LHS]flatmx0 | rewrite pmxE Cayley_Hamilton]. Qed.

Lemma pmx_markov n r m p (A : 'M[R]_n) (B : 'M[R]_(n, m)) (C : 'M[R]_(p, n)) (A1 : 'M[R]_r) (B1 : 'M[R]_(r, m)) (C1 : 'M[R]_(p, r)) q :
  (forall j, C1 *m mpow A1 j *m B1 = C *m mpow A j *m B) -> C1 *m pmx A1 q *m B1 = C *m pmx A q *m B.
Proof.
move=> h; rewrite /pmx !mulmx_sumr !mulmx_suml; apply: eq_bigr => i _.
by rewrite -!scalemxAr -!scalemxAl h.
Qed.

(* equal Markov parameters give equal transfer matrices where both are defined *)
Lemma markov_tf n r m p (A : 'M[R]_n) (B : 'M[R]_(n, m)) (C : 'M[R]_(p, n)) (A1 : 'M[R]_r) (B1 : 'M[R]_(r, m)) (C1 : 'M[R]_(p, r)) s :
  (forall j, C1 *m mpow A1 j *m B1 = C *m mpow A j *m B) -> s%:M - A \in unitmx -> s%:M - A1 \in unitmx ->
  C1 *m invmx (s%:M - A1) *m B1 = C *m invmx (s%:M - A) *m B.
Proof.
move=> h u u1; pose x := char_poly A * char_poly A1.
have xs : x.[s] != 0.
  by move: u u1; rewrite !unitmxE !unitfE !det_char => a b; rewrite hornerM mulf_neq0.
have [g hg] : exists g, x - x.[s]%:P = g * ('X - s%:P).
  by apply/factor_theorem; rewrite /root hornerD hornerN hornerC subrr.
have iv k (M : 'M[R]_k) : pmx M x = 0 -> s%:M - M \in unitmx -> invmx (s%:M - M) = x.[s]^-1 *: pmx M g.
  move=> z uM; have := congr1 (pmx M) hg; rewrite pmxM pmxX pmxD z add0r -polyCN pmxC => e.
  have e' : (x.[s]^-1 *: pmx M g) *m (s%:M - M) = 1%:M.
    by rewrite -opprB mulmxN -scalemxAl -e raddfN /= scalerN opprK scale_scalar_mx mulVf.
  by rewrite -[LHS]mul1mx -e' -mulmxA mulmxV // mulmx1.
rewrite !iv ?pmxM ?pmx_char ?mul0mx ?mulmx0 //.
by rewrite -!scalemxAr -!scalemxAl (pmx_markov _ h).
Qed.

(* the numerator of c (sI - A)^-1 b + d over the characteristic polynomial *)
Definition tfnum n (A : 'M[R]_n) (b : 'cV[R]_n) (c : 'rV[R]_n) (d : R) : {poly R} :=
  d *: char_poly A + (char_poly (A - b *m c) - char_poly A).

Lemma tfnumP n (A : 'M[R]_n) b c d s : s%:M - A \in unitmx ->
  (tfnum A b c d).[s] / (char_poly A).[s] = d + (c *m invmx (s%:M - A) *m b) 0 0.
Proof.
move=> u; have xs : (char_poly A).[s] != 0 by move: u; rewrite unitmxE unitfE det_char.
have e : (char_poly (A - b *m c)).[s] = (char_poly A).[s] * (1 + (c *m invmx (s%:M - A) *m b) 0 0).
  rewrite -!det_char; have := det_schur_l (- b) c (1%:M : 'M[R]_1) u.
  rewrite det_schur_r ?unitmx1 // invmx1 mulmx1 det1 mulr1 mulNmx opprK => e.
  have -> : s%:M - (A - b *m c) = s%:M - A + b *m c by rewrite opprB addrA addrAC.
  by rewrite e; congr (_ * _); rewrite det_mx11 mulmxN opprK !mxE.
rewrite /tfnum !(hornerD, hornerN, hornerZ) e; move: xs; move: (char_poly A).[s] (_ 0 0) => y z y0; apply: (mulIf y0); rewrite mulfVK //.
by mc_ring R.
Qed.

(* the numerator does not vanish at a pole of a minimal realization *)
Lemma tfnum_pole n (A : 'M[R]_n) b c d s : controllable A b -> observable A c ->
  s%:M - A \notin unitmx -> (tfnum A b c d).[s] != 0.
Proof.
move=> hc ho nu.
have z : (char_poly A).[s] = 0 by apply/eqP; move: nu; rewrite unitmxE unitfE det_char negbK.
rewrite /tfnum !(hornerD, hornerN, hornerZ) z mulr0 subr0 add0r -det_char -unitfE -unitmxE.
have [w [w0 wM]] : exists w : 'rV[R]_n, w != 0 /\ w *m (s%:M - A) = 0.
  move: nu; rewrite -row_free_unit -kermx_eq0 => /rowV0Pn[w /sub_kermxP h w0]; by exists w.
have wA : w *m A = s *: w by move/eqP: wM; rewrite mulmxBr mul_mx_scalar subr_eq0 => /eqP.
have wb : (w *m b) 0 0 != 0.
  apply: contra w0 => /eqP h; apply/eqP/hc => j.
  have -> : w *m mpow A j = s ^+ j *: w.
    elim: j => [|j IH]; rewrite ?expr0 ?scale1r ?mulmx1 //.
    by rewrite mpowS mulmxA wA -scalemxAl IH scalerA -exprS.
  by rewrite -scalemxAl [w *m b]mx11_scalar h scale_scalar_mx mulr0 raddf0.
rewrite -unitmx_tr -row_free_unit -kermx_eq0; apply/eqP/row_matrixP => i; rewrite row0; set y := row i _.
have hy : y *m (s%:M - (A - b *m c))^T = 0 by rewrite -row_mul mulmx_ker row0.
have {}hy : (s%:M - A + b *m c) *m y^T = 0 by rewrite opprB addrCA addrC in hy; apply: trmx_inj; rewrite trmx_mul trmxK trmx0.
have cy : c *m y^T = 0.
  have : w *m (s%:M - A + b *m c) *m y^T = 0 by rewrite -mulmxA hy mulmx0.
  rewrite mulmxDr wM add0r mulmxA -mulmxA [w *m b]mx11_scalar mul_scalar_mx => /eqP.
  by rewrite scaler_eq0 (negbTE wb) => /eqP.
rewrite mulmxDl -mulmxA cy mulmx0 addr0 in hy.
have Ay : A *m y^T = s *: y^T by move/eqP: hy; rewrite mulmxBl mul_scalar_mx subr_eq0 => /eqP.
have : y^T = 0; last by move=> e; rewrite -[y]trmxK e trmx0.
apply: ho => j; rewrite -mulmxA; have -> : mpow A j *m y^T = s ^+ j *: y^T.
  by elim: j => [|j IH]; rewrite ?expr0 ?scale1r ?mul1mx // mpowS -mulmxA IH -scalemxAr Ay scalerA -exprSr.
by rewrite -scalemxAr cy scaler0.
Qed.

(* two ways to write a rational function *)
Lemma ratl_eq (a b c d z : {poly R}) : z != 0 -> b != 0 -> d != 0 ->
  (forall s, z.[s] != 0 -> b.[s] != 0 -> d.[s] != 0 -> a.[s] / b.[s] = c.[s] / d.[s]) -> a * d = c * b.
Proof.
move=> z0 b0 d0 h; apply/eqP; rewrite -subr_eq0; apply/negPn/negP => ne.
have [x] := nonroot_exists (mulf_neq0 (mulf_neq0 (mulf_neq0 z0 b0) d0) ne).
rewrite !rootM !negb_or -!andbA => /and4P[xz xb xd]; rewrite /root; apply/negP; rewrite negbK.
have /eqP := h x xz xb xd; rewrite eqr_div // => /eqP e.
by rewrite hornerD hornerN !hornerM e subrr.
Qed.

Lemma factor_out x0 (num den : {poly R}) : den != 0 -> exists k a b,
  [/\ num = ('X - x0%:P) ^+ k * a, den = ('X - x0%:P) ^+ k * b & (a.[x0] != 0) || (b.[x0] != 0)].
Proof.
have [N] := ubnP (size den); elim: N num den => // N IH num den; rewrite ltnS => le d0.
case: (boolP ((num.[x0] != 0) || (den.[x0] != 0))) => [h|]; first by exists 0%N, num, den; rewrite expr0 !mul1r.
rewrite negb_or !negbK => /andP[zn zd].
have /factor_theorem[a ea] : root num x0 by []. have /factor_theorem[b eb] : root den x0 by [].
have b0 : b != 0 by apply: contraNneq d0 => h; rewrite eb h mul0r.
have sz : (size b < N)%N by apply: leq_trans le; rewrite eb size_Mmonic ?monicXsubC // size_XsubC addn2.
have [k [a' [b' [e1 e2 h]]]] := IH a b sz b0; exists k.+1, a', b'.
by rewrite exprS -!mulrA -e1 -e2 ea eb; split=> //; rewrite mulrC.
Qed.

Lemma value_cross x0 (num den N D : {poly R}) : den != 0 -> num * D = N * den -> (N.[x0] != 0) || (D.[x0] != 0) ->
  value_at x0 num den (if D.[x0] != 0 then Fin (N.[x0] / D.[x0]) else Inf R true).
Proof.
move=> d0 e nz; have [k [a [b [ea eb h]]]] := factor_out x0 num d0; exists k, a, b; split=> //.
have {e} e : a * D = N * b.
  have x0k : ('X - x0%:P) ^+ k != 0 by rewrite expf_neq0 // polyXsubC_eq0.
  by apply: (mulfI x0k); rewrite mulrA -ea e eb mulrCA.
have {e} e : a.[x0] * D.[x0] = N.[x0] * b.[x0] by rewrite -!hornerM e.
case: (eqVneq D.[x0] 0) nz => [zD|nD] /=.
  rewrite orbF => nN; have zb : b.[x0] = 0.
    by apply/eqP; move/eqP: e; rewrite zD mulr0 eq_sym mulf_eq0 (negbTE nN).
  by rewrite zb eqxx.
move=> _; have nb : b.[x0] != 0.
  apply: contraTneq h => zb; rewrite zb eqxx orbF negbK.
  by move/eqP: e; rewrite zb mulr0 mulf_eq0 (negbTE nD) orbF.
by rewrite nb; congr Fin; apply/eqP; rewrite eqr_div // e.
Qed.
End Ratl.
