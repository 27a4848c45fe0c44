(* Lemmas on reachability and observability. *)
From mathcomp Require Import all_ssreflect all_algebra zify.
From Coq Require Import String.
From Verif Require Import Base BaseTheory SpecSim SimTheory ModelKalman KalmanTheory SpecReach.

Set Implicit Arguments.
Unset Strict Implicit.
Unset Printing Implicit Defensive.

Import Order.TTheory GRing.Theory Num.Theory.
Local Open Scope ring_scope.

Section Reach.
Variable R : realFieldType.

Lemma mpow_tr n (M : 'M[R]_n) k : mpow M^T k = (mpow M k)^T.
Proof.
case: n M => [|n] M; first by rewrite [LHS]flatmx0 [RHS]flatmx0.
by rewrite !mpowE; elim: k => [|k IH]; rewrite ?trmx1 // exprS IH exprSr [RHS]trmx_mul.
Qed.

Lemma iter_mpow n (A : 'M[R]_n) (x : 'cV_n) k : iter k (mulmx A) x = mpow A k *m x.
Proof. by elim: k => [|k IH]; rewrite ?mul1mx // iterS IH mpowS mulmxA. Qed.

Lemma from_restE n m (A : 'M[R]_n) (B : 'M[R]_(n, m)) u N :
  from_rest A B u N = \sum_(k < N) mpow A k *m B *m u (N.-1 - k)%N.
Proof.
elim: N => [|N IH] /=; first by rewrite big_ord0.
rewrite IH big_ord_recl /= subn0 mul1mx addrC mulmx_sumr; congr (_ + _); apply: eq_bigr => k _.
by rewrite -[bump 0 k]/(nat_of_ord k).+1 !mulmxA; congr (_ *m u _); move: k => [k h] /=; move: h; clear; lia.
Qed.

Definition reach_in n m (A : 'M[R]_n) (B : 'M[R]_(n, m)) N x : Prop := exists u, from_rest A B u N = x.

Lemma reach_in0 n m (A : 'M[R]_n) (B : 'M[R]_(n, m)) N : reach_in A B N 0.
Proof. by exists (fun _ => 0); rewrite from_restE big1 // => k _; rewrite mulmx0. Qed.
Lemma reach_inD n m (A : 'M[R]_n) (B : 'M[R]_(n, m)) N x y : reach_in A B N x -> reach_in A B N y -> reach_in A B N (x + y).
Proof.
by case=> u <- [v <-]; exists (fun k => u k + v k); rewrite !from_restE -big_split; apply: eq_bigr => k _; rewrite mulmxDr.
Qed.
Lemma reach_inZ n m (A : 'M[R]_n) (B : 'M[R]_(n, m)) N x c : reach_in A B N x -> reach_in A B N (c *: x).
Proof.
by case=> u <-; exists (fun k => c *: u k); rewrite !from_restE scaler_sumr; apply: eq_bigr => k _; rewrite -scalemxAr.
Qed.
Lemma reach_in_sum n m (A : 'M[R]_n) (B : 'M[R]_(n, m)) N (I : finType) (x : I -> 'cV[R]_n) :
  (forall i, reach_in A B N (x i)) -> reach_in A B N (\sum_i x i).
Proof. by move=> h; apply: (big_ind (reach_in A B N)) => //; [apply: reach_in0 | apply: reach_inD]. Qed.

Lemma cmx_reach n m (A : 'M[R]_n) (B : 'M[R]_(n, m)) Cc (w : 'cV[R]_(n * m)) : cmx A B Cc -> reach_in A B n (Cc *m w).
Proof.
move=> h; have -> : Cc *m w = \sum_j w j 0 *: col j Cc.
  by apply/matrixP=> i z; rewrite !mxE summxE; apply: eq_bigr => j _; rewrite !mxE mulrC (ord1 z).
apply: reach_in_sum => j; apply: reach_inZ.
have m0 : (0 < m)%N by case: m {h B w Cc} j => // - []; rewrite muln0.
have hk : (j %/ m < n)%N by rewrite ltn_divLR.
pose l := Ordinal (ltn_pmod j m0).
exists (fun i => if i == (n.-1 - j %/ m)%N then delta_mx l 0 else 0).
rewrite from_restE (bigD1 (Ordinal hk)) //= eqxx big1 ?addr0.
  rewrite -colE; apply/matrixP=> a b; rewrite !mxE (h (j %/ m)%N a l j) //; last by rewrite /= -divn_eq.
  by rewrite mxE.
move=> k /eqP ne; case: eqP => [e|_]; last by rewrite mulmx0.
case: ne; apply: ord_inj => /=; move: e (ltn_ord k) hk; clear; lia.
Qed.

Lemma cmx_span n m (A : 'M[R]_n) (B : 'M[R]_(n, m)) Cc u N : cmx A B Cc -> (0 < n)%N ->
  exists w, from_rest A B u N = Cc *m w.
Proof.
move=> h n0; have [X hX] := cmx_inv h.
have [E hE] : exists E, B = Cc *m E.
  have /submxP[D hD] : (B^T <= Cc^T)%MS.
    apply/row_subP => l; have := cmx_col l h n0; rewrite mul1mx => le.
    by have -> : row l B^T = (col l B)^T by apply/matrixP=> a b; rewrite !mxE.
  by exists D^T; rewrite -[LHS]trmxK hD trmx_mul trmxK.
elim: N => [|N [w IH]] /=; first by exists 0; rewrite mulmx0.
by exists (X *m w + E *m u N); rewrite IH mulmxA hX mulmxDr !mulmxA -hE.
Qed.

Lemma cmx_full n m (A : 'M[R]_n) (B : 'M[R]_(n, m)) Cc : cmx A B Cc -> \rank Cc = n -> forall x, reach_in A B n x.
Proof.
move=> h r x; have /row_freeP[X hX] : row_free Cc by rewrite /row_free r.
by have := cmx_reach (X *m x) h; rewrite mulmxA hX mul1mx.
Qed.

Lemma cmx_rank n m (A : 'M[R]_n) (B : 'M[R]_(n, m)) Cc : cmx A B Cc -> (0 < n)%N -> reachable A B -> \rank Cc = n.
Proof.
move=> h n0 re; apply/eqP; rewrite eqn_leq rank_leq_row /= -mxrank_tr col_leq_rank -sub1mx.
apply/row_subP => i; have [N [u e]] := re (delta_mx i 0 : 'cV_n); have [w hw] := cmx_span u N h n0.
apply/submxP; exists w^T; rewrite -trmx_mul -hw e.
by apply/matrixP=> a b; rewrite !mxE (ord1 a) eqxx andbT eq_sym.
Qed.

Lemma cmx_all n m (A : 'M[R]_n) (B : 'M[R]_(n, m)) Cc k : cmx A B Cc -> (0 < n)%N ->
  exists X, mpow A k *m B = Cc *m X.
Proof.
move=> h n0; have [X hX] := cmx_inv h; elim: k => [|k [E IH]].
  have /submxP[D hD] : (B^T <= Cc^T)%MS.
    apply/row_subP => l; have := cmx_col l h n0; rewrite mul1mx => le.
    by have -> : row l B^T = (col l B)^T by apply/matrixP=> a b; rewrite !mxE.
  by exists D^T; rewrite mul1mx -[LHS]trmxK hD trmx_mul trmxK.
by exists (X *m E); rewrite mpowS -mulmxA IH !mulmxA hX.
Qed.

(* observability is reachability of the transposed pair *)
Lemma dual_obs n p (A : 'M[R]_n) (C : 'M[R]_(p, n)) Cc : cmx A^T C^T Cc -> (0 < n)%N ->
  (\rank Cc = n <-> distinguishable A C).
Proof.
move=> h n0; split=> [r x y e|ob].
  have : forall k, C *m mpow A k *m (x - y) = 0.
    by move=> k; have := e k; rewrite /free_output !iter_mpow !mulmxA mulmxBr => ->; rewrite subrr.
  move=> hz; apply/eqP; rewrite -subr_eq0; apply/eqP; move: (x - y) hz => z hz.
    have : Cc^T *m z = 0.
      apply/matrixP=> j o; rewrite !mxE.
      have m0 : (0 < p)%N by case: p {h C e hz Cc r} j => // - []; rewrite muln0.
      have hk : (j %/ p < n)%N by rewrite ltn_divLR.
      pose l := Ordinal (ltn_pmod j m0).
      have /matrixP/(_ l o) := hz (j %/ p)%N; rewrite mxE [RHS]mxE => hh; rewrite -[RHS]hh; apply: eq_bigr => i _; congr (_ * _).
      by rewrite mxE (h (j %/ p)%N i l j) //= -?divn_eq // mpow_tr -trmx_mul mxE.
    have /row_freeP[X hX] : row_free Cc by rewrite /row_free r.
    by move/(congr1 (mulmx X^T)); rewrite mulmxA -trmx_mul hX trmx1 mul1mx mulmx0.
apply/eqP; have -> : (\rank Cc == n) = row_free Cc by []. 
rewrite -kermx_eq0; apply/eqP/row_matrixP => i; rewrite row0; set w := row i _.
have w0 : w *m Cc = 0 by rewrite -row_mul mulmx_ker row0.
have e : w^T = 0; last by rewrite -[LHS]trmxK e trmx0.
apply: ob => k; rewrite /free_output !iter_mpow mulmx0 mulmx0.
have [X hX] := cmx_all k h n0; rewrite mulmxA; apply: trmx_inj.
by rewrite trmx_mul trmxK trmx_mul -mpow_tr hX mulmxA w0 mul0mx trmx0.
Qed.

(* the Popov-Belevitch-Hautus direction that holds over every field *)
Lemma reach_hidden n m (A : 'M[R]_n) (B : 'M[R]_(n, m)) z : reachable A B -> hidden_mode A B z -> False.
Proof.
move=> re [w [w0 wA wB]]; move/negP: w0; apply; apply/eqP/matrixP=> a i; rewrite (ord1 a) !mxE.
have [N [u e]] := re (delta_mx i 0 : 'cV_n).
have : w *m from_rest A B u N = 0.
  elim: (N) => [|k IH] /=; first by rewrite mulmx0.
  by rewrite mulmxDr !mulmxA wB mul0mx addr0 wA -scalemxAl IH scaler0.
by rewrite e -colE => /matrixP/(_ 0 0); rewrite !mxE.
Qed.


(* if no nonzero row vector w has w A^k B = 0 for all k, every state is reached *)
Lemma ctrb_reach n m (A : 'M[R]_n) (B : 'M[R]_(n, m)) :
  (forall w : 'rV[R]_n, (forall k, w *m mpow A k *m B = 0) -> w = 0) -> reachable A B.
Proof.
case: n A B => [|n] A B h; first by move=> x; exists 0%N, (fun=> 0); rewrite /= [RHS]flatmx0.
case: m B h => [|m] B h.
  have /matrixP/(_ 0 0) : (const_mx 1 : 'rV[R]_n.+1) = 0 by apply: h => k; rewrite [LHS]thinmx0.
  by rewrite !mxE => /eqP; rewrite oner_eq0.
pose Cc : 'M[R]_(n.+1, n.+1 * m.+1) := \matrix_(i, j) (mpow A (j %/ m.+1) *m B) i (Ordinal (ltn_pmod j (ltn0Sn m))).
have hC : cmx A B Cc.
  move=> k i l j hk ej; rewrite mxE ej divnMDl // divn_small ?addn0 //; congr (_ i _); apply: val_inj => /=.
  by rewrite modnMDl modn_small.
have r : \rank Cc = n.+1.
  apply/eqP; have -> : (\rank Cc == n.+1) = row_free Cc by [].
  rewrite -kermx_eq0; apply/eqP/row_matrixP => i; rewrite row0; set w := row i _.
  have w0 : w *m Cc = 0 by rewrite -row_mul mulmx_ker row0.
  by apply: h => k; have [X hX] := cmx_all k hC (ltn0Sn n); rewrite -mulmxA hX mulmxA w0 mul0mx.
by move=> x; have [u hu] := cmx_full hC r x; exists n.+1, u.
Qed.

End Reach.
