(* Facts about the two norms. *)
From mathcomp Require Import all_ssreflect all_algebra zify.
From Verif Require Import Base BaseTheory Spec ModelState SpecSim SpecNorm.

Set Implicit Arguments.
Unset Strict Implicit.
Unset Printing Implicit Defensive.

Import Order.Theory GRing.Theory Num.Theory.
Local Open Scope ring_scope.

Section Energy.
Variable R : realFieldType.

Lemma frob2E p m (M : 'M[R]_(p, m)) : frob2 M = \tr (M *m M^T).
Proof.
rewrite /frob2 /mxtrace; apply: eq_bigr => i _; rewrite mxE; apply: eq_bigr => j _.
by rewrite mxE expr2.
Qed.
Lemma frob2_ge0 p m (M : 'M[R]_(p, m)) : 0 <= frob2 M.
Proof. by apply: sumr_ge0 => i _; apply: sumr_ge0 => j _; apply: sqr_ge0. Qed.

(* the sum of the absolute values *)
Definition n1 p m (M : 'M[R]_(p, m)) : R := \sum_i \sum_j `|M i j|.
Lemma n1_ge0 p m (M : 'M[R]_(p, m)) : 0 <= n1 M.
Proof. by apply: sumr_ge0 => i _; apply: sumr_ge0 => j _; apply: normr_ge0. Qed.
Lemma n1_row p m (M : 'M[R]_(p, m)) i : \sum_j `|M i j| <= n1 M.
Proof.
rewrite /n1 (bigD1 i) //= ler_addl; apply: sumr_ge0 => k _; apply: sumr_ge0 => j _; exact: normr_ge0.
Qed.
Lemma n1_tr p m (M : 'M[R]_(p, m)) : n1 M^T = n1 M.
Proof. by rewrite /n1 exchange_big; apply: eq_bigr => i _; apply: eq_bigr => j _; rewrite mxE. Qed.
Lemma n1_mul p q m (M : 'M[R]_(p, q)) (N : 'M[R]_(q, m)) : n1 (M *m N) <= n1 M * n1 N.
Proof.
rewrite {1}/n1 {2}/n1 mulr_suml; apply: ler_sum => i _.
apply: (@le_trans _ _ (\sum_j \sum_k `|M i k| * `|N k j|)).
  apply: ler_sum => j _; rewrite mxE; apply: le_trans (ler_norm_sum _ _ _) _.
  by apply: ler_sum => k _; rewrite normrM.
rewrite exchange_big mulr_suml; apply: ler_sum => k _; rewrite -mulr_sumr.
by apply: ler_wpmul2l; [apply: normr_ge0 | apply: n1_row].
Qed.
Lemma n1_trace p (M : 'M[R]_p) : `|\tr M| <= n1 M.
Proof.
apply: le_trans (ler_norm_sum _ _ _) _; apply: ler_sum => i _.
rewrite (bigD1 i) //= ler_addl; apply: sumr_ge0 => k _; exact: normr_ge0.
Qed.

Lemma tendsN (u : nat -> R) l : tends u l -> forall c, tends (fun k => u k + c) (l + c).
Proof.
move=> h c e e0; have [N0 H] := h e e0; exists N0 => N hN.
by rewrite opprD addrACA subrr addr0 H.
Qed.

(* finitely many sequences at once *)
Lemma small_all n (P : 'I_n -> nat -> Prop) : (forall i, exists N0, forall N, (N0 <= N)%N -> P i N) ->
  exists N0, forall N, (N0 <= N)%N -> forall i, P i N.
Proof.
elim: n P => [|n IH] P h; first by exists 0%N => N _ [].
have [N1 H1] := IH (fun i => P (lift ord0 i)) (fun i => h (lift ord0 i)).
have [N2 H2] := h ord0; exists (maxn N1 N2) => N; rewrite geq_max => /andP[h1 h2] i.
case: (unliftP ord0 i) => [j ->|->]; [exact: H1 | exact: H2].
Qed.

Lemma n1_vanish n (A : 'M[R]_n) : powers_vanish A -> forall e, 0 < e ->
  exists N0, forall N, (N0 <= N)%N -> n1 (mpow A N) < e.
Proof.
move=> h e e0; pose d := e / (n * n + 1)%:R.
have n0 : 0 < (n * n + 1)%:R :> R by rewrite ltr0n addn1.
have d0 : 0 < d by rewrite divr_gt0.
have [N0 H] := @small_all n _ (fun i => @small_all n (fun j N => `|mpow A N i j - 0| < d) (fun j => h i j d d0)).
exists N0 => N hN; apply: (@le_lt_trans _ _ (\sum_(i < n) \sum_(j < n) d)).
  by apply: ler_sum => i _; apply: ler_sum => j _; apply: ltW; have := H N hN i j; rewrite subr0.
rewrite !sumr_const !card_ord -!mulrnA -mulr_natr.
by rewrite /d mulrAC ltr_pdivr_mulr // ltr_pmul2l // ltr_nat addn1.
Qed.

Section Gramian.
Variables (n m p : nat) (A : 'M[R]_n) (B : 'M[R]_(n, m)) (C : 'M[R]_(p, n)) (D : 'M[R]_(p, m)) (X : 'M[R]_n).
Hypothesis gram : A *m X *m A^T - X + B *m B^T = 0.

Lemma gramE k : mpow A k *m B *m (mpow A k *m B)^T =
  mpow A k *m X *m (mpow A k)^T - mpow A k.+1 *m X *m (mpow A k.+1)^T.
Proof.
have -> : mpow A k.+1 = mpow A k *m A.
  by rewrite /mpow /=; elim: k => [|k IH] /=; rewrite ?mulmx1 ?mul1mx // {1}IH mulmxA.
have e : B *m B^T = X - A *m X *m A^T by move/eqP: gram; rewrite addrC addr_eq0 opprB => /eqP.
rewrite !trmx_mul !mulmxA -(mulmxA _ B) e mulmxBr mulmxBl !mulmxA; congr (_ - _).
Qed.

Lemma energyE N : energy A B C D N.+1 =
  \tr (C *m X *m C^T) + frob2 D - \tr (C *m (mpow A N *m X *m (mpow A N)^T) *m C^T).
Proof.
rewrite /energy big_ord_recl /= [in RHS]addrAC addrC; congr (_ + _).
have E k : frob2 (C *m mpow A k *m B) = \tr (C *m (mpow A k *m X *m (mpow A k)^T) *m C^T) -
    \tr (C *m (mpow A k.+1 *m X *m (mpow A k.+1)^T) *m C^T).
  rewrite frob2E -linearB -mulmxBl -mulmxBr -gramE; congr (\tr _).
  by rewrite !trmx_mul !mulmxA.
elim: N => [|N IH]; first by rewrite big_ord0 /mpow /= trmx1 mulmx1 mul1mx subrr.
rewrite big_ord_recr /= IH -/(markov A B C D N.+1) /= E addrACA; move: (\tr _) (\tr _) (\tr _) => a b c.
by rewrite addrA addrK.
Qed.

Lemma energy_tends : powers_vanish A -> tends (energy A B C D) (\tr (C *m X *m C^T) + frob2 D).
Proof.
move=> hA e e0; pose K := n1 C * n1 X * n1 C + 1.
have K1 : 0 <= n1 C * n1 X * n1 C by rewrite !mulr_ge0 ?n1_ge0.
have K0 : 0 < K by rewrite /K ltr_paddl // ltr01.
pose d := Num.min 1 (e / K).
have d0 : 0 < d by rewrite lt_minr ltr01 divr_gt0.
have [N0 H] := n1_vanish hA d0; exists N0.+1 => -[//|N] hN; rewrite energyE.
rewrite [X in `|X|](_ : _ = - \tr (C *m (mpow A N *m X *m (mpow A N)^T) *m C^T)); last first.
  by move: (_ + frob2 D) => t; rewrite addrAC subrr add0r.
rewrite normrN; apply: le_lt_trans (n1_trace _) _.
have hs := H N hN; set P := mpow A N in hs *.
apply: (@le_lt_trans _ _ (n1 C * n1 X * n1 C * n1 P)).
  apply: le_trans (n1_mul _ _) _; rewrite n1_tr.
  apply: (@le_trans _ _ (n1 C * (n1 P * n1 X * n1 P) * n1 C)).
    apply: ler_wpmul2r; first exact: n1_ge0.
    apply: le_trans (n1_mul _ _) _; apply: ler_wpmul2l; first exact: n1_ge0.
    apply: le_trans (n1_mul _ _) _; rewrite n1_tr; apply: ler_wpmul2r; first exact: n1_ge0.
    exact: n1_mul.
  have p1 : n1 P <= 1 by apply: ltW; apply: lt_le_trans hs _; rewrite le_minl lexx.
  have -> : n1 C * (n1 P * n1 X * n1 P) * n1 C = n1 C * n1 X * n1 C * n1 P * n1 P.
    move: (n1 C) (n1 P) (n1 X) => a b c; rewrite -!mulrA; congr (a * _).
    by rewrite mulrCA; congr (_ * _); rewrite mulrCA mulrC -!mulrA mulrC -!mulrA.
  by rewrite ler_pimulr // mulr_ge0 ?n1_ge0.
apply: (@le_lt_trans _ _ (n1 C * n1 X * n1 C * d)); first by apply: ler_wpmul2l => //; apply: ltW.
apply: (@lt_le_trans _ _ (K * d)); first by rewrite ltr_pmul2r // ltr_addl ltr01.
apply: (@le_trans _ _ (K * (e / K))); first by rewrite ler_pmul2l // le_minl lexx orbT.
by rewrite mulrCA mulfV ?mulr1 // gt_eqF.
Qed.
End Gramian.
End Energy.
