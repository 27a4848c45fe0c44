(* From the transfer function of a state equation to its difference equation: polynomials act on signals by shifts. *)
From mathcomp Require Import all_ssreflect all_algebra zify.
From Verif Require Import Base BaseTheory Spec ModelPoly PolyTheory ModelState Denote SpecSim SimTheory SpecDiff.

Set Implicit Arguments.
Unset Strict Implicit.
Unset Printing Implicit Defensive.

Import GRing.Theory Num.Theory.
Local Open Scope ring_scope.

Section Act.
Variable R : fieldType.
Implicit Types (p q : {poly R}) (y u : nat -> R).

Definition act p y (t : nat) : R := \sum_(i < size p) p`_i * y (t + i)%N.

Lemma actW K p y t : (size p <= K)%N -> act p y t = \sum_(i < K) p`_i * y (t + i)%N.
Proof.
move=> h; rewrite /act (big_ord_widen K (fun i => p`_i * y (t + i)%N) h) [RHS](bigID (fun i : 'I_K => (i < size p)%N)) /=.
by rewrite [X in _ = _ + X]big1 ?addr0 // => i; rewrite -leqNgt => hi; rewrite nth_default // mul0r.
Qed.
Lemma eq_act p y y' t : (forall i, (i < size p)%N -> y (t + i)%N = y' (t + i)%N) -> act p y t = act p y' t.
Proof. by move=> h; apply: eq_bigr => i _; rewrite h. Qed.
Lemma actD p q y t : act (p + q) y t = act p y t + act q y t.
Proof.
pose K := maxn (size p) (size q).
rewrite (@actW K (p + q)) ?size_add // (@actW K p) ?leq_maxl // (@actW K q) ?leq_maxr // -big_split /=.
by apply: eq_bigr => i _; rewrite coefD mulrDl.
Qed.
Lemma act0 y t : act 0 y t = 0.
Proof. by rewrite /act size_poly0 big_ord0. Qed.
Lemma actC c y t : act c%:P y t = c * y t.
Proof. by rewrite (@actW 1) ?size_polyC ?leq_b1 // big_ord1 coefC eqxx addn0. Qed.
Lemma actMX p y t : act (p * 'X) y t = act p y t.+1.
Proof.
have [->|p0] := eqVneq p 0; first by rewrite mul0r !act0.
rewrite /act size_mulX // big_ord_recl coefMX eqxx mul0r add0r.
by apply: eq_bigr => i _; rewrite coefMX /= /bump /= add1n addSn addnS.
Qed.
Lemma actX y t : act 'X y t = y t.+1.
Proof. by rewrite -['X]mul1r actMX -[1]/(1%:P) actC mul1r. Qed.
Lemma actCM c p y t : act (c%:P * p) y t = c * act p y t.
Proof.
rewrite (@actW (size p)); last by rewrite mul_polyC size_scale_leq.
by rewrite /act mulr_sumr; apply: eq_bigr => i _; rewrite coefCM mulrA.
Qed.
Lemma actM p q y t : act (p * q) y t = act p (act q y) t.
Proof.
elim/poly_ind: p t => [|p c IH] t; first by rewrite mul0r !act0.
by rewrite mulrDl !actD -mulrA [_ * q]mulrC mulrA !actMX IH actCM actC.
Qed.
Lemma actN p y t : act (- p) y t = - act p y t.
Proof. by rewrite -mulN1r -polyCN actCM mulN1r. Qed.
Lemma actB p q y t : act (p - q) y t = act p y t - act q y t.
Proof. by rewrite actD actN. Qed.
Lemma act_sum (I : Type) (r : seq I) (P : pred I) (F : I -> {poly R}) y t :
  act (\sum_(i <- r | P i) F i) y t = \sum_(i <- r | P i) act (F i) y t.
Proof. by elim/big_rec2: _ => [|i a b _ <-]; rewrite ?act0 ?actD. Qed.
Lemma act_sumr (I : Type) (r : seq I) (P : pred I) (F : I -> nat -> R) p t :
  act p (fun t => \sum_(i <- r | P i) F i t) t = \sum_(i <- r | P i) act p (F i) t.
Proof. by rewrite /act exchange_big; apply: eq_bigr => i _; rewrite mulr_sumr. Qed.
Lemma actDr p y y' t : act p (fun t => y t + y' t) t = act p y t + act p y' t.
Proof. by rewrite /act -big_split; apply: eq_bigr => i _; rewrite mulrDr. Qed.
Lemma actZr c p y t : act p (fun t => c * y t) t = c * act p y t.
Proof. by rewrite /act mulr_sumr; apply: eq_bigr => i _; rewrite mulrCA. Qed.

(* a monic recursion with zero initial values *)
Lemma act_zero p e : p \is monic -> (forall t, (t < (size p).-1)%N -> e t = 0) -> (forall t, act p e t = 0) -> forall t, e t = 0.
Proof.
move=> mp h0 h t; elim/ltn_ind: t => t IH; case: (ltnP t (size p).-1) => [/h0 //|ht].
have := h (t - (size p).-1)%N; rewrite /act; have s0 : (0 < size p)%N by rewrite size_poly_gt0 monic_neq0.
move: ht IH; rewrite -(prednK s0) /= => ht IH; rewrite big_ord_recr /= big1 => [|i _].
  by rewrite add0r subnK // -[p`_ _]/(lead_coef p) (eqP mp) mul1r.
by rewrite IH ?mulr0 //; have := ltn_ord i; lia.
Qed.
End Act.

Section State.
Variables (R : fieldType) (n : nat) (A : 'M[R]_n) (b : 'cV[R]_n) (c : 'rV[R]_n) (d : R).
Variables (u : nat -> R) (x : nat -> 'cV[R]_n).
Hypothesis hx : forall t, x t.+1 = A *m x t + u t *: b.
Let M := char_poly_mx A.
Let y t := (c *m x t) 0 0 + d * u t.
(* the numerator *)
Definition statenum : {poly R} := (map_mx polyC c *m \adj M *m map_mx polyC b) 0 0 + d%:P * char_poly A.

Lemma act_M i t : \sum_k act (M i k) (fun t => x t k 0) t = b i 0 * u t.
Proof.
have e k : act (M i k) (fun t => x t k 0) t = (i == k)%:R * x t.+1 k 0 - A i k * x t k 0.
  rewrite /M !mxE actB actC; congr (_ - _); case: (i == k); first by rewrite mulr1n actX mul1r.
  by rewrite mulr0n act0 mul0r.
rewrite (eq_bigr _ (fun k _ => e k)) sumrB (bigD1 i) //= eqxx mul1r big1 ?addr0 => [|k /negbTE h]; last first.
  by rewrite eq_sym h mul0r.
by rewrite hx !mxE addrAC subrr add0r mulrC.
Qed.

Lemma act_x l t : act (char_poly A) (fun t => x t l 0) t = act (\sum_i \adj M l i * (b i 0)%:P) u t.
Proof.
have e : \adj M *m M = (char_poly A)%:M by rewrite mul_adj_mx.
transitivity (\sum_k act ((\adj M *m M) l k) (fun t => x t k 0) t).
  rewrite e (bigD1 l) //= mxE eqxx mulr1n big1 ?addr0 // => k /negbTE h.
  by rewrite mxE eq_sym h mulr0n act0.
rewrite act_sum; under eq_bigr => k _ do rewrite mxE act_sum.
rewrite exchange_big; apply: eq_bigr => i _; under eq_bigr => k _ do rewrite actM.
rewrite -act_sumr actM; apply: eq_act => j _; rewrite actC; exact: act_M.
Qed.

Lemma act_y t : act (char_poly A) y t = act statenum u t.
Proof.
rewrite /y /statenum actDr actD actZr actCM; congr (_ + _).
transitivity (\sum_l c 0 l * act (char_poly A) (fun t => x t l 0) t).
  rewrite (@eq_act _ _ _ (fun t => \sum_l c 0 l * x t l 0)) ?act_sumr => [|i _]; last by rewrite mxE.
  by apply: eq_bigr => l _; rewrite actZr.
under eq_bigr => l _ do rewrite act_x.
rewrite -mulmxA mxE act_sum; apply: eq_bigr => l _; rewrite [X in act (X * _) _ _]mxE actCM; congr (_ * _).
by rewrite [(_ *m _) l 0]mxE; congr (act _ _ _); apply: eq_bigr => i _; rewrite [map_mx _ _ _ _]mxE.
Qed.
End State.

(* the difference equation of num/den, from the identity of the transfer functions *)
Section Rest.
Variables (R : realFieldType) (n : nat) (A : 'M[R]_n) (b : 'cV[R]_n) (c : 'rV[R]_n) (d : R) (num den : seq R).
Hypothesis id : polyhi den * statenum A b c d = polyhi num * char_poly A.
Hypothesis pr : (size (polyhi num) <= size den)%N.
Variables (u : nat -> R) (x : nat -> 'cV[R]_n).
Hypothesis hx : forall t, x t.+1 = A *m x t + u t *: b.
Hypothesis x0 : x 0%N = 0.

Lemma act_past K S (p : {poly R}) (v : nat -> R) k : (size p <= S)%N -> (S <= K.+1)%N ->
  act p (fun t => if (t < K)%N then 0 else v (t - K)%N) (k + K - S.-1)%N = \sum_(i < S) p`_(S.-1 - i) * past v k i.
Proof.
move=> hS h; rewrite (@actW _ S) // (reindex_inj rev_ord_inj) /=; apply: eq_bigr => i _; have hi := ltn_ord i.
have -> : (S - i.+1 = S.-1 - i)%N by lia.
congr (_ * _); rewrite /past.
have -> : (k + K - S.-1 + (S.-1 - i) = k + K - i)%N by lia.
case: (leqP i k) => h1.
  have -> : (k + K - i < K)%N = false by lia.
  by congr v; lia.
by have -> : (k + K - i < K)%N by lia.
Qed.

Lemma solves_state N : solves num den u (fun t => (c *m x t) 0 0 + d * u t) N.
Proof.
move=> k _; pose y t := (c *m x t) 0 0 + d * u t; rewrite -/y.
pose K := (n + size den).+1.
pose v (w : nat -> R) t := if (t < K)%N then 0 else w (t - K)%N.
pose x' t := if (t < K)%N then 0 else x (t - K)%N.
have hx' t : x' t.+1 = A *m x' t + v u t *: b.
  rewrite /x' /v; case: (ltnP t K) => h; last first.
    have -> : (t.+1 < K)%N = false by lia.
    have -> : (t.+1 - K = (t - K).+1)%N by lia.
    exact: hx.
  rewrite mulmx0 scale0r addr0; case: ifP => // h2; have -> : (t.+1 - K = 0)%N by lia.
  exact: x0.
have vy t : v y t = (c *m x' t) 0 0 + d * v u t.
  by rewrite /v /x'; case: ifP => // _; rewrite mulmx0 mxE mulr0 addr0.
pose e t := act (polyhi den) (v y) t - act (polyhi num) (v u) t.
have szp (p : seq R) : (size (polyhi p) <= size p)%N by rewrite /polyhi (leq_trans (size_Poly _)) ?size_rev.
have e0 : forall t, e t = 0.
  apply: (@act_zero _ (char_poly A)) => [|t|t]; first exact: char_poly_monic.
    rewrite size_char_poly /= => ht; rewrite /e /act !big1 ?subr0 // => i _.
      by rewrite /v; have := pr; have := ltn_ord i; case: ifP => [|h] *; [rewrite mulr0 | lia].
    by rewrite /v; have := szp den; have := ltn_ord i; case: ifP => [|h] *; [rewrite mulr0 | lia].
  have -> : act (char_poly A) e t = act (char_poly A * polyhi den) (v y) t - act (char_poly A * polyhi num) (v u) t.
    rewrite !actM -mulN1r -actZr -actDr; apply: eq_act => i _; by rewrite /e mulN1r.
  rewrite [_ * polyhi num]mulrC -id mulrC !actM; apply/eqP; rewrite subr_eq0; apply/eqP.
  apply: eq_act => i _; rewrite -(act_y c d hx').
  by apply: eq_act => j _; rewrite vy.
have := e0 (k + K - (size den).-1)%N; move/eqP; rewrite subr_eq0 => /eqP.
have h1 := szp den; have h2 : (size den <= K.+1)%N by rewrite /K; lia.
rewrite (act_past y k h1 h2) (act_past u k pr h2) => <-; apply: eq_bigr => i _; congr (_ * _).
have hi : (i < size den)%N := ltn_ord i; have hi2 : ((size den).-1 - i < size den)%N by lia.
have ei : (size den - ((size den).-1 - i).+1 = i)%N by clear -hi; lia.
by rewrite coef_Poly (nth_rev 0 hi2) ei.
Qed.
End Rest.
