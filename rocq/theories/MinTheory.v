(* minimal_realization: removal of the uncontrollable and unobservable states. *)
From mathcomp Require Import all_ssreflect all_algebra zify.
From Coq Require Import String.
From Verif Require Import Base BaseTheory Spec ModelState Denote StateTheory ModelAux AuxTheory SpecSim KalmanTheory ModelFreq FreqTheory ModelLyap LyapTheory TransferTheory SpecReach ReachTheory
  ModelMin SpecMin StairTheory PropsStair.

Set Implicit Arguments.
Unset Strict Implicit.
Unset Printing Implicit Defensive.

Import Order.TTheory GRing.Theory Num.Theory.
Local Open Scope ring_scope.

Section Min.
Variable R : realFieldType.
Implicit Types A B C : arr R.

(* the first r states of a system in staircase form with k <= r *)
Lemma lead_markov n m p k r (A : 'M[R]_n) (B : 'M[R]_(n, m)) (C : 'M[R]_(p, n)) (Ar : 'M[R]_r) (Br : 'M[R]_(r, m)) (Cr : 'M[R]_(p, r)) :
  stairs_ctrb k A B -> (k <= r <= n)%N ->
  (forall (i j : 'I_n) (a b : 'I_r), i = a :> nat -> j = b :> nat -> Ar a b = A i j) ->
  (forall (i : 'I_n) j (a : 'I_r), i = a :> nat -> Br a j = B i j) ->
  (forall i (j : 'I_n) (b : 'I_r), j = b :> nat -> Cr i b = C i j) ->
  stairs_ctrb k Ar Br /\ forall j, Cr *m mpow Ar j *m Br = C *m mpow A j *m B.
Proof.
move=> [A1 [B1 [kn hA hB [eA eB] hc]]] /andP[kr rn] hAr hBr hCr.
have [q nE] : exists q, n = (r + q)%N by exists (n - r)%N; rewrite subnKC.
subst n; split.
  exists A1, B1; split=> //.
  - by move=> i j hi hj; rewrite (hAr (lshift q i) (lshift q j)) // hA.
  - by move=> i j hi; rewrite (hBr (lshift q i)) // hB.
  split=> [i j a b e1 e2|i j a e].
    by rewrite (hAr (lshift q i) (lshift q j)) //; apply: eA.
  by rewrite (hBr (lshift q i)) //; apply: eB.
have eAr : Ar = ulsubmx A by apply/matrixP => a b; rewrite !mxE; apply: hAr.
have eBr : Br = usubmx B by apply/matrixP => a b; rewrite !mxE; apply: hBr.
have eCr : Cr = lsubmx C by apply/matrixP => a b; rewrite !mxE; apply: hCr.
have pw l : mpow A l *m B = col_mx (mpow Ar l *m Br) 0 /\ forall (a : 'I_r) j, (k <= a)%N -> (mpow Ar l *m Br) a j = 0.
  elim: l => [|l [IH1 IH2]] /=.
    rewrite !mul1mx eBr; split.
      rewrite -[LHS]vsubmxK; congr col_mx; apply/matrixP => i j; rewrite !mxE hB //=; apply: leq_trans kr (leq_addr _ _).
    by move=> a j h; rewrite mxE hB.
  split.
    rewrite -mulmxA IH1 -[X in X *m _]submxK mul_block_col !mulmx0 !addr0 -eAr mulmxA; congr col_mx.
    apply/matrixP => i j; rewrite mxE [RHS]mxE big1 // => a _; have [h|h] := ltnP a k; last by rewrite IH2 ?mulr0.
    by rewrite !mxE hA ?mul0r //=; apply: leq_trans kr (leq_addr _ _).
  move=> a j h; rewrite -mulmxA mxE big1 // => b _; have [h'|h'] := ltnP b k; last by rewrite IH2 ?mulr0.
  by rewrite eAr !mxE hA ?mul0r.
move=> l; rewrite -!mulmxA; have [-> _] := pw l.
by rewrite -[X in _ = X *m _]hsubmxK mul_row_col mulmx0 addr0 -eCr.
Qed.

Lemma row_drop p q (W : 'M[R]_(p, q)) (A : 'M[R]_(1 + q)) :
  (row_mx 0 W : 'M_(p, 1 + q)) *m A = row_mx (W *m dlsubmx A) (W *m drsubmx A).
Proof. by rewrite -{1}[A]submxK mul_row_block !mul0mx !add0r. Qed.
Lemma row_drop' p q m (W : 'M[R]_(p, q)) (B : 'M[R]_(1 + q, m)) :
  (row_mx 0 W : 'M_(p, 1 + q)) *m B = W *m dsubmx B.
Proof. by rewrite -{1}[B]vsubmxK mul_row_col mul0mx add0r. Qed.

(* dropping the first state, which is unobservable *)
Lemma drop_markov q m p k (A : 'M[R]_q.+1) (B : 'M[R]_(q.+1, m)) (C : 'M[R]_(p, q.+1)) (Ar : 'M[R]_q) (Br : 'M[R]_(q, m)) (Cr : 'M[R]_(p, q)) :
  stairs_obsv_inv k A C -> (k <= q)%N ->
  (forall a b : 'I_q, Ar a b = A (fintype.lift ord0 a) (fintype.lift ord0 b)) ->
  (forall a j, Br a j = B (fintype.lift ord0 a) j) ->
  (forall i b, Cr i b = C i (fintype.lift ord0 b)) ->
  stairs_obsv_inv k Ar Cr /\ forall j, Cr *m mpow Ar j *m Br = C *m mpow A j *m B.
Proof.
move=> [A1 [B1 [kn hA hB [eA eB] hc]]] kq hAr hBr hCr.
have hA' (i j : 'I_q.+1) : (q.+1 - k <= i)%N -> (j < q.+1 - k)%N -> A i j = 0 by move=> h1 h2; have := hA j i h2 h1; rewrite mxE.
have hC' i (j : 'I_q.+1) : (j < q.+1 - k)%N -> C i j = 0 by move=> h; have := hB j i h; rewrite mxE.
split.
  exists A1, B1; split=> //.
  - move=> i j h1 h2; rewrite mxE hAr hA' // ?lift0; move: h1 h2 kq; clear; lia.
  - move=> i j h; rewrite mxE hCr hC' // ?lift0; move: h kq; clear; lia.
  split=> [i j a b e1 e2|i j a e].
    by rewrite mxE hAr (eA (fintype.lift ord0 i) (fintype.lift ord0 j)) ?mxE // ?lift0; move: e1 e2 kq; clear; lia.
  by rewrite mxE hCr (eB (fintype.lift ord0 i)) ?mxE // ?lift0; move: e kq; clear; lia.
have eAr : Ar = @drsubmx _ 1 q 1 q A by apply/matrixP => a b; rewrite !mxE hAr; congr (A _ _); apply: val_inj.
have eBr : Br = @dsubmx _ 1 q m B by apply/matrixP => a b; rewrite !mxE hBr; congr (B _ _); apply: val_inj.
have eCr : Cr = @rsubmx _ p 1 q C by apply/matrixP => a b; rewrite !mxE hCr; congr (C _ _); apply: val_inj.
have mpS l (M : 'M[R]_q.+1) : mpow M l.+1 = mpow M l *m M.
  by elim: l => [|l IH]; rewrite ?[mpow M _]/= ?mulmx1 ?mul1mx // [LHS]/= -[M *m mpow M l]/(mpow M l.+1) {1}IH mulmxA.
have mpS' l (M : 'M[R]_q) : mpow M l.+1 = mpow M l *m M.
  by elim: l => [|l IH]; rewrite ?[mpow M _]/= ?mulmx1 ?mul1mx // [LHS]/= -[M *m mpow M l]/(mpow M l.+1) {1}IH mulmxA.
have pw l : C *m mpow A l = @row_mx _ p 1 q 0 (Cr *m mpow Ar l) /\ forall i (a : 'I_q), (a < q - k)%N -> (Cr *m mpow Ar l) i a = 0.
  elim: l => [|l [IH1 IH2]].
    rewrite /= !mulmx1; split.
      rewrite (_ : 0 = @lsubmx _ p 1 q C); first by rewrite eCr hsubmxK.
      by apply/matrixP => i j; rewrite !mxE hC' //=; have := ltn_ord j; move: kq; clear; lia.
    by move=> i a h; rewrite hCr hC' // ?lift0; move: h kq; clear; lia.
  rewrite mpS mpS' !mulmxA IH1; split.
    rewrite row_drop -eAr; set W1 := _ *m dlsubmx _; suff -> : W1 = 0 by [].
    rewrite /W1; apply/matrixP => i j; rewrite mxE [RHS]mxE big1 // => a _; have [h|h] := ltnP a (q - k); first by rewrite IH2 ?mul0r.
    rewrite !mxE hA' ?mulr0 //=; have := ltn_ord j; move: kq h; clear; lia.
  move=> i b hb; rewrite mxE big1 // => a _; have [h|h] := ltnP a (q - k); first by rewrite IH2 ?mul0r.
  by rewrite hAr hA' ?mulr0 // ?lift0; move: kq h hb; clear; lia.
by move=> l; have [-> _] := pw l; rewrite row_drop' -eBr.
Qed.

(* the last k states are a controllable pair *)
Definition tail_ctrb n m k (A : 'M[R]_n) (B : 'M[R]_(n, m)) : Prop :=
  exists (A2 : 'M_k) (B2 : 'M_(k, m)),
    [/\ (forall (i j : 'I_n) (a b : 'I_k), i = (n - k + a)%N :> nat -> j = (n - k + b)%N :> nat -> A2 a b = A i j),
      (forall (i : 'I_n) j (a : 'I_k), i = (n - k + a)%N :> nat -> B2 a j = B i j) & controllable A2 B2].

Lemma tail_drop q m k (A : 'M[R]_q.+1) (B : 'M[R]_(q.+1, m)) (Ar : 'M[R]_q) (Br : 'M[R]_(q, m)) : (k <= q)%N ->
  (forall a b : 'I_q, Ar a b = A (fintype.lift ord0 a) (fintype.lift ord0 b)) ->
  (forall a j, Br a j = B (fintype.lift ord0 a) j) ->
  tail_ctrb k A B -> tail_ctrb k Ar Br.
Proof.
move=> kq hA hB [A2 [B2 [eA eB hc]]]; exists A2, B2; split=> // [i j a b e1 e2|i j a e].
  by rewrite hA; apply: eA; rewrite lift0; move: e1 e2 kq; clear; lia.
by rewrite hB; apply: eB; rewrite lift0; move: e kq; clear; lia.
Qed.

Lemma tail_full n m (A : 'M[R]_n) (B : 'M[R]_(n, m)) : tail_ctrb n A B -> controllable A B.
Proof.
case=> A2 [B2 [eA eB hc]]; have <- : A2 = A by apply/matrixP => i j; apply: eA; rewrite subnn add0n.
by have <- : B2 = B by apply/matrixP => i j; apply: eB; rewrite subnn add0n.
Qed.

Lemma tail_of n m p k (A : 'M[R]_n) (B : 'M[R]_(n, m)) (C : 'M[R]_(p, n)) : controllable A B -> stairs_obsv_inv k A C -> tail_ctrb k A B.
Proof.
move=> hc [A1 [B1 [kn hA _ [eA _] _]]].
have hA' (i j : 'I_n) : (n - k <= i)%N -> (j < n - k)%N -> A i j = 0 by move=> h1 h2; have := hA j i h2 h1; rewrite mxE.
have [q nE] : exists q, n = (q + k)%N by exists (n - k)%N; rewrite subnK.
subst n; exists (drsubmx A), (dsubmx B); rewrite !addnK in hA' *; split.
- by move=> i j a b e1 e2; rewrite !mxE; congr (A _ _); apply: val_inj.
- by move=> i j a e; rewrite !mxE; congr (B _ _); apply: val_inj.
have eA' : A = block_mx (ulsubmx A) (ursubmx A) 0 (drsubmx A).
  by rewrite -[LHS]submxK; congr block_mx; apply/matrixP => i j; rewrite !mxE hA' //= leq_addr.
have mpS l n' (M : 'M[R]_n') : mpow M l.+1 = mpow M l *m M.
  by elim: l => [|l IH]; rewrite ?[mpow M _]/= ?mulmx1 ?mul1mx // [LHS]/= -[M *m mpow M l]/(mpow M l.+1) {1}IH mulmxA.
move=> x hx; have pw l : row_mx 0 x *m mpow A l = row_mx 0 (x *m mpow (drsubmx A) l).
  elim: l => [|l IH]; first by rewrite /= !mulmx1.
  by rewrite !mpS !mulmxA IH [X in _ *m X = _]eA' mul_row_block !mul0mx !add0r mulmx0.
have e0 : row_mx 0 x = 0 :> 'rV_(q + k).
  by apply: hc => l; rewrite pw -[B]vsubmxK mul_row_col mul0mx add0r hx.
by have := congr1 rsubmx e0; rewrite row_mxKr => ->; apply/matrixP => i j; rewrite !mxE.
Qed.

(* ------------------------------------------------------------------ the two loops *)
Variable cdist : arr R -> arr R -> R.

Definition sys n m p (A B C : arr R) := [/\ shp A = (n, n), shp B = (n, m) & shp C = (p, n)].
Definition markov3 n m p (A B C : arr R) j := amx p n C *m mpow (amx n n A) j *m amx n m B.
Definition wf3 (A B C : arr R) := [/\ wfa A, wfa B & wfa C].

Lemma get_asubm A r0 r1 c0 c1 i j : (i < r1 - r0)%N -> (j < c1 - c0)%N -> get (asubm A r0 r1 c0 c1) i j = get A (r0 + i) (c0 + j).
Proof. by move=> hi hj; rewrite get_subm. Qed.

Local Notation cdist_ok := (cdist_ok cdist).
Lemma trim_cP tol m p k r A B C : cdist_ok tol -> sys r m p A B C -> stairs_ctrb k (amx r r A) (amx r m B) -> (0 < k < r)%N ->
  exists A1 B1 C1, [/\ trim_c cdist tol r A B C = Ok (A1, B1, C1), sys k m p A1 B1 C1 /\ wf3 A1 B1 C1,
    controllable (amx k k A1) (amx k m B1), forall j, markov3 k m p A1 B1 C1 j = markov3 r m p A B C j &
    [/\ forall a b, (a < k)%N -> (b < k)%N -> get A1 a b = get A a b, forall i b, (i < p)%N -> (b < k)%N -> get C1 i b = get C i b &
      forall a j, (a < k)%N -> (j < m)%N -> get B1 a j = get B a j]].
Proof.
move=> cd; elim: r A B C => [|r IH] A B C; first by rewrite ltn0 andbF.
case=> -[rA cA] [rB cB] [rC cC] st /andP[k0 kr]; rewrite ltnS in kr.
rewrite [trim_c _ _ _ _ _ _]/= -/trim_c cB rC; set A1 := asubm A _ _ _ _; set B1 := asubm B _ _ _ _; set C1 := asubm C _ _ _ _.
have s1 : sys r m p A1 B1 C1 by split; rewrite /shp /= ?subn0.
have w1 : wf3 A1 B1 C1 by split; apply: wfa_mk.
have r0 : (0 < r)%N by apply: leq_trans kr.
have [||||st1 mk1] := @lead_markov _ m p k r _ _ (amx p r.+1 C) (amx r r A1) (amx r m B1) (amx p r C1) st.
- by rewrite kr leqnSn.
- by move=> i j a b e1 e2; rewrite !mxE get_asubm ?subn0 // !add0n e1 e2.
- by move=> i j a e; rewrite !mxE get_asubm ?subn0 // !add0n e.
- by move=> i j b e; rewrite !mxE get_asubm ?subn0 // !add0n e.
have [c1 c2] := cd r m A1 B1 (let: And3 h _ _ := s1 in h) (let: And3 _ h _ := s1 in h) r0.
rewrite (gtn_eqF r0) /cancellation_distance /= !subn0 !eqxx /= (gtn_eqF r0); cbn [negb bind].
case: ifP => h.
  have kr' : (0 < k < r)%N.
    rewrite k0 ltn_neqAle kr andbT; apply/eqP => e; apply: c1 h _; apply/(stairs_full st1).1.
    by [].
  have [A2 [B2 [C2 [e s2 h2 m2 [g1 g2 g3]]]]] := IH _ _ _ s1 st1 kr'.
  exists A2, B2, C2; split=> //; first by move=> j; rewrite m2 /markov3 mk1.
  split=> [a b ha hb|i b hi hb|a j ha hj].
  - by rewrite g1 // get_asubm ?subn0 ?add0n // (leq_trans _ kr).
  - by rewrite g2 // get_asubm ?subn0 ?add0n // (leq_trans _ kr).
  by rewrite g3 // get_asubm ?subn0 ?add0n // (leq_trans _ kr).
have hc : controllable (amx r r A1) (amx r m B1) by apply: c2; rewrite ltNge h.
have e : k = r by apply/(stairs_full st1).2.
exists A1, B1, C1; rewrite -e in s1 hc mk1 *; split=> //.
by split=> [a b ha hb|i b hi hb|a j ha hj]; rewrite get_asubm ?subn0 ?add0n // -?e.
Qed.

Lemma trim_oP tol m p k r A B C : cdist_ok tol -> sys r m p A B C -> stairs_obsv_inv k (amx r r A) (amx p r C) ->
  tail_ctrb k (amx r r A) (amx r m B) -> (k < r)%N ->
  exists A1 B1 C1 r1, [/\ trim_o cdist tol r A B C = Ok (A1, B1, C1), sys r1 m p A1 B1 C1 /\ wf3 A1 B1 C1,
    (k <= r1 < r)%N /\ stairs_obsv_inv k (amx r1 r1 A1) (amx p r1 C1),
    controllable (amx r1 r1 A1) (amx r1 m B1) & forall j, markov3 r1 m p A1 B1 C1 j = markov3 r m p A B C j].
Proof.
move=> cd; elim: r A B C => [|r IH] A B C; first by rewrite ltn0.
case=> -[rA cA] [rB cB] [rC cC] st tc kr; rewrite ltnS in kr.
rewrite [trim_o _ _ _ _ _ _]/= -/trim_o cB rC; set A1 := asubm A _ _ _ _; set B1 := asubm B _ _ _ _; set C1 := asubm C _ _ _ _.
have s1 : sys r m p A1 B1 C1 by split; rewrite /shp /= ?subn0 ?subn1.
have w1 : wf3 A1 B1 C1 by split; apply: wfa_mk.
have hA1 (a b : 'I_r) : amx r r A1 a b = amx r.+1 r.+1 A (fintype.lift ord0 a) (fintype.lift ord0 b).
  by rewrite !mxE get_asubm ?subn1 // !lift0 !add1n.
have hB1 (a : 'I_r) j : amx r m B1 a j = amx r.+1 m B (fintype.lift ord0 a) j.
  by rewrite !mxE get_asubm ?subn1 ?subn0 // lift0 add1n add0n.
have hC1 i (b : 'I_r) : amx p r C1 i b = amx p r.+1 C i (fintype.lift ord0 b).
  by rewrite !mxE get_asubm ?subn1 ?subn0 // lift0 add1n add0n.
have [st1 mk1] := drop_markov st kr hA1 hB1 hC1.
have tc1 := tail_drop kr hA1 hB1 tc.
case: eqP => r0.
  exists A1, B1, C1, r; split=> //; first by rewrite kr ltnSn.
  by move=> x _; apply/matrixP => i [j hj]; exfalso; move: hj; rewrite r0.
have rp : (0 < r)%N by rewrite lt0n; apply/eqP.
have [c1 c2] := cd r m A1 B1 (let: And3 h _ _ := s1 in h) (let: And3 _ h _ := s1 in h) rp.
rewrite /cancellation_distance /= !subn1 !eqxx /= (gtn_eqF rp); cbn [negb bind].
case: ifP => h; last first.
  by exists A1, B1, C1, r; split=> //; [rewrite kr ltnSn | apply: c2; rewrite ltNge h].
have kr' : (k < r)%N.
  by rewrite ltn_neqAle kr andbT; apply/eqP => e; apply: (c1 h); apply: tail_full; move: tc1; rewrite e.
have [A2 [B2 [C2 [r1 [e s2 [/andP[b1 b2] b3] h2 m2]]]]] := IH _ _ _ s1 st1 tc1 kr'.
exists A2, B2, C2, r1; split=> //; first by split=> //; rewrite b1 ltnW.
by move=> j; rewrite m2 /markov3 mk1.
Qed.

Lemma rank_obs n p (A : 'M[R]_n) (C : 'M[R]_(p, n)) : \rank C = n -> controllable A^T C^T.
Proof.
move=> rk x hx; have := hx 0%N; rewrite /= mulmx1 => /eqP; rewrite mulmx_free_eq0 => [/eqP //|].
by rewrite /row_free mxrank_tr rk.
Qed.

Lemma amxT3 n m (A : arr R) : shp A = (n, m) -> amx m n (aT A) = (amx n m A)^T. Proof. exact: amx_T. Qed.

Lemma orth_ctrb n m p (A B C Ah Bh Ch T : arr R) : orth_similar n m p A B C Ah Bh Ch T ->
  controllable (amx n n A) (amx n m B) <-> controllable (amx n n Ah) (amx n m Bh).
Proof.
case=> _ oT eA eB _.
have [sim1 sim2] : (amx n n T)^T *m amx n n A = amx n n Ah *m (amx n n T)^T /\ (amx n n T)^T *m amx n m B = amx n m Bh.
  split; last by rewrite eB mulmxA oT mul1mx.
  by rewrite -[LHS]mulmx1 -(mulmx1C oT) mulmxA -(mulmxA _ (amx n n A)) eA !mulmxA oT mul1mx.
split=> h; last by apply: (@controllable_sim _ _ _ (amx n n T) _ _ _ _ (amx n n T)^T oT _ _ h); rewrite -?eA // eB.
by apply: (@controllable_sim _ _ _ (amx n n T)^T _ _ _ _ (amx n n T) (mulmx1C oT) sim1 sim2).
Qed.

Lemma orth_obs n m p (A B C Ah Bh Ch T : arr R) : orth_similar n m p A B C Ah Bh Ch T ->
  controllable (amx n n A)^T (amx p n C)^T <-> controllable (amx n n Ah)^T (amx p n Ch)^T.
Proof.
case=> _ oT eA _ eC.
have s1 : (amx n n T)^T *m (amx n n A)^T = (amx n n Ah)^T *m (amx n n T)^T by rewrite -!trmx_mul eA.
have s2 : (amx n n T)^T *m (amx p n C)^T = (amx p n Ch)^T by rewrite -!trmx_mul eC.
split=> h; first by apply: (@controllable_sim _ _ _ (amx n n T)^T _ _ _ _ (amx n n T) (mulmx1C oT) s1 s2 h).
apply: (@controllable_sim _ _ _ (amx n n T) _ _ _ _ (amx n n T)^T oT _ _ h).
  by rewrite -[LHS]mulmx1 -oT mulmxA -(mulmxA (amx n n T)) -s1 !mulmxA (mulmx1C oT) mul1mx.
by rewrite -s2 mulmxA (mulmx1C oT) mul1mx.
Qed.

Variables (npsvd : arr R -> arr R * seq R * arr R) (spac : R).
Hypothesis sp0 : 0 <= spac.
Local Open Scope string_scope.

(* unobservable states of a system and of an invariant part of it *)
Lemma from_rest_sim n r m (A : 'M[R]_n) (B : 'M[R]_(n, m)) (A1 : 'M[R]_r) (B1 : 'M[R]_(r, m)) (X : 'M[R]_(n, r)) (z : 'cV[R]_r) :
  A *m X = X *m A1 -> X *m B1 = B -> from_rest_to A1 B1 z -> from_rest_to A B (X *m z).
Proof.
move=> eA eB [N [u <-]]; exists N, u; elim: N => [|N IH] /=; first by rewrite mulmx0.
by rewrite IH mulmxDr !mulmxA eA eB.
Qed.

Lemma line_sim n r m p (A : 'M[R]_n) (B : 'M[R]_(n, m)) (C : 'M[R]_(p, n)) (A1 : 'M[R]_r) (B1 : 'M[R]_(r, m)) (C1 : 'M[R]_(p, r)) (X : 'M[R]_(n, r)) :
  A *m X = X *m A1 -> X *m B1 = B -> C1 = C *m X -> (forall z : 'cV[R]_r, X *m z = 0 -> z = 0) -> unobs_line A B C -> unobs_line A1 B1 C1.
Proof.
move=> eA eB eC inj h x y rx ry hx hy.
have tr z : unobs A1 C1 z -> unobs A C (X *m z).
  move=> hz j; have e : mpow A j *m X = X *m mpow A1 j.
    by elim: j => [|j IH] /=; rewrite ?mul1mx ?mulmx1 // -mulmxA IH !mulmxA eA.
  by have := hz j; rewrite eC -(mulmxA C) -e !mulmxA.
have [c [d [nz e]]] := h _ _ (from_rest_sim eA eB rx) (from_rest_sim eA eB ry) (tr _ hx) (tr _ hy); exists c, d; split=> //; apply: inj.
by rewrite mulmxDr -!scalemxAr.
Qed.

(* the reachable part *)
Lemma line_lead n m p k (A : 'M[R]_n) (B : 'M[R]_(n, m)) (C : 'M[R]_(p, n)) (A1 : 'M[R]_k) (B1 : 'M[R]_(k, m)) (C1 : 'M[R]_(p, k)) :
  stairs_ctrb k A B -> (forall (i j : 'I_n) (a b : 'I_k), i = a :> nat -> j = b :> nat -> A1 a b = A i j) ->
  (forall (i : 'I_n) j (a : 'I_k), i = a :> nat -> B1 a j = B i j) ->
  (forall i (j : 'I_n) (b : 'I_k), j = b :> nat -> C1 i b = C i j) -> unobs_line A B C -> unobs_line A1 B1 C1.
Proof.
case=> _ [_ [kn hA hB _ _]] eA eB eC.
have [q nE] : exists q, n = (k + q)%N by exists (n - k)%N; rewrite subnKC.
subst n; have eAr : A1 = ulsubmx A by apply/matrixP => a b; rewrite !mxE; apply: eA.
have eBr : B1 = usubmx B by apply/matrixP => a b; rewrite !mxE; apply: eB.
have eCr : C1 = lsubmx C by apply/matrixP => a b; rewrite !mxE; apply: eC.
apply: (@line_sim _ _ _ _ _ _ _ _ _ _ (col_mx 1%:M 0)).
- rewrite -[A]submxK mul_block_col !mulmx0 !mulmx1 !addr0 mul_col_mx mul1mx mul0mx -eAr; congr col_mx.
  by apply/matrixP => i j; rewrite !mxE hA //= leq_addr.
- rewrite mul_col_mx mul1mx mul0mx -[RHS]vsubmxK eBr; congr col_mx.
  by apply/matrixP => i j; rewrite !mxE hB //= leq_addr.
- by rewrite -[C]hsubmxK mul_row_col mulmx0 addr0 mulmx1.
by move=> z; rewrite mul_col_mx mul1mx mul0mx => h; have := congr1 usubmx h; rewrite col_mxKu => ->; apply/matrixP => i j; rewrite !mxE.
Qed.

(* with two unobservable states in front the unobservable states are not on a line *)
Lemma line_stairs n m p k (A : 'M[R]_n) (B : 'M[R]_(n, m)) (C : 'M[R]_(p, n)) : controllable A B ->
  stairs_obsv_inv k A C -> unobs_line A B C -> (n <= k.+1)%N.
Proof.
move=> ctr [A1 [B1 [kn hA hB _ _]]] hl; have re := ctrb_reach ctr; rewrite leqNgt; apply/negP => lt.
have hA' (i j : 'I_n) : (n - k <= i)%N -> (j < n - k)%N -> A i j = 0 by move=> h1 h2; have := hA j i h2 h1; rewrite mxE.
have hC' i (j : 'I_n) : (j < n - k)%N -> C i j = 0 by move=> h; have := hB j i h; rewrite mxE.
have un (x : 'cV[R]_n) : (forall i : 'I_n, (n - k <= i)%N -> x i 0 = 0) -> unobs A C x.
  move=> hx j; rewrite -mulmxA.
  have : forall i : 'I_n, (n - k <= i)%N -> (mpow A j *m x) i 0 = 0.
    elim: j => [|j IH] i hi; first by rewrite /= mul1mx hx.
    rewrite /= -mulmxA mxE big1 // => a _; have [h|h] := ltnP a (n - k); first by rewrite hA' ?mul0r.
    by rewrite IH ?mulr0.
  move: (mpow A j *m x) => y hy; apply/matrixP => i z; rewrite ord1 mxE [RHS]mxE big1 // => a _.
  by have [h|h] := ltnP a (n - k); [rewrite hC' ?mul0r | rewrite hy ?mulr0].
have n0 : (0 < n)%N by move: lt; clear; lia.
have n1 : (1 < n)%N by move: lt; clear; lia.
pose e (a : 'I_n) : 'cV[R]_n := \col_i (i == a)%:R.
have he (a : 'I_n) : (a < n - k)%N -> unobs A C (e a).
  by move=> ha; apply: un => i hi; rewrite mxE; case: eqP => // ei; move: hi; rewrite ei leqNgt ha.
have [||c [d [nz]]] := hl (e (Ordinal n0)) (e (Ordinal n1)) (re _) (re _).
- by apply: he => /=; move: lt; clear; lia.
- by apply: he => /=; move: lt; clear; lia.
move=> /matrixP h; apply: nz; have := h (Ordinal n0) 0; have := h (Ordinal n1) 0; rewrite !mxE !eqxx /=.
by rewrite !mulr0 !mulr1 addr0 add0r => -> ->.
Qed.

(* what is left after the removal of unobservable states *)
Definition reduced n m p A B C r A1 B1 C1 : Prop :=
  [/\ sys r m p A1 B1 C1 /\ wf3 A1 B1 C1, (r <= n)%N, controllable (amx r r A1) (amx r m B1),
    forall j, markov3 r m p A1 B1 C1 j = markov3 n m p A B C j &
    unobs_line (amx n n A) (amx n m B) (amx p n C) -> observable (amx r r A1) (amx p r C1)].

Lemma obs_part tol n m p A B C : cdist_ok tol -> sys n m p A B C -> controllable (amx n n A) (amx n m B) ->
  stair_exact npsvd spac (aT A) (aT C) (aT B) -> ~ controllable (amx n n A)^T (amx p n C)^T ->
  exists A1 B1 C1 r, (do (Ao, Bo, Co, _) <- staircase npsvd spac A B C "o" true; trim_o cdist tol (nr Ao) Ao Bo Co) = Ok (A1, B1, C1) /\
    reduced n m p A B C r A1 B1 C1.
Proof.
move=> cd [sA sB sC] hc hx no.
have rk : (\rank (amx p n C) == n) = false by apply/eqP => h; apply: no; apply: rank_obs h.
have [Ah [Bh [Ch [T [k [e h hk]]]]]] := stairo true sp0 sA sB sC hx.
rewrite e rk; cbn [andb bind]; have [[sh sbh sch _] _ _ _ _] := h.
have rh : nr Ah = n by case: sh.
have kn : (k < n)%N.
  have kn : (k <= n)%N by case: hk => A1 [B1 []].
  rewrite ltn_neqAle kn andbT; apply/eqP => /(stairs_full_inv hk).1 h'; apply: no; exact/(orth_obs h).2.
have hc' := (orth_ctrb h).1 hc; have tc := tail_of hc' hk.
have [|A1 [B1 [C1 [r [e1 s1 [/andP[b1 b2] b3] h1 m1]]]]] := @trim_oP tol m p k n Ah Bh Ch cd _ hk tc kn; first by split.
exists A1, B1, C1, r; rewrite rh e1; split=> //; split=> //; first exact: ltnW.
  by move=> j; rewrite m1 /markov3; apply: C48_orth_similar_markov h.
have [_ oT eA eB eC] := h => hl; apply/obs_ctrb; apply: (stairs_full_inv b3).1.
have {hl} : unobs_line (amx n n Ah) (amx n m Bh) (amx p n Ch).
  by apply: line_sim eA (esym eB) eC _ hl => z hz; rewrite -[z]mul1mx -oT -mulmxA hz mulmx0.
move/(line_stairs hc' hk); move: b1 b2; clear; lia.
Qed.

Variable balance : arr R -> arr R * arr R.

Local Notation bal_ok := (bal_ok balance).
Local Notation min_exact := (min_exact npsvd spac cdist balance).

Lemma min_stateP tol n m p A B C : cdist_ok tol -> sys n m p A B C -> (0 < n)%N -> bal_ok n A -> min_exact tol A B C ->
  amx n m B <> 0 -> (\rank (amx p n C) < n)%N ->
  exists A1 B1 C1 r, min_state npsvd spac cdist balance tol A B C = Ok (A1, B1, C1) /\ reduced n m p A B C r A1 B1 C1.
Proof.
move=> cd [sA sB sC] n0; rewrite /bal_ok /min_exact /min_state.
have [[rA cA] [rB cB] [rC cC]] : [/\ nr A = n /\ nc A = n, nr B = n /\ nc B = m & nr C = p /\ nc C = n].
  by case: sA sB sC => -> -> [-> ->] [-> ->].
have -> : asize A == 0%N = false by rewrite /asize rA cA muln_eq0 (gtn_eqF n0).
case: (balance A) => A' T [wA' sA' sT uT eT] hx B0 rk.
have [rT cT] : nr T = n /\ nc T = n by case: sT.
have dT : adet T != 0 by move: uT; rewrite amxE unit_adet.
have eB' := @np_solveP _ n m T B rT cT rB cB; rewrite (negbTE dT) in eB'.
have [wB' rB' cB' _ vB'] := @np_solve_ok _ _ [rmorphism of idfun] n m T B _ rT cB eB'.
rewrite eB'; cbn [bind]; set B' := amul (ainv T) B in eB' wB' rB' cB' vB' *; set C' := amul C T.
have wC' : wfa C' by apply: wfa_mk.
have sB' : shp B' = (n, m) by rewrite /shp rB' cB'.
have sC' : shp C' = (p, n) by rewrite /shp /= rC cT.
have tB : amx n n T *m amx n m B' = amx n m B by rewrite !amxE vB' mulmxA mulmxV ?mul1mx //; rewrite -amxE.
have tC : amx p n C' = amx p n C *m amx n n T by rewrite !amxE (@mxof_mul _ _ _ _ n) ?rC ?cT ?cC ?rT.
have hm j : markov3 n m p A' B' C' j = markov3 n m p A B C j.
  rewrite /markov3 tC -tB -!mulmxA; congr (_ *m _); rewrite !mulmxA; congr (_ *m _).
  by rewrite (mpow_sim j (esym eT)).
have [hx1 hx2 hx3] := hx _ _ eB' erefl.
have B'0 : amx n m B' <> 0 by move=> h; apply: B0; rewrite -tB h mulmx0.
have rk' : (\rank (amx p n C') < n)%N by rewrite tC mxrankMfree // row_free_unit.
have [Ac [Bc [Cc [Tc [ec sc [k hk]]]]]] := stairc false sp0 wB' sA' sB' sC' hx1.
have [Ao [Bo [Co [To [ko' [eo so _]]]]]] := stairo true sp0 sA' sB' sC' hx2.
rewrite ec; cbn [bind]; rewrite eo (ltn_eqF rk'); cbn [andb bind].
have [[sAc sBc sCc _] _ _ eBc _] := sc; have [[sAo sBo sCo _] _ _ _ _] := so.
have [[rAc cAc] [rBc cBc]] : [/\ nr Ac = n /\ nc Ac = n & nr Bc = n /\ nc Bc = m] by case: sAc sBc => -> -> [-> ->].
have [[rAo cAo] [rCo cCo]] : [/\ nr Ao = n /\ nc Ao = n & nr Co = p /\ nc Co = n] by case: sAo sCo => -> -> [-> ->].
have [c1 c2] := cd n m Ac Bc sAc sBc n0.
have [o1 o2] := cd n p (aT Ao) (aT Co) (shp_T sAo) (shp_T sCo) n0.
rewrite (amx_T sAo) (amx_T sCo) in o1 o2.
rewrite /cancellation_distance rAc cAc rBc /= rAo cAo cCo !eqxx (gtn_eqF n0); cbn [negb bind].
have kn : (k <= n)%N by case: hk => ? [? []].
have kp : (0 < k)%N.
  rewrite lt0n; apply/eqP => e0; apply: B'0; rewrite eBc; case: hk => ? [? [_ _ h _ _]].
  by have -> : amx n m Bc = 0; [apply/matrixP => i j; rewrite [RHS]mxE h // e0 | rewrite mulmx0].
have sys' : sys n m p A' B' C' by split.
have red0 : controllable (amx n n A') (amx n m B') -> controllable (amx n n A')^T (amx p n C')^T -> reduced n m p A B C n A' B' C'.
  by move=> h h'; split=> // _; apply/obs_ctrb.
have line' : unobs_line (amx n n A) (amx n m B) (amx p n C) -> unobs_line (amx n n A') (amx n m B') (amx p n C').
  by apply: line_sim eT tB tC _ => z hz; rewrite -[z](mulKmx uT) hz mulmx0.
case: ifP => hmin.
  exists A', B', C', n; split=> //; move: hmin; rewrite lt_minr => /andP[h1 h2].
  by apply: red0; [apply/(orth_ctrb sc).2; apply: c2 | apply/(orth_obs so).2; apply: o2].
case: ifP => hkc; last first.
  have hc : controllable (amx n n A') (amx n m B') by apply/(orth_ctrb sc).2; apply: c2; rewrite ltNge hkc.
  cbn [bind]; case: ifP => hko; last first.
    by exists A', B', C', n; split=> //; apply: red0 => //; apply/(orth_obs so).2; apply: o2; rewrite ltNge hko.
  have no : ~ controllable (amx n n A')^T (amx p n C')^T by move/(orth_obs so).1; apply: o1.
  have [A1 [B1 [C1 [r [e1 [h1 h2 h3 h4 h5]]]]]] := obs_part cd sys' hc hx2 no.
  by exists A1, B1, C1, r; split=> //; split=> //; [move=> j; rewrite h4 hm | move/line'].
have kn' : (0 < k < n)%N.
  by rewrite kp ltn_neqAle kn andbT; apply/eqP => /(stairs_full hk).1; apply: c1.
have sysc : sys n m p Ac Bc Cc by split.
have [A1 [B1 [C1 [e1 [s1 w1] h1 m1 [g1 g2 g3]]]]] := trim_cP cd sysc hk kn'.
have line1 : unobs_line (amx n n A) (amx n m B) (amx p n C) -> unobs_line (amx k k A1) (amx k m B1) (amx p k C1).
  move/line' => hl; have [_ oT eA eB eC] := sc.
  have {hl} : unobs_line (amx n n Ac) (amx n m Bc) (amx p n Cc).
    by apply: line_sim eA (esym eB) eC _ hl => z hz; rewrite -[z]mul1mx -oT -mulmxA hz mulmx0.
  by apply: line_lead hk _ _ _ => [i j a b e3 e4|i j a e3|i j b e3]; rewrite !mxE ?e3 ?e4; [apply: g1 | apply: g3 | apply: g2].
have e1' := e1; rewrite -{1}rAc in e1'; rewrite e1; cbn [bind].
have hm1 j : markov3 k m p A1 B1 C1 j = markov3 n m p A B C j.
  by rewrite m1 -hm; apply: C48_orth_similar_markov sc.
have [[rA1 cA1] [rC1 cC1]] : [/\ nr A1 = k /\ nc A1 = k & nr C1 = p /\ nc C1 = k] by case: s1 => -[-> ->] _ [-> ->].
have [sA1 sB1 sC1] := s1.
have [p1 p2] := cd k p (aT A1) (aT C1) (shp_T sA1) (shp_T sC1) kp.
rewrite (amx_T sA1) (amx_T sC1) in p1 p2.
rewrite /= rA1 cA1 cC1 !eqxx (gtn_eqF kp); cbn [negb bind].
case: ifP => hko; last first.
  by exists A1, B1, C1, k; split=> //; split=> // _; apply/obs_ctrb; apply: p2; rewrite ltNge hko.
have [A2 [B2 [C2 [r [e2 [h2 h3 h4 h5 h6]]]]]] := obs_part cd s1 h1 (hx3 _ _ _ _ _ _ _ ec hkc e1') (p1 hko).
exists A2, B2, C2, r; split=> //; split=> //; first exact: leq_trans h3 kn.
  by move=> j; rewrite h5 hm1.
by move/line1.
Qed.

(* as many inputs as states, B invertible and C of full column rank: nothing is removed *)
Lemma rank_ctrb n m (A : 'M[R]_n) (B : 'M[R]_(n, m)) : \rank B = n -> controllable A B.
Proof.
move=> rk x hx; have := hx 0%N; rewrite /= mulmx1 => /eqP; rewrite mulmx_free_eq0 => [/eqP //|].
by rewrite /row_free rk.
Qed.

Lemma min_state_full tol n p A B C : cdist_ok tol -> sys n n p A B C -> (0 < n)%N -> bal_ok n A -> min_exact tol A B C ->
  \rank (amx n n B) = n -> \rank (amx p n C) = n ->
  exists A1 B1 C1, min_state npsvd spac cdist balance tol A B C = Ok (A1, B1, C1) /\ reduced n n p A B C n A1 B1 C1.
Proof.
move=> cd [sA sB sC] n0; rewrite /bal_ok /min_exact /min_state.
have [[rA cA] [rB cB] [rC cC]] : [/\ nr A = n /\ nc A = n, nr B = n /\ nc B = n & nr C = p /\ nc C = n].
  by case: sA sB sC => -> -> [-> ->] [-> ->].
have -> : asize A == 0%N = false by rewrite /asize rA cA muln_eq0 (gtn_eqF n0).
case: (balance A) => A' T [wA' sA' sT uT eT] hx rkB rk.
have [rT cT] : nr T = n /\ nc T = n by case: sT.
have dT : adet T != 0 by move: uT; rewrite amxE unit_adet.
have eB' := @np_solveP _ n n T B rT cT rB cB; rewrite (negbTE dT) in eB'.
have [wB' rB' cB' _ vB'] := @np_solve_ok _ _ [rmorphism of idfun] n n T B _ rT cB eB'.
rewrite eB'; cbn [bind]; set B' := amul (ainv T) B in eB' wB' rB' cB' vB' *; set C' := amul C T.
have wC' : wfa C' by apply: wfa_mk.
have sB' : shp B' = (n, n) by rewrite /shp rB' cB'.
have sC' : shp C' = (p, n) by rewrite /shp /= rC cT.
have tB : amx n n T *m amx n n B' = amx n n B by rewrite !amxE vB' mulmxA mulmxV ?mul1mx //; rewrite -amxE.
have tC : amx p n C' = amx p n C *m amx n n T by rewrite !amxE (@mxof_mul _ _ _ _ n) ?rC ?cT ?cC ?rT.
have hm j : markov3 n n p A' B' C' j = markov3 n n p A B C j.
  rewrite /markov3 tC -tB -!mulmxA; congr (_ *m _); rewrite !mulmxA; congr (_ *m _).
  by rewrite (mpow_sim j (esym eT)).
have [hx1 hx2 hx3] := hx _ _ eB' erefl.
have rk' : (\rank (amx p n C') = n)%N by rewrite tC mxrankMfree // row_free_unit.
have rkB' : \rank (amx n n B') = n.
  apply/eqP; rewrite eqn_leq rank_leq_row /= -[X in (X <= _)%N]rkB -tB; exact: mxrankM_maxr.
have [Ac [Bc [Cc [Tc [ec sc [k hk]]]]]] := stairc false sp0 wB' sA' sB' sC' hx1.
have [Ao [Bo [Co [To [ko' [eo so _]]]]]] := stairo true sp0 sA' sB' sC' hx2.
rewrite ec; cbn [bind]; rewrite eo rk' eqxx n0; cbn [andb bind].
have [[sAc sBc sCc _] _ _ eBc _] := sc; have [[sAo sBo sCo _] _ _ eBo _] := so.
have [[rAc cAc] [rBc cBc]] : [/\ nr Ac = n /\ nc Ac = n & nr Bc = n /\ nc Bc = n] by case: sAc sBc => -> -> [-> ->].
have [[rAo cAo] [rBo cBo]] : [/\ nr Ao = n /\ nc Ao = n & nr Bo = n /\ nc Bo = n] by case: sAo sBo => -> -> [-> ->].
have [c1 _] := cd n n Ac Bc sAc sBc n0.
have [o1 _] := cd n n (aT Ao) (aT Bo) (shp_T sAo) (shp_T sBo) n0.
rewrite (amx_T sAo) (amx_T sBo) in o1.
rewrite /cancellation_distance rAc cAc rBc /= rAo cAo cBo !eqxx (gtn_eqF n0); cbn [negb bind].
have hc : controllable (amx n n A') (amx n n B') by apply: rank_ctrb.
have -> : tol < Num.min (cdist Ac Bc) (cdist (aT Ao) (aT Bo)).
  rewrite lt_minr !ltNge; apply/andP; split; apply/negP.
    by move/c1; apply; apply/(orth_ctrb sc).1.
  move/o1; apply; apply: rank_ctrb; rewrite mxrank_tr.
  apply/eqP; rewrite eqn_leq rank_leq_row /= -[X in (X <= _)%N]rkB' eBo; exact: mxrankM_maxr.
exists A', B', C'; split=> //; split=> // _.
by apply/obs_ctrb; apply: rank_obs.
Qed.
End Min.
