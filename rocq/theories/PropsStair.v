(* C48 (staircase), C72: the staircase form is an orthogonal change of coordinates which isolates the uncontrollable
   (form 'c') or unobservable (form 'o') states.
   orth_similar is the docstring's relation between the arguments and the results; stairs_ctrb k A B and the like say
   that (A, B) is in staircase form with k controllable states; stair_exact says that the singular value decompositions
   taken on the way are exact and decide the ranks correctly (SpecMin.v).  npsvd stands for numpy.linalg.svd, spac for
   np.spacing(1.). *)
From mathcomp Require Import all_ssreflect all_algebra zify.
From Coq Require Import String.
From Verif Require Import Base BaseTheory Spec ModelAux AuxTheory SpecSim KalmanTheory ModelFreq FreqTheory ModelMin SpecMin StairTheory.

Set Implicit Arguments.
Unset Strict Implicit.
Unset Printing Implicit Defensive.

Import Order.TTheory GRing.Theory Num.Theory.
Local Open Scope ring_scope.
Local Open Scope string_scope.

Section Gen.
Variable R : realFieldType.
Implicit Types A B C : arr R.

Lemma aany0 n m B : shp B = (n, m) -> ~~ aany B -> amx n m B = 0.
Proof.
case=> rB cB an; apply/matrixP => i j; rewrite !mxE; apply/eqP; apply: contraNT an => h; apply/hasP; exists (i : nat).
  by rewrite mem_iota rB /=.
by apply/hasP; exists (j : nat); rewrite ?mem_iota ?cB //=.
Qed.

Lemma orth_eye n m p A B C : shp A = (n, n) -> shp B = (n, m) -> shp C = (p, n) -> orth_similar n m p A B C A B C (aeye n).
Proof. by move=> sA sB sC; rewrite /orth_similar !amxE mxof_eye trmx1 !mul1mx !mulmx1; split. Qed.

Lemma stairs0 n m (A : 'M[R]_n) : stairs_ctrb 0 A (0 : 'M[R]_(n, m)).
Proof.
by exists 0, 0; split=> //; [move=> i j _; rewrite mxE | split; [move=> i j [] | move=> i j []] | move=> x _; apply/matrixP => i []].
Qed.
Lemma stairs0_inv n m (A : 'M[R]_n) : stairs_ctrb_inv 0 A (0 : 'M[R]_(n, m)).
Proof.
exists 0, 0; split=> //; [|by move=> i j _; rewrite mxE | by split; [move=> i j [] | move=> i j []] | by move=> x _; apply/matrixP => i []].
by move=> i j _; rewrite subn0 leqNgt ltn_ord.
Qed.

(* all the states are in the controllable block exactly for a controllable pair *)
Lemma stairs_full n m k (A : 'M[R]_n) (B : 'M[R]_(n, m)) : stairs_ctrb k A B -> k = n <-> controllable A B.
Proof.
case=> A1 [B1 [kn hA hB [eA eB] hc]]; split.
  move=> e; subst k; have <- : A1 = A by apply/matrixP => i j; apply: eA.
  by have <- : B1 = B by apply/matrixP => i j; apply: eB.
move=> h; apply/eqP; rewrite eqn_leq kn leqNgt; apply/negP => lt.
have [q nE] : exists q, n = q.+1 by exists n.-1; rewrite prednK //; apply: leq_ltn_trans lt.
subst n; pose x : 'rV[R]_q.+1 := delta_mx 0 ord_max.
have x0 : x = 0; last by have := congr1 (fun y : 'rV_q.+1 => y 0 ord_max) x0; rewrite !mxE !eqxx /= => /eqP; rewrite oner_eq0.
apply: h => j.
have hx l (y : 'rV[R]_q.+1) : (forall a : 'I_q.+1, (a < k)%N -> y 0 a = 0) -> forall a : 'I_q.+1, (a < k)%N -> (y *m mpow A l) 0 a = 0.
  elim: l y => [|l IH] y hy a ha /=; first by rewrite mulmx1 hy.
  rewrite mulmxA; apply: IH => // b hb; rewrite mxE big1 // => i _; have [h1|h1] := ltnP i k; first by rewrite hy ?mul0r.
  by rewrite hA ?mulr0.
have {}hx := hx j x; apply/matrixP => o i; rewrite ord1 [RHS]mxE mxE big1 // => b _.
have [h1|h1] := ltnP b k; last by rewrite hB ?mulr0.
by rewrite hx ?mul0r // => a ha; rewrite !mxE /=; case: eqP => // e; move: ha lt; rewrite e /=; clear; lia.
Qed.

Lemma flipK n m k (A : 'M[R]_n) (B : 'M[R]_(n, m)) : stairs_ctrb_inv k A B -> stairs_ctrb k (Jmx R n *m A *m Jmx R n) (Jmx R n *m B).
Proof.
case=> A1 [B1 [kn hA hB [eA eB] hc]]; exists (Jmx R k *m A1 *m Jmx R k), (Jmx R k *m B1); split=> //.
- move=> i j hi hj; rewrite mulJ Jmul hA //=; have := ltn_ord i; have := ltn_ord j; move: hi hj kn; clear; lia.
- move=> i j hi; rewrite Jmul hB //=; have := ltn_ord i; move: hi kn; clear; lia.
- split=> [i j a b e1 e2|i j a e].
    by rewrite !mulJ !Jmul; apply: eA; have := ltn_ord a; have := ltn_ord b; move: e1 e2 kn => /=; clear; lia.
  by rewrite !Jmul; apply: eB; have := ltn_ord a; move: e kn => /=; clear; lia.
by apply: (@controllable_sim _ _ _ (Jmx R k) A1 _ B1 _ (Jmx R k) (JJ R k)) => //; rewrite -!mulmxA JJ mulmx1.
Qed.

Lemma stairs_full_inv n m k (A : 'M[R]_n) (B : 'M[R]_(n, m)) : stairs_ctrb_inv k A B -> k = n <-> controllable A B.
Proof.
move/flipK/stairs_full=> [h1 h2]; split=> h; [have {h} := h1 h | apply: h2; move: h] => h.
  have := @controllable_sim _ _ _ (Jmx R n) _ A _ B (Jmx R n) (JJ R n) _ _ h; apply.
    by rewrite -!mulmxA !mulmxA JJ mul1mx.
  by rewrite mulmxA JJ mul1mx.
by apply: (@controllable_sim _ _ _ (Jmx R n) A _ B _ (Jmx R n) (JJ R n)) => //; rewrite -!mulmxA JJ mulmx1.
Qed.
End Gen.

(* ------------------------------------------------------------------ form 'c' *)
Section C.
Variables (R : realFieldType) (npsvd : arr R -> arr R * seq R * arr R) (spac : R).

Lemma stairc n m p (A B C : arr R) inv : 0 <= spac -> wfa B -> shp A = (n, n) -> shp B = (n, m) -> shp C = (p, n) ->
  stair_exact npsvd spac A B C ->
  exists Ah Bh Ch T, [/\ staircase npsvd spac A B C "c" inv = Ok (Ah, Bh, Ch, T),
    orth_similar n m p A B C Ah Bh Ch T &
    exists k, if inv then stairs_ctrb_inv k (amx n n Ah) (amx n m Bh) else stairs_ctrb k (amx n n Ah) (amx n m Bh)].
Proof.
move=> sp0 wB sA sB sC hx.
have [[rA cA] [rB cB] [rC cC]] : [/\ nr A = n /\ nc A = n, nr B = n /\ nc B = m & nr C = p /\ nc C = n].
  by case: sA sB sC => -> -> [-> ->] [-> ->].
rewrite /staircase /= rA cA rB cC !eqxx /=; case: ifP => an.
  exists A, B, C, (aeye n); split=> //; first exact: orth_eye.
  by exists 0%N; rewrite (aany0 sB an); case: inv; [apply: stairs0_inv | apply: stairs0].
move/negbFE: an => an.
have [A0 [B0 [C0 [T [full [e h]]]]]] := core_inv inv sp0 wB sA sB sC an hx.
by rewrite e; cbn [bind]; move: h; case: inv => -[h1 _ h2]; eexists; eexists; eexists; eexists; split=> //.
Qed.
End C.

Theorem C48_staircase_c (R : realFieldType) npsvd (spac : R) n m p (A B C : arr R) inv : 0 <= spac -> wfa B ->
  shp A = (n, n) -> shp B = (n, m) -> shp C = (p, n) -> stair_exact npsvd spac A B C ->
  exists Ah Bh Ch T, staircase npsvd spac A B C "c" inv = Ok (Ah, Bh, Ch, T) /\ orth_similar n m p A B C Ah Bh Ch T.
Proof.
by move=> sp0 wB sA sB sC hx; have [Ah [Bh [Ch [T [e h _]]]]] := stairc inv sp0 wB sA sB sC hx; exists Ah, Bh, Ch, T.
Qed.
Print Assumptions C48_staircase_c.

Theorem C72_staircase_c (R : realFieldType) npsvd (spac : R) n m p (A B C Ah Bh Ch T : arr R) inv : 0 <= spac -> wfa B ->
  shp A = (n, n) -> shp B = (n, m) -> shp C = (p, n) -> stair_exact npsvd spac A B C ->
  staircase npsvd spac A B C "c" inv = Ok (Ah, Bh, Ch, T) ->
  exists k, (if inv then stairs_ctrb_inv k (amx n n Ah) (amx n m Bh) else stairs_ctrb k (amx n n Ah) (amx n m Bh)) /\
    (k = n <-> controllable (amx n n A) (amx n m B)).
Proof.
move=> sp0 wB sA sB sC hx E; have [Ah' [Bh' [Ch' [T' [e h [k hk]]]]]] := stairc inv sp0 wB sA sB sC hx.
move: e; rewrite E => -[e1 e2 e3 e4]; subst Ah' Bh' Ch' T'.
exists k; split=> //; case: h => _ oT eA eB _.
have [sim1 sim2] : (amx n n T)^T *m amx n n A = amx n n Ah *m (amx n n T)^T /\ (amx n n T)^T *m amx n m B = amx n m Bh.
  split; last by rewrite eB mulmxA oT mul1mx.
  by rewrite -[LHS]mulmx1 -(mulmx1C oT) mulmxA -(mulmxA _ (amx n n A)) eA !mulmxA oT mul1mx.
have kf : k = n <-> controllable (amx n n Ah) (amx n m Bh).
  by case: (inv) hk; [apply: stairs_full_inv | apply: stairs_full].
split=> [/kf.1 h|h].
  by apply: (@controllable_sim _ _ _ (amx n n T) _ _ _ _ (amx n n T)^T oT _ _ h); rewrite -?eA // eB.
by apply/kf.2; apply: (@controllable_sim _ _ _ (amx n n T)^T _ _ _ _ (amx n n T) (mulmx1C oT) sim1 sim2).
Qed.
Print Assumptions C72_staircase_c.

(* the transfer matrix is kept: equal Markov parameters *)
Theorem C48_orth_similar_markov (R : realFieldType) n m p (A B C Ah Bh Ch T : arr R) j : orth_similar n m p A B C Ah Bh Ch T ->
  amx p n Ch *m mpow (amx n n Ah) j *m amx n m Bh = amx p n C *m mpow (amx n n A) j *m amx n m B.
Proof.
case=> _ oT eA eB eC.
have s : (amx n n T)^T *m amx n n A = amx n n Ah *m (amx n n T)^T.
  by rewrite -[LHS]mulmx1 -(mulmx1C oT) mulmxA -(mulmxA _ (amx n n A)) eA !mulmxA oT mul1mx.
have -> : amx n m Bh = (amx n n T)^T *m amx n m B by rewrite eB mulmxA oT mul1mx.
by rewrite mulmxA -(mulmxA _ (mpow _ _)) -(mpow_sim j s) eC -!mulmxA (mulmxA (amx n n T)) (mulmx1C oT) mul1mx.
Qed.
Print Assumptions C48_orth_similar_markov.

(* ------------------------------------------------------------------ form 'o' *)
Section O.
Variables (R : realFieldType) (npsvd : arr R -> arr R * seq R * arr R) (spac : R).

Lemma amx_T n m (A : arr R) : shp A = (n, m) -> amx m n (aT A) = (amx n m A)^T.
Proof. by case=> e1 e2; rewrite !amxE mxof_T. Qed.
Lemma amx_TT n m (A : arr R) : shp A = (n, m) -> (amx m n (aT A))^T = amx n m A.
Proof. by move=> h; rewrite amx_T // trmxK. Qed.
Lemma shp_T n m (A : arr R) : shp A = (n, m) -> shp (aT A) = (m, n).
Proof. by case=> e1 e2; rewrite /shp /= e1 e2. Qed.

Lemma orth_T n m p (A B C A0 B0 C0 T : arr R) : shp A = (n, n) -> shp B = (n, m) -> shp C = (p, n) ->
  orth_similar n p m (aT A) (aT C) (aT B) A0 B0 C0 T -> orth_similar n m p A B C (aT A0) (aT C0) (aT B0) T.
Proof.
move=> sA sB sC [[s1 s2 s3 s4] oT eA eB eC].
have TA : (amx n n T)^T *m (amx n n A)^T *m amx n n T = amx n n A0.
  by rewrite -(amx_T sA) -mulmxA eA mulmxA oT mul1mx.
split; first by split=> //; apply: shp_T.
- by [].
- by rewrite (amx_T s1) -TA !trmx_mul !trmxK !mulmxA (mulmx1C oT) mul1mx.
- by rewrite (amx_T s3) eC trmx_mul (amx_T sB) trmxK mulmxA (mulmx1C oT) mul1mx.
by rewrite (amx_T s2) -(amx_TT sC) eB trmx_mul -mulmxA oT mulmx1.
Qed.

Lemma stairo n m p (A B C : arr R) inv : 0 <= spac -> shp A = (n, n) -> shp B = (n, m) -> shp C = (p, n) ->
  stair_exact npsvd spac (aT A) (aT C) (aT B) ->
  exists Ah Bh Ch T k, [/\ staircase npsvd spac A B C "o" inv =
      Ok (if (\rank (amx p n C) == n) && (0 < n)%N then (Ah, Ch, Bh, T) else (Ah, Bh, Ch, T)),
    orth_similar n m p A B C Ah Bh Ch T &
    if inv then stairs_obsv_inv k (amx n n Ah) (amx p n Ch) else stairs_obsv k (amx n n Ah) (amx p n Ch)].
Proof.
move=> sp0 sA sB sC hx.
have [[rA cA] [rB cB] [rC cC]] : [/\ nr A = n /\ nc A = n, nr B = n /\ nc B = m & nr C = p /\ nc C = n].
  by case: sA sB sC => -> -> [-> ->] [-> ->].
have sAT := shp_T sA; have sCT := shp_T sC; have sBT := shp_T sB.
rewrite /staircase /= rA cA rB cC !eqxx; cbn [andb negb]; case: ifP => an.
  have C0 : amx p n C = 0 by rewrite -(amx_TT sC) (aany0 sCT an) trmx0.
  exists A, B, C, (aeye n), 0%N; rewrite C0 mxrank0; split; first by case: (n).
    exact: orth_eye.
  by rewrite /stairs_obsv /stairs_obsv_inv trmx0; case: inv; [apply: stairs0_inv | apply: stairs0].
move/negbFE: an => an.
have n0 : (0 < n)%N.
  by case/hasP: an => i; rewrite mem_iota /= cC => hi _; apply: leq_ltn_trans hi.
have [A0 [B0 [C0 [T [full [e h]]]]]] := core_inv inv sp0 (wfa_mk _ _ _) sAT sCT sBT an hx.
rewrite e n0 andbT; cbn [bind]; move: h.
have rk : \rank (amx n p (aT C)) = \rank (amx p n C) by rewrite (amx_T sC) mxrank_tr.
rewrite rk; set F := if inv then _ else _; case: F => [[[A1 B1] C1] T1] [h1 -> [k hk]].
exists (aT A1), (aT C1), (aT B1), (aT T1), k; split; [by case: eqP | exact: orth_T |].
by rewrite /stairs_obsv /stairs_obsv_inv; case: h1 => -[s1 s2 s3 _] _ _ _ _; rewrite !amx_TT.
Qed.
End O.

Theorem C48_staircase_o (R : realFieldType) npsvd (spac : R) n m p (A B C : arr R) inv : 0 <= spac ->
  shp A = (n, n) -> shp B = (n, m) -> shp C = (p, n) -> stair_exact npsvd spac (aT A) (aT C) (aT B) ->
  (\rank (amx p n C) < n)%N ->
  exists Ah Bh Ch T, staircase npsvd spac A B C "o" inv = Ok (Ah, Bh, Ch, T) /\ orth_similar n m p A B C Ah Bh Ch T.
Proof.
move=> sp0 sA sB sC hx rk; have [Ah [Bh [Ch [T [k [e h _]]]]]] := stairo inv sp0 sA sB sC hx.
by exists Ah, Bh, Ch, T; rewrite e (ltn_eqF rk).
Qed.
Print Assumptions C48_staircase_o.

(* a full column rank C: the second and third results are exchanged *)
Theorem C48_staircase_o_refuted (R : realFieldType) npsvd (spac : R) n m p (A B C : arr R) inv : 0 <= spac ->
  shp A = (n, n) -> shp B = (n, m) -> shp C = (p, n) -> stair_exact npsvd spac (aT A) (aT C) (aT B) ->
  (0 < n)%N -> \rank (amx p n C) = n ->
  exists Ah Bh Ch T, [/\ staircase npsvd spac A B C "o" inv = Ok (Ah, Ch, Bh, T), orth_similar n m p A B C Ah Bh Ch T,
    shp Ch = (p, n) & shp Bh = (n, m)].
Proof.
move=> sp0 sA sB sC hx n0 rk; have [Ah [Bh [Ch [T [k [e h _]]]]]] := stairo inv sp0 sA sB sC hx.
by exists Ah, Bh, Ch, T; rewrite e rk eqxx n0; split=> //; case: h => -[].
Qed.
Print Assumptions C48_staircase_o_refuted.

Lemma obs_ctrb (R : realFieldType) n p (A : 'M[R]_n) (C : 'M[R]_(p, n)) : observable A C <-> controllable A^T C^T.
Proof.
have e j x : (C *m mpow A j *m x)^T = x^T *m mpow A^T j *m C^T.
  rewrite !trmx_mul mulmxA; congr (_ *m _ *m _); elim: j => [|j IH] /=; first by rewrite trmx1.
  by rewrite trmx_mul IH; elim: (j) => [|i IH'] /=; rewrite ?mul1mx ?mulmx1 // -mulmxA IH'.
split=> h x hx; rewrite -[x]trmxK.
  by rewrite (h x^T) ?trmx0 // => j; apply: trmx_inj; rewrite e trmxK hx trmx0.
by rewrite (h x^T) ?trmx0 // => j; rewrite -e hx trmx0.
Qed.

Theorem C72_staircase_o (R : realFieldType) npsvd (spac : R) n m p (A B C Ah Bh Ch T : arr R) inv : 0 <= spac ->
  shp A = (n, n) -> shp B = (n, m) -> shp C = (p, n) -> stair_exact npsvd spac (aT A) (aT C) (aT B) ->
  (\rank (amx p n C) < n)%N -> staircase npsvd spac A B C "o" inv = Ok (Ah, Bh, Ch, T) ->
  exists k, (if inv then stairs_obsv_inv k (amx n n Ah) (amx p n Ch) else stairs_obsv k (amx n n Ah) (amx p n Ch)) /\
    (k = n <-> observable (amx n n A) (amx p n C)).
Proof.
move=> sp0 sA sB sC hx rk E; have [Ah' [Bh' [Ch' [T' [k [e h hk]]]]]] := stairo inv sp0 sA sB sC hx.
move: e; rewrite E (ltn_eqF rk) /= => -[e1 e2 e3 e4]; subst Ah' Bh' Ch' T'.
exists k; split=> //; case: h => _ oT eA _ eC.
have kf : k = n <-> controllable (amx n n Ah)^T (amx p n Ch)^T.
  by case: (inv) hk; [apply: stairs_full_inv | apply: stairs_full].
have s1 : (amx n n T)^T *m (amx n n A)^T = (amx n n Ah)^T *m (amx n n T)^T by rewrite -!trmx_mul eA.
have s2 : (amx n n T)^T *m (amx p n C)^T = (amx p n Ch)^T by rewrite -!trmx_mul eC.
split=> [/kf.1 h|/obs_ctrb h].
  apply/obs_ctrb; apply: (@controllable_sim _ _ _ (amx n n T) _ _ _ _ (amx n n T)^T oT _ _ h).
    by rewrite -[LHS]mulmx1 -oT mulmxA -(mulmxA (amx n n T)) -s1 !mulmxA (mulmx1C oT) mul1mx.
  by rewrite -s2 mulmxA (mulmx1C oT) mul1mx.
by apply/kf.2; apply: (@controllable_sim _ _ _ (amx n n T)^T _ _ _ _ (amx n n T) (mulmx1C oT) s1 s2 h).
Qed.
Print Assumptions C72_staircase_o.

(* ------------------------------------------------------------------ a boolean version of stair_exact, for the examples *)
Section Chk.
Variables (R : realFieldType) (npsvd : arr R -> arr R * seq R * arr R) (spac : R).

Definition svd_chk (tol : R) (M : arr R) : bool :=
  let: (u, s, v) := npsvd M in
  wfa M &&
  [&& [&& wfa u, shp u == (nr M, nr M), wfa v & shp v == (nc M, nc M)],
      aeq (amul (aT u) u) (aeye (nr M)), aeq (amul v (aT v)) (aeye (nc M)),
      [&& size s == minn (nr M) (nc M), all (fun x => 0 <= x) s & sorted (fun x y => y <= x) s]
    & aeq M (amul u (amul (mk (nr M) (nc M) (fun i j => if i == j then nth 0 s i else 0)) v))] &&
  all (fun x => (x == 0) || (tol < x)) s.

Lemma svd_chkP tol M : svd_chk tol M -> svd_at npsvd tol M.
Proof.
rewrite /svd_chk /svd_at; case: (npsvd M) => [[u s] v] /andP[/andP[w /and5P[/and4P[w1 /eqP s1 w2 /eqP s2] e1 e2 /and3P[/eqP e3 h4 h5] e6]] /allP h].
split; last by move=> x /h /orP[/eqP|]; [left | right].
by split=> //; apply/aeqP => //; apply: wfa_mk.
Qed.

Definition stair_chk (A B C : arr R) : bool :=
  [&& aany B, svd_chk (smax (npsvd B).1.2 * (maxn (nr B) (nc B))%:R * spac) B &
    if st_start npsvd spac A B C is Ok (st, _) then
      all (svd_chk ((nr A)%:R * norm1 A * spac)) (loop_svds npsvd spac (nr A) ((nr A)%:R * norm1 A * spac) st)
    else false].

Lemma stair_chkP A B C : stair_chk A B C -> stair_exact npsvd spac A B C.
Proof.
case/and3P=> _ /svd_chkP h1 h2 _; split=> // st B0 M e; move: h2; rewrite e; elim: loop_svds => //= x l IH /andP[hx hl] [<-|].
  exact: svd_chkP.
exact: IH.
Qed.
End Chk.

(* three states, one of which is not reached; the loop takes one svd *)
Local Notation Q := rat_realFieldType.
Definition zq (s : seq (seq int)) : arr Q := of_rows [seq [seq (x%:~R : Q) | x <- r] | r <- s].
Definition tA : arr Q := Eval vm_compute in zq [:: [:: 4; 0; 0]; [:: 2; 1; 3]; [:: 5; 1; 6]].
Definition tB : arr Q := Eval vm_compute in zq [:: [:: 0]; [:: 1]; [:: 0]].
Definition tC : arr Q := Eval vm_compute in zq [:: [:: 1; 2; 3]; [:: 0; 1; 7]].
Definition tsvd (M : arr Q) : arr Q * seq Q * arr Q :=
  if nr M == 3%N then (zq [:: [:: 0; 1; 0]; [:: 1; 0; 0]; [:: 0; 0; 1]], [:: 1], zq [:: [:: 1]])
  else (zq [:: [:: 0; 1]; [:: 1; 0]], [:: 1], zq [:: [:: 1]]).
Definition teps : Q := Eval vm_compute in 1 / 1000%:~R.
Lemma tchk : stair_chk tsvd teps tA tB tC. Proof. by vm_compute. Qed.
Lemma tchk_o : stair_chk tsvd teps (aT (aT tA)) (aT (aT tB)) (aT (aT tC)). Proof. by vm_compute. Qed.

Example C48_staircase_ex : [/\ 0 <= teps, wfa tB, stair_exact tsvd teps tA tB tC &
  if staircase tsvd teps tA tB tC "c" false is Ok (Ah, Bh, Ch, T) then
    [&& aeq Ah (zq [:: [:: 1; 3; 2]; [:: 1; 6; 5]; [:: 0; 0; 4]]), aeq Bh (zq [:: [:: 1]; [:: 0]; [:: 0]]) &
        aeq Ch (zq [:: [:: 2; 3; 1]; [:: 1; 7; 0]])]
  else false].
Proof. by split; [| | apply: stair_chkP tchk | vm_compute]. Qed.

(* the transposed model in form 'o', inverted *)
Lemma rank_col (R : fieldType) n p (C : 'M[R]_(p, n)) : (p < n)%N -> (\rank C < n)%N.
Proof. by move=> h; apply: leq_ltn_trans (rank_leq_row _) h. Qed.
Example C72_staircase_ex : [/\ stair_exact tsvd teps (aT (aT tA)) (aT (aT tB)) (aT (aT tC)),
  (\rank (amx 1 3 (aT tB)) < 3)%N &
  if staircase tsvd teps (aT tA) (aT tC) (aT tB) "o" true is Ok (Ah, Bh, Ch, T) then
    [&& aeq Ah (zq [:: [:: 4; 5; 2]; [:: 0; 6; 3]; [:: 0; 1; 1]]), aeq Ch (zq [:: [:: 0; 0; 1]]) &
        aeq Bh (zq [:: [:: 1; 0]; [:: 3; 7]; [:: 2; 1]])]
  else false].
Proof. by split; [apply: stair_chkP tchk_o | apply: rank_col | vm_compute]. Qed.

(* C = 1: one state, two inputs; B and C come back exchanged *)
Definition oA : arr Q := Eval vm_compute in zq [:: [:: 3]].
Definition oB : arr Q := Eval vm_compute in zq [:: [:: 2; 5]].
Definition oC : arr Q := Eval vm_compute in zq [:: [:: 1]].
Definition osvd (M : arr Q) : arr Q * seq Q * arr Q := (zq [:: [:: 1]], [:: 1], zq [:: [:: 1]]).
Lemma ochk : stair_chk osvd teps (aT oA) (aT oC) (aT oB). Proof. by vm_compute. Qed.
Example C48_staircase_o_refuted_ex : [/\ stair_exact osvd teps (aT oA) (aT oC) (aT oB), \rank (amx 1 1 oC) = 1%N &
  if staircase osvd teps oA oB oC "o" false is Ok (Ah, Bh, Ch, T) then aeq Bh oC && aeq Ch oB else false].
Proof.
split; [apply: stair_chkP ochk | | by vm_compute].
by have -> : amx 1 1 oC = 1%:M; [apply/matrixP => i j; rewrite !ord1 !mxE; apply/eqP; vm_compute | rewrite mxrank1].
Qed.
