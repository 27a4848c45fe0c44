(* C60: random_state_model. *)
From mathcomp Require Import all_ssreflect all_algebra zify.
From Verif Require Import Base BaseTheory RingTac ModelState StateTheory ModelAux ModelSim SpecSim SimTheory AuxTheory ModelRandom SpecRandom.

Set Implicit Arguments.
Unset Strict Implicit.
Unset Printing Implicit Defensive.

Import Order.TTheory GRing.Theory Num.Theory.
Local Open Scope ring_scope.

Section RandomTheory.
Variable R : realFieldType.
Local Notation mx := (mxof [rmorphism of @idfun R]).
Implicit Types (A a : arr R).

Lemma norm2E n (u : 'cV[R]_n) : norm2 u = (u^T *m u) 0 0.
Proof. by rewrite /norm2 mxE; apply: eq_bigr => i _; rewrite mxE expr2. Qed.
Lemma norm2_ge0 n (u : 'cV[R]_n) : 0 <= norm2 u.
Proof. by apply: sumr_ge0 => i _; exact: sqr_ge0. Qed.
Lemma norm2_gt0 n (u : 'cV[R]_n) : u != 0 -> 0 < norm2 u.
Proof.
move=> h; rewrite lt_neqAle norm2_ge0 andbT eq_sym; apply: contra h => /eqP h.
apply/eqP/matrixP => i j; rewrite (ord1 j) mxE; apply/eqP; rewrite -sqrf_eq0; apply/eqP.
by apply: (psumr_eq0P _ h) => // k _; exact: sqr_ge0.
Qed.
Lemma norm2_0 n : norm2 (0 : 'cV[R]_n) = 0.
Proof. by rewrite /norm2 big1 // => i _; rewrite mxE expr0n. Qed.

Lemma tr11 (M : 'M[R]_1) : M^T = M. Proof. by apply/matrixP => i j; rewrite !mxE !ord1. Qed.

Lemma dot_sym n (p q : 'cV[R]_n) : (p^T *m q) 0 0 = (q^T *m p) 0 0.
Proof. by rewrite -(tr11 (q^T *m p)) trmx_mul trmxK. Qed.

Lemma mxE_add m n (A B : 'M[R]_(m, n)) i j : (A + B) i j = A i j + B i j. Proof. by rewrite mxE. Qed.

Lemma dbl_inj (x y : R) : x + x = y + y -> x = y.
Proof. by move=> h; apply: (@pmulrnI _ 2) => //; rewrite !mulr2n. Qed.

(* stability of a dissipative matrix in other coordinates *)
Lemma stab_c n (A T : 'M[R]_n) x y : T \in unitmx -> dissipative A -> is_pole (invmx T *m A *m T) x y -> x < 0.
Proof.
move=> uT dA [u [v [nz Eu Ev]]].
have key (w : 'cV[R]_n) z : (invmx T *m A *m T) *m w = z -> A *m (T *m w) = T *m z.
  by move=> <-; rewrite !mulmxA mulmxV // mul1mx.
move/key: Eu; move/key: Ev; rewrite mulmxBr mulmxDr -!scalemxAr.
set p := T *m u; set q := T *m v => Ev Eu.
have nzT (w : 'cV[R]_n) : T *m w = 0 -> w = 0 by move=> h; rewrite -[w](mulKmx uT) h mulmx0.
have s : (p^T *m A *m p) 0 0 + (q^T *m A *m q) 0 0 = x * (norm2 p + norm2 q).
  rewrite -!mulmxA Eu Ev mulmxBr mulmxDr -!scalemxAr.
  have e := dot_sym p q.
  rewrite !norm2E; move: (p^T *m p) (q^T *m q) (p^T *m q) (q^T *m p) e => a b c d e.
  rewrite !mxE e; move: (a 0 0) (b 0 0) (d 0 0) => a0 b0 d0; mc_ring R.
have pos : 0 < norm2 p + norm2 q.
  by case/orP: nz => h; [apply: ltr_paddr | apply: ltr_paddl]; rewrite ?norm2_ge0 // norm2_gt0 //;
     apply: contra h => /eqP /nzT ->.
have neg : (p^T *m A *m p) 0 0 + (q^T *m A *m q) 0 0 < 0.
  have le0 (w : 'cV[R]_n) : (w^T *m A *m w) 0 0 <= 0.
    by case: (eqVneq w 0) => [->|/dA/ltW//]; rewrite mulmx0 mxE.
  by case/orP: nz => h; [rewrite ltr_naddr | rewrite ltr_naddl] => //; apply: dA; apply: contra h => /eqP /nzT ->.
by move: neg; rewrite s pmulr_llt0.
Qed.

Lemma stab_d n (E T : 'M[R]_n) x y : T \in unitmx -> contraction E -> is_pole (invmx T *m E *m T) x y -> x ^+ 2 + y ^+ 2 < 1.
Proof.
move=> uT dE [u [v [nz Eu Ev]]].
have key (w : 'cV[R]_n) z : (invmx T *m E *m T) *m w = z -> E *m (T *m w) = T *m z.
  by move=> <-; rewrite !mulmxA mulmxV // mul1mx.
move/key: Eu; move/key: Ev; rewrite mulmxBr mulmxDr -!scalemxAr.
set p := T *m u; set q := T *m v => Ev Eu.
have nzT (w : 'cV[R]_n) : T *m w = 0 -> w = 0 by move=> h; rewrite -[w](mulKmx uT) h mulmx0.
have s : norm2 (E *m p) + norm2 (E *m q) = (x ^+ 2 + y ^+ 2) * (norm2 p + norm2 q).
  rewrite Eu Ev /norm2 -!big_split mulr_sumr /=; apply: eq_bigr => i _; rewrite !mxE; move: (\sum_(j < n) _) (\sum_(j < n) _) => p0 q0; mc_ring R.
have pos : 0 < norm2 p + norm2 q.
  by case/orP: nz => h; [apply: ltr_paddr | apply: ltr_paddl]; rewrite ?norm2_ge0 // norm2_gt0 //;
     apply: contra h => /eqP /nzT ->.
have lt : norm2 (E *m p) + norm2 (E *m q) < norm2 p + norm2 q.
  have le (w : 'cV[R]_n) : norm2 (E *m w) <= norm2 w by case: (eqVneq w 0) => [->|/dE/ltW//]; rewrite mulmx0.
  by case/orP: nz => h; [apply: ltr_le_add | apply: ler_lt_add] => //; apply: dE; apply: contra h => /eqP /nzT ->.
by move: lt; rewrite s -[X in _ < X]mul1r ltr_pmul2r.
Qed.

(* a matrix with skew off-diagonal part and negative diagonal *)
Definition skewneg (n d : nat) a : Prop :=
  [/\ wfa a, nr a = n, nc a = n, forall i j, i != j -> get a i j = - get a j i & forall i, (i < d)%N -> get a i i < 0].

Lemma get_aset A i j v i' j' : wfa A -> get (aset A i j v) i' j' = if [&& i' == i, j' == j, i < nr A & j < nc A]%N then v else get A i' j'.
Proof.
move=> w; rewrite /aset; case: (ltnP i' (nr A)) => hi; last first.
  rewrite get_out_r ?wfa_mk // [get A _ _]get_out_r //; case: ifP => // /and4P[/eqP e _ h _]; move: hi h; clear -e; rewrite e; lia.
case: (ltnP j' (nc A)) => hj; last first.
  rewrite get_out_c ?wfa_mk // [get A _ _]get_out_c //; case: ifP => // /and4P[_ /eqP e _ h]; move: hj h; clear -e; rewrite e; lia.
by rewrite get_mk //; case: eqP => [<-|] //=; case: eqP => [<-|] //=; rewrite hi hj.
Qed.

Lemma skewneg_set n d a v : skewneg n d a -> (d < n)%N -> v < 0 -> skewneg n d.+1 (aset a d d v).
Proof.
move=> [w e1 e2 h1 h2] hd hv; split=> //; first exact: wfa_mk.
  move=> i j ij; rewrite !get_aset // h1 //; case: eqP => [e|_] /=; last by case: eqP => //= _; rewrite andFb.
  have -> : (j == d) = false by apply/negbTE; apply: contra ij => /eqP ->; rewrite e.
  by [].
move=> i; rewrite ltnS leq_eqVlt get_aset // e1 e2 hd /=.
by case: eqP => [_ _|_ /= hi] /=; [| exact: h2].
Qed.

Lemma skewneg_set4 n d a v z : skewneg n d a -> (d.+1 < n)%N -> v < 0 -> skewneg n d.+2 (aput4 a d v z (- z) v).
Proof.
move=> [w e1 e2 h1 h2] hd hv; have hd' : (d < n)%N by lia.
have dd : (d == d.+1) = false by lia.
have g i j : get (aput4 a d v z (- z) v) i j =
    if (i == d) && (j == d) then v else if (i == d) && (j == d.+1) then z else if (i == d.+1) && (j == d) then - z
    else if (i == d.+1) && (j == d.+1) then v else get a i j.
  rewrite /aput4 !get_aset ?wfa_mk //= e1 e2 hd hd' !andbT.
  case: (i =P d) => [->|_] /=.
    by rewrite dd /=; case: (j =P d) => [->|_] //=; rewrite dd.
  by case: (i =P d.+1) => //= _; case: (j =P d) => [->|_] //=; rewrite dd.
split=> //; first exact: wfa_mk.
  move=> i j ij; rewrite !g (h1 i j ij).
  have -> : (i == d) && (j == d) = false by apply/negbTE; apply: contra ij => /andP[/eqP-> /eqP->].
  have -> : (j == d) && (i == d) = false by apply/negbTE; apply: contra ij => /andP[/eqP-> /eqP->].
  have -> : (i == d.+1) && (j == d.+1) = false by apply/negbTE; apply: contra ij => /andP[/eqP-> /eqP->].
  have -> : (j == d.+1) && (i == d.+1) = false by apply/negbTE; apply: contra ij => /andP[/eqP-> /eqP->].
  rewrite [(j == d) && _]andbC [(j == d.+1) && _]andbC.
  case: (i =P d) => [->|_] /=; first by rewrite dd /=; case: (j =P d.+1); rewrite ?opprK.
  by case: (i =P d.+1) => //= _; case: (j =P d).
move=> i; rewrite g; case: (i =P d) => //= ne; case: (i =P d.+1) => //= h h'; apply: h2; move: ne h h'; clear; lia.
Qed.

Lemma skewneg_diss n a : skewneg n n a -> dissipative (mx n n a).
Proof.
move=> [w e1 e2 h1 h2] v nz; set M := mx n n a.
have e : (v^T *m M *m v) 0 0 = \sum_i M i i * v i 0 ^+ 2.
  have d2 : (v^T *m M *m v) 0 0 + (v^T *m M *m v) 0 0 = \sum_i M i i * v i 0 ^+ 2 + \sum_i M i i * v i 0 ^+ 2.
    rewrite -{1}(tr11 (v^T *m M *m v)) !trmx_mul trmxK -mxE_add.
    have -> : v^T *m (M^T *m v) + v^T *m M *m v = v^T *m ((M^T + M) *m v).
      by rewrite mulmxDl mulmxDr !mulmxA.
    rewrite -big_split mxE /=; apply: eq_bigr => i _; rewrite !mxE (bigD1 i) //= big1 => [|j ij]; last first.
      by rewrite !mxE /= (h1 (nat_of_ord j) i) ?addNr ?mul0r // eq_sym.
    by rewrite !mxE /= addr0; move: (get a i i) (v i 0) => x y; mc_ring R.
  exact: dbl_inj d2.
rewrite e; have [i vi] : exists i, v i 0 != 0.
  apply/existsP; apply: contraR nz; rewrite negb_exists => /forallP h; apply/eqP/matrixP => i j.
  by rewrite (ord1 j) mxE; apply/eqP; have := h i; rewrite negbK.
rewrite (bigD1 i) //=; apply: ltr_naddr.
  by rewrite -oppr_ge0 -sumrN; apply: sumr_ge0 => j _; rewrite oppr_ge0 !mxE mulr_le0_ge0 ?sqr_ge0 // ltW // h2.
by rewrite !mxE nmulr_rlt0 ?h2 // exprn_even_gt0.
Qed.

Variables (ee : R -> R) (expm : arr R -> arr R).
Hypothesis ee_pos : forall x, 0 < ee x.

Lemma walk_shape w st n fuel k d a : wfa a -> nr a = n -> nc a = n ->
  let r := walk ee w st n fuel k d a in [/\ wfa r.2, nr r.2 = n & nc r.2 = n].
Proof.
elim: fuel k d a => //= fuel IH k d a h1 h2 h3.
have nx d' a' : wfa a' -> nr a' = n -> nc a' = n ->
  let r := if d' == n then (d', a') else walk ee w st n fuel k.+1 d' a' in [/\ wfa r.2, nr r.2 = n & nc r.2 = n].
  by move=> g1 g2 g3; case: (d' == n) => //; apply: IH.
case: (ty w k) => [|[|[|[|t]]]]; try (apply: nx => //; exact: wfa_mk); case: ifP => // _; apply: nx => //; exact: wfa_mk.
Qed.

Lemma walkP w n fuel k d a : (forall k, (ty w k < 2)%N) -> (d < n)%N -> (n <= fuel + d)%N -> skewneg n d a ->
  let r := walk ee w true n fuel k d a in
  ((r.1 == n) || (r.1 == (n - 1)%N)) /\ skewneg n r.1 r.2.
Proof.
move=> hty; elim: fuel k d a => [|fuel IH] k d a hd hf hs; first by move: hd hf; clear; lia.
have nx d' a' : (d < d')%N -> (d' <= n)%N -> skewneg n d' a' ->
  let r := if d' == n then (d', a') else walk ee w true n fuel k.+1 d' a' in
  ((r.1 == n) || (r.1 == (n - 1)%N)) /\ skewneg n r.1 r.2.
  move=> h1 h2 h3; case: (d' =P n) => [e|ne] /=; first by split=> //; rewrite e eqxx.
  by apply: IH => //; move: hf h1 h2 ne; clear; lia.
move: (hty k); rewrite /=; case: (ty w k) => [|[|t]] // _.
  by apply: nx => //; apply: skewneg_set => //; rewrite /pole_re oppr_lt0.
case: (leqP (n - 1) d) => hd'.
  by rewrite /=; split=> //; have -> : d = (n - 1)%N by [move: hd hd'; clear; lia]; rewrite eqxx orbT.
apply: nx; [by [] | by move: hd'; clear; lia |].
by apply: skewneg_set4 => //; [move: hd'; clear; lia | rewrite /pole_re oppr_lt0].
Qed.

Lemma random_aP w n : (0 < n)%N -> (forall k, (ty w k < 2)%N) -> skewneg n n (random_a ee w true n).
Proof.
move=> n0 hty; have z : skewneg n 0 (azeros n n : arr R).
  split=> //; first exact: wfa_mk.
  by move=> i j _; rewrite !get_azeros oppr0.
have := @walkP w n n 0 0 _ hty n0 (leq_addr 0 n) z; rewrite /random_a.
case: (walk _ _ _ _ _ _ _ _) => d a /= [/orP h hs]; case: eqP => [e|ne].
  have n1 : n = d.+1 by move: e n0; clear; lia.
  by rewrite {2}n1; apply: skewneg_set => //; [rewrite n1 | rewrite /pole_re oppr_lt0].
by case: h => /eqP h; [rewrite -{2}h | case: ne].
Qed.
End RandomTheory.

Section Props.
Variable R : realFieldType.
Local Notation mx := (mxof [rmorphism of @idfun R]).

(* the arrays the random generator is asked for have the requested shapes, and the random similarity is invertible *)
Definition fit (w : draws R) (n p m : nat) : Prop :=
  [/\ shp (rb w) = (n, m), shp (rc w) = (p, n), shp (rd w) = (p, m), shp (rT w) = (n, n) & adet (rT w) != 0].

Lemma big_inv ee expm w n dt st p m G : (1 < n)%N -> fit w n p m ->
  (forall h, dt = Some h -> let E := expm (ascale h (random_a ee w st n)) in nr E = n /\ nc E = n) ->
  (forall h, dt = Some h -> 0 < h) ->
  let E := if dt is Some h then expm (ascale h (random_a ee w st n)) else random_a ee w st n in
  random_state_model ee expm w n dt st = Ok G <->
    G = St (amul (amul (ainv (rT w)) E) (rT w)) (rb w) (rc w) (rd w) false dt.
Proof.
case: n => [|[|n]] // _ [[b1 b2] [c1 c2] [d1 d2] [t1 t2] dT] hE hdt E.
have [E1 E2] : nr E = n.+2 /\ nc E = n.+2.
  rewrite /E; case edt: dt => [h|]; first exact: hE.
  rewrite /random_a; have [|||] := @walk_shape R ee w st n.+2 n.+2 0 0 (azeros n.+2 n.+2); rewrite ?wfa_mk //.
  by case: (walk _ _ _ _ _ _ _ _) => d a /= _ h1 h2; case: ifP.
rewrite /random_state_model -/E (@np_solveP _ n.+2 n.+2) // (negbTE dT) /= /np_matmul /= E2 t1 eqxx /=.
rewrite mkS_ok //= ?b1 ?b2 ?c1 ?c2 ?d1 ?d2 ?t1 ?t2 //; first by split=> [[->]|->].
by case: (dt) hdt => // h /(_ h erefl).
Qed.

Lemma big_a w E n : nr E = n -> nc E = n -> shp (rT w) = (n, n) -> adet (rT w) != 0 ->
  mx n n (rT w) \in unitmx /\
  amx n n (amul (amul (ainv (rT w)) E) (rT w)) = invmx (mx n n (rT w)) *m mx n n E *m mx n n (rT w).
Proof.
move=> e1 e2 [t1 t2] dT; split; first by rewrite unit_adet.
by rewrite amxE !(@mxof_mul _ _ _ n n n) //= ?mxof_inv.
Qed.

(* Whatever is drawn, stable or not: an n-state model with the requested shape and sampling period is returned. *)
Theorem C60_returns ee expm (w : draws R) n p m dt st : fit w n p m ->
  (n = 1%N -> shp (ra w) = (1, 1)%N) -> (forall h, dt = Some h -> 0 < h) ->
  (forall A, shp (expm A) = shp A) ->
  exists G, [/\ random_state_model ee expm w n dt st = Ok G, sgain G = (n == 0%N),
    if n is 0 then true else (nr (sa G) == n) && (nc (sa G) == n),
    shp (sd G) = (p, m) & sdt G = dt].
Proof.
move=> hf h1 hdt he; have [[b1 b2] [c1 c2] [d1 d2] [t1 t2] dT] := hf.
have dtok : dt_ok dt by case: (dt) hdt => // h /(_ h erefl).
case: n hf h1 b1 b2 c1 c2 t1 t2 => [|[|n]] hf h1 b1 b2 c1 c2 t1 t2.
- exists (St (e00 R) (e00 R) (e00 R) (rd w) true dt); rewrite /= mkGain_ok //; split=> //; by rewrite /shp d1 d2.
- have [a1 a2] := h1 erefl; exists (St (aneg (ra w)) (rb w) (rc w) (rd w) false dt).
  rewrite /= mkS_ok //= ?a1 ?a2 ?b1 ?b2 ?c1 ?c2 ?d1 ?d2 //; split=> //; by rewrite /shp d1 d2.
pose E := if dt is Some h then expm (ascale h (random_a ee w st n.+2)) else random_a ee w st n.+2.
exists (St (amul (amul (ainv (rT w)) E) (rT w)) (rb w) (rc w) (rd w) false dt); split=> //=.
- apply/(@big_inv ee expm w n.+2 dt st p m) => // h _.
  have := he (ascale h (random_a ee w st n.+2)); rewrite /shp /= => -[-> ->].
  rewrite /random_a; have [|||] := @walk_shape R ee w st n.+2 n.+2 0 0 (azeros n.+2 n.+2); rewrite ?wfa_mk //.
  by case: (walk _ _ _ _ _ _ _ _) => d a /= _ g1 g2; case: ifP.
- by rewrite t1 t2 eqxx.
- by rewrite /shp d1 d2.
Qed.

(* stable=True, continuous time, two states or more: every pole has negative real part, for every outcome of the
   random generator (stable=True draws the types 0 and 1 only; exp is positive) *)
Theorem C60_continuous ee expm (w : draws R) n p m G : (1 < n)%N -> fit w n p m ->
  (forall x, 0 < ee x) -> (forall k, (ty w k < 2)%N) ->
  random_state_model ee expm w n None true = Ok G ->
  forall x y, is_pole (amx n n (sa G)) x y -> x < 0.
Proof.
move=> hn hf he hty /(@big_inv ee expm w n None true p m G hn hf _ _) -> // x y.
have [_ _ _ t12 dT] := hf; have sk := @random_aP R ee he w n (ltnW hn) hty; have [_ e1 e2 _ _] := sk.
rewrite /=; have [uT ->] := big_a e1 e2 t12 dT.
by apply: stab_c => //; apply: skewneg_diss.
Qed.

(* stable=True, discrete time, two states or more: every pole is inside the unit circle.  Of expm it is used that the
   exponential of a matrix with v'Mv < 0 is a contraction. *)
Theorem C60_discrete ee expm (w : draws R) n p m h G : (1 < n)%N -> fit w n p m -> 0 < h ->
  (forall x, 0 < ee x) -> (forall k, (ty w k < 2)%N) ->
  (forall M : arr R, shp M = (n, n) -> dissipative (amx n n M) ->
     shp (expm M) = (n, n) /\ contraction (amx n n (expm M))) ->
  random_state_model ee expm w n (Some h) true = Ok G ->
  forall x y, is_pole (amx n n (sa G)) x y -> x ^+ 2 + y ^+ 2 < 1.
Proof.
move=> hn hf h0 he hty hexp.
have sk := @random_aP R ee he w n (ltnW hn) hty; have [_ e1 e2 _ _] := sk.
have [||[x1 x2] ctr] := hexp (ascale h (random_a ee w true n)); first by rewrite /shp /= e1 e2.
  move=> v nz; rewrite amxE mxof_scale //= -scalemxAr -scalemxAl mxE pmulr_rlt0 //.
  exact: (skewneg_diss sk).
move=> /(@big_inv ee expm w n (Some h) true p m G hn hf _ _) -> //; [|by move=> _ [<-]|by move=> _ [<-]].
have [_ _ _ t12 dT] := hf; rewrite /= => x y.
have [uT ->] := big_a x1 x2 t12 dT; apply: stab_d => //; by move: ctr; rewrite amxE.
Qed.

(* one state: the pole is -rand(), which is negative unless rand() returns 0, *)
Theorem C60_first_order_partial ee expm (w : draws R) dt st p m G : fit w 1 p m -> shp (ra w) = (1, 1)%N ->
  0 <= get (ra w) 0 0 < 1 ->
  random_state_model ee expm w 1 dt st = Ok G ->
  forall x y, is_pole (amx 1 1 (sa G)) x y ->
    if dt is None then (x < 0) == (get (ra w) 0 0 != 0) else x ^+ 2 + y ^+ 2 < 1.
Proof.
move=> [[b1 b2] [c1 c2] [d1 d2] _ _] [a1 a2] /andP[a0 al] /= /mkS_inv.
rewrite /= a1 b1 => /(_ erefl)[_ _ _ hG] x y.
have -> : sa G = aneg (ra w) by case: hG => [[->]|[->]].
have -> : amx 1 1 (aneg (ra w)) = (- get (ra w) 0 0)%:M.
  by apply/matrixP => i j; rewrite !mxE !ord1 /aneg /amap get_mk ?a1 ?a2.
move=> [u [v [nz]]]; rewrite !mul_scalar_mx => Eu Ev; set r := - _ in Eu Ev.
have {Eu} Eu : (r - x) * u 0 0 + y * v 0 0 = 0.
  by have := congr1 (fun M : 'cV[R]_1 => M 0 0) Eu; rewrite !mxE => e; rewrite mulrBl e; move: (u 0 0) (v 0 0) => u0 v0; mc_ring R.
have {Ev} Ev : (r - x) * v 0 0 - y * u 0 0 = 0.
  by have := congr1 (fun M : 'cV[R]_1 => M 0 0) Ev; rewrite !mxE => e; rewrite mulrBl e; move: (u 0 0) (v 0 0) => u0 v0; mc_ring R.
have pos : 0 < u 0 0 ^+ 2 + v 0 0 ^+ 2.
  have z (q : 'cV[R]_1) : q != 0 -> 0 < q 0 0 ^+ 2.
    by move=> h; rewrite exprn_even_gt0 //; apply: contra h => /eqP h; apply/eqP/matrixP => i j; rewrite !ord1 h mxE.
  by case/orP: nz => h; [apply: ltr_paddr | apply: ltr_paddl]; rewrite ?sqr_ge0 // z.
have e1 : (r - x) * (u 0 0 ^+ 2 + v 0 0 ^+ 2) = 0.
  have -> : (r - x) * (u 0 0 ^+ 2 + v 0 0 ^+ 2) = u 0 0 * ((r - x) * u 0 0 + y * v 0 0) + v 0 0 * ((r - x) * v 0 0 - y * u 0 0).
    by move: (u 0 0) (v 0 0) => u0 v0; mc_ring R.
  by rewrite Eu Ev !mulr0 addr0.
have e2 : y * (u 0 0 ^+ 2 + v 0 0 ^+ 2) = 0.
  have -> : y * (u 0 0 ^+ 2 + v 0 0 ^+ 2) = v 0 0 * ((r - x) * u 0 0 + y * v 0 0) - u 0 0 * ((r - x) * v 0 0 - y * u 0 0).
    by move: (u 0 0) (v 0 0) => u0 v0; mc_ring R.
  by rewrite Eu Ev !mulr0 subr0.
have -> : y = 0 by apply/eqP; move/eqP: e2; rewrite mulf_eq0 (gt_eqF pos) orbF.
have -> : x = r by apply/esym/eqP; move/eqP: e1; rewrite mulf_eq0 (gt_eqF pos) orbF subr_eq0.
case: dt hG => [h _|_]; last by rewrite /r oppr_lt0 lt_neqAle a0 andbT (eq_sym 0).
rewrite expr0n addr0 /r sqrrN expr_lt1 //.
Qed.

(* so that stable=True can return an integrator, which is not stable *)
Theorem C60_first_order_refuted ee expm (w : draws R) st p m : fit w 1 p m -> ra w = azeros 1 1 ->
  exists2 G, random_state_model ee expm w 1 None st = Ok G & is_pole (amx 1 1 (sa G)) 0 0.
Proof.
move=> [[b1 b2] [c1 c2] [d1 d2] _ _] a0.
exists (St (aneg (ra w)) (rb w) (rc w) (rd w) false None).
  by rewrite /= mkS_ok //= ?a0 ?b1 ?b2 ?c1 ?c2 ?d1 ?d2.
exists 1, 0; split; first by rewrite oner_eq0.
  rewrite /= a0; apply/matrixP => i j; rewrite !mxE big1 => [|k _]; first by rewrite mul0r mulr0 oppr0 addr0.
  by rewrite !mxE !ord1 /aneg /amap get_mk // get_azeros oppr0 mul0r.
by rewrite mulmx0 !scaler0 scale0r addr0.
Qed.
End Props.
Print Assumptions C60_returns.
Print Assumptions C60_continuous.
Print Assumptions C60_discrete.
Print Assumptions C60_first_order_partial.
Print Assumptions C60_first_order_refuted.

Local Notation Q := rat_realFieldType.
(* draws for a three-state model: a complex pair, then a real pole; T is a permutation *)
Definition exw : draws Q := Draws (fun k => if k is 0 then 1 else 0)%N (fun _ => 1) (fun _ => 0) (fun _ => 0) 1 0
  (aeye 1) (of_rows [:: [:: 1; 2%:R]; [:: 0; 1]; [:: 1; 1]]) (of_rows [:: [:: 1; 0; 3%:R]]) (of_rows [:: [:: 0; 1]])
  (of_rows [:: [:: 0; 1; 0]; [:: 0; 0; 1]; [:: 1; 0; 0]]).
Definition exee (x : Q) : Q := x ^+ 2 + 2%:R.
Definition exexpm (M : arr Q) : arr Q := ascale 2%:R^-1 (aeye (nr M)).

Lemma exexpm_ok n (M : arr Q) : shp M = (n, n) ->
  shp (exexpm M) = (n, n) /\ contraction (amx n n (exexpm M)).
Proof.
move=> [e1 e2]; rewrite /exexpm e1; split=> // v nz.
rewrite amxE mxof_scale // mxof_eye -scalemxAl mul1mx.
have -> : norm2 (2%:R^-1 *: v) = 4%:R^-1 * norm2 v.
  rewrite /norm2 mulr_sumr; apply: eq_bigr => i _; rewrite mxE exprMn; by congr (_ * _).
by rewrite gtr_pmull ?norm2_gt0.
Qed.

Example C60_ex : [/\ fit exw 3 1 2, forall x, 0 < exee x, forall k, (ty exw k < 2)%N,
  forall M : arr Q, shp M = (3, 3)%N -> dissipative (amx 3 3 M) ->
     shp (exexpm M) = (3, 3)%N /\ contraction (amx 3 3 (exexpm M)) &
  (if random_state_model exee exexpm exw 3 None true is Ok G then
     aeq (sa G) (of_rows [:: [:: - 2%:R; 0; 0]; [:: 0; - 2%:R; 2%:R]; [:: 0; - 2%:R; - 2%:R]]) else false)
  /\ is_ok (random_state_model exee exexpm exw 3 (Some 1) true)].
Proof.
split.
- by split=> //; vm_compute.
- by move=> x; rewrite /exee; apply: ltr_paddl => //; exact: sqr_ge0.
- by case.
- by move=> M h _; apply: exexpm_ok.
- by split; vm_compute.
Qed.
