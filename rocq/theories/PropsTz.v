(* Property C77: transmission_zeros.  sysmx is Rosenbrock's system matrix [A - s, B; C, D], zero_at the points where it
   loses rank, tz_exact what the svds and qz are assumed to deliver (SpecTz.v). *)
From mathcomp Require Import all_ssreflect all_algebra zify.
From Coq Require Import String.
From Verif Require Import Base BaseTheory Spec ModelState Denote StateTheory StateProps ModelAux AuxTheory ModelSim SpecSim SimTheory ModelKalman KalmanTheory
  ModelTransfer DenoteT ModelMin SpecMin StairTheory ModelTz SpecTz TzTheory TzFinal.

Set Implicit Arguments.
Unset Strict Implicit.
Unset Printing Implicit Defensive.

Import Order.TTheory GRing.Theory Num.Theory.
Local Open Scope ring_scope.

Lemma zero_of n (L : fieldType) (F : 'M[L]_n) zs d s : d != 0 -> \det (F - s%:M) = d * \prod_(z <- zs) (s - z) -> (s \in zs) = (\rank (F - s%:M)%R < n)%N.
Proof.
move=> d0 h; rewrite ltn_neqAle rank_leq_row andbT -/(row_free _) row_free_unit unitmxE unitfE negbK h mulf_eq0 (negbTE d0) /=.
rewrite (_ : \prod_(z <- zs) (s - z) = (\prod_(z <- zs) ('X - z%:P)).[s]); last first.
  by rewrite horner_prod; apply: eq_bigr => z _; rewrite hornerXsubC.
by rewrite -[_ == 0]/(root _ s) root_prod_XsubC.
Qed.

Section Zeros.
Variables (R : realFieldType) (L : fieldType) (f : {rmorphism R -> L}).
Variable npsvd : arr R -> arr R * seq R * arr R.
Variable spac : R.
Variable meps : arr R -> arr R -> arr R -> R.
Variable qz : arr R -> arr R -> seq (L * L).
Hypothesis sp0 : 0 <= spac.
Variables (n m p : nat) (A B C D : arr R).
Hypotheses (sA : shp A = (n, n)) (sB : shp B = (n, m)) (sC : shp C = (p, n)) (sD : shp D = (p, m)).
Hypotheses (wA : wfa A) (wB : wfa B) (wC : wfa C) (wD : wfa D).
Hypothesis (ex : tz_exact f npsvd spac meps qz A B C D).
Let S (s : L) : 'M[L]_(n + p, n + m) := sysmx (mxof f n n A) (mxof f n m B) (mxof f p n C) (mxof f p m D) s.
Let Z (s : L) : Prop := zero_at (mxof f n n A) (mxof f n m B) (mxof f p n C) (mxof f p m D) s.

Lemma zf_zero zs : zf f n m p A B C D zs -> forall s, s \in zs <-> Z s.
Proof.
move=> [k [F [rk [d [sz d0 hd hr _]]]]] s; rewrite (zero_of d0 (hd s)) /Z /zero_at -/(S s).
have hr' t : \rank (S t) = (\rank (F - t%:M)%R + rk)%N := hr t.
split=> [h|[t]]; last by rewrite -!/(S _) !hr' ltn_add2r => h; apply: leq_trans h (rank_leq_row _).
have [t ht] : exists t, t \notin zs.
  have [/hasP[x _ hx]|/hasPn h1] := boolP (has (fun x => x \notin zs) [seq f i%:R | i <- iota 0 (size zs).+1]); first by exists x.
  have u : uniq [seq f i%:R | i <- iota 0 (size zs).+1].
    by rewrite map_inj_in_uniq ?iota_uniq // => i j _ _ /fmorph_inj /eqP; rewrite eqr_nat => /eqP.
  by have := uniq_leq_size u (fun x hx => negbNE (h1 x hx)); rewrite size_map size_iota ltnn.
exists t; rewrite -!/(S _) !hr' ltn_add2r; apply: leq_trans h _.
by move: ht; rewrite (zero_of d0 (hd t)) -leqNgt.
Qed.

Lemma aany_mx a b (M : arr R) : wfa M -> shp M = (a, b) -> mxof f a b M <> 0 -> aany M.
Proof.
move=> w [r c] h; case E: (aany M) => //; case: h; rewrite (aany_false w E) r c; exact: mxof_zeros.
Qed.

(* the zeros returned are the points where the system matrix loses rank, none at infinity: B and C are not 0, the
   transfer matrix is not identically 0 (the rank exceeds n somewhere) and the pencil handed to qz is regular *)
Theorem C77_zeros : mxof f n m B <> 0 -> mxof f p n C <> 0 -> (exists t, (n < \rank (S t))%N) ->
  at_final npsvd spac meps (final_regular f npsvd) A B C D ->
  exists zs, transmission_zeros npsvd spac meps qz A B C D = Ok [seq Some z | z <- zs] /\ forall s, s \in zs <-> Z s.
Proof.
move=> /(aany_mx wB sB) b0 /(aany_mx wC sC) c0 ht reg.
have [zs [E h]] := tzP sp0 wA wB wC wD sA sB sC sD b0 c0 ex ht (or_introl reg).
by exists zs; split=> //; apply: zf_zero.
Qed.

(* with full normal column rank that pencil is regular *)
Theorem C77_full_column : mxof f n m B <> 0 -> mxof f p n C <> 0 -> (exists t, \rank (S t) = (n + m)%N) ->
  exists zs, transmission_zeros npsvd spac meps qz A B C D = Ok [seq Some z | z <- zs] /\ forall s, s \in zs <-> Z s.
Proof.
move=> /(aany_mx wB sB) b0 /(aany_mx wC sC) c0 ht.
have m0 : (0 < m)%N by case: (sB) => _ <-; case: (aany_dims b0).
have ht' : exists t, (n < \rank (S t))%N by case: ht => t ht; exists t; rewrite ht -[X in (X < _)%N]addn0 ltn_add2l.
have [zs [E h]] := tzP sp0 wA wB wC wD sA sB sC sD b0 c0 ex ht' (or_intror ht).
by exists zs; split=> //; apply: zf_zero.
Qed.

Lemma squareP : mxof f n m B <> 0 -> mxof f p n C <> 0 -> p = m -> (exists t, \rank (S t) = (n + m)%N) ->
  exists zs c, [/\ transmission_zeros npsvd spac meps qz A B C D = Ok [seq Some z | z <- zs], c != 0 &
    forall s, gdet (S s) = c * \prod_(z <- zs) (s - z)].
Proof.
move=> /(aany_mx wB sB) b0 /(aany_mx wC sC) c0 pm ht.
have m0 : (0 < m)%N by case: (sB) => _ <-; case: (aany_dims b0).
have ht' : exists t, (n < \rank (S t))%N by case: ht => t ht; exists t; rewrite ht -[X in (X < _)%N]addn0 ltn_add2l.
have [zs [E [k [F [rk [d [sz d0 hd hr /(_ pm ht)[c [c0' hc]]]]]]]]] := tzP sp0 wA wB wC wD sA sB sC sD b0 c0 ex ht' (or_intror ht).
exists zs, (c * d); split=> //; first by rewrite mulf_neq0.
by move=> s; rewrite -mulrA -hd -hc.
Qed.

(* B = 0 or C = 0: no zeros are returned *)
Theorem C77_trivial : (0 < p)%N -> (0 < m)%N -> mxof f n m B = 0 \/ mxof f p n C = 0 ->
  transmission_zeros npsvd spac meps qz A B C D = Ok [::].
Proof.
move=> p0 m0 h; have [u [sg [v ER]]] := rankP sp0 wD sD p0 m0 ex.1.
rewrite /transmission_zeros ER; cbn [bind].
have no a b (M : arr R) : shp M = (a, b) -> mxof f a b M = 0 -> ~~ aany M.
  move=> [r c] /matrixP e; apply/negP => /aanyP[i [j [hi hj]]]; rewrite r c in hi hj.
  by have := e (Ordinal hi) (Ordinal hj); rewrite !mxE /= => /eqP; rewrite fmorph_eq0 => ->.
by case: h => h; [rewrite (no _ _ _ sB h) | rewrite (no _ _ _ sC h) orbT].
Qed.
End Zeros.

(* as many outputs as inputs and an invertible transfer matrix: the zeros are the roots of det [A - s, B; C, D], with
   multiplicity *)
Theorem C77_square (R : realFieldType) (L : fieldType) (f : {rmorphism R -> L}) npsvd (spac : R) meps qz n m (A B C D : arr R)
    (S := fun s => sysmx (mxof f n n A) (mxof f n m B) (mxof f m n C) (mxof f m m D) s) :
  0 <= spac -> shp A = (n, n) -> shp B = (n, m) -> shp C = (m, n) -> shp D = (m, m) -> wfa A -> wfa B -> wfa C -> wfa D ->
  tz_exact f npsvd spac meps qz A B C D -> mxof f n m B <> 0 -> mxof f m n C <> 0 -> (exists t, \det (S t) != 0) ->
  exists zs c, [/\ transmission_zeros npsvd spac meps qz A B C D = Ok [seq Some z | z <- zs], c != 0 &
    forall s, \det (S s) = c * \prod_(z <- zs) (s - z)].
Proof.
move=> sp0 sA sB sC sD wA wB wC wD ex b0 c0 [t ht].
have rt : \rank (S t) = (n + m)%N by apply/eqP; rewrite -/(row_free _) row_free_unit unitmxE unitfE.
have [zs [c [E c1 h]]] := squareP sp0 sA sB sC sD wA wB wC wD ex b0 c0 erefl (ex_intro _ t rt).
by exists zs, c; split=> // s; rewrite -h gdetE.
Qed.
Print Assumptions C77_zeros.
Print Assumptions C77_full_column.
Print Assumptions C77_square.
Print Assumptions C77_trivial.
