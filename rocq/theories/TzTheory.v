(* The deflation loop of _tzeros_reduce: rank and determinant of the system pencil. *)
From mathcomp Require Import all_ssreflect all_algebra zify.
From Coq Require Import String.
From Verif Require Import Base BaseTheory Spec ModelState Denote StateTheory StateProps ModelAux AuxTheory ModelSim SpecSim SimTheory ModelKalman KalmanTheory
  ModelFreq FreqTheory ModelLyap SpecLyap LyapTheory TransferTheory ModelMin SpecMin StairTheory ModelTz SpecTz.

Set Implicit Arguments.
Unset Strict Implicit.
Unset Printing Implicit Defensive.

Import Order.TTheory GRing.Theory Num.Theory.
Local Open Scope ring_scope.

Section Gen.
Variable L : fieldType.

(* matrices given by functions on natural numbers *)
Definition mxn a b (g : nat -> nat -> L) : 'M[L]_(a, b) := \matrix_(i, j) g i j.

Lemma mxn_ext a b g h : (forall i j, (i < a)%N -> (j < b)%N -> g i j = h i j) -> mxn a b g = mxn a b h.
Proof. by move=> e; apply/matrixP => i j; rewrite !mxE e. Qed.

Lemma mxn_block a1 a2 b1 b2 g : mxn (a1 + a2) (b1 + b2) g =
  block_mx (mxn a1 b1 g) (mxn a1 b2 (fun i j => g i (b1 + j)%N))
           (mxn a2 b1 (fun i j => g (a1 + i)%N j)) (mxn a2 b2 (fun i j => g (a1 + i)%N (b1 + j)%N)).
Proof.
apply/matrixP => i j; rewrite mxE; case: (splitP i) => a ea; case: (splitP j) => b eb.
- have -> : i = lshift a2 a by apply: val_inj. have -> : j = lshift b2 b by apply: val_inj.
  by rewrite block_mxEul mxE.
- have -> : i = lshift a2 a by apply: val_inj. have -> : j = rshift b1 b by apply: val_inj.
  by rewrite block_mxEur mxE.
- have -> : i = rshift a1 a by apply: val_inj. have -> : j = lshift b2 b by apply: val_inj.
  by rewrite block_mxEdl mxE.
have -> : i = rshift a1 a by apply: val_inj. have -> : j = rshift b1 b by apply: val_inj.
by rewrite block_mxEdr mxE.
Qed.

(* the determinant of a matrix that happens to be square *)
Definition gdet a b (M : 'M[L]_(a, b)) : L := if @eqP _ a b is ReflectT e then \det (castmx (erefl, esym e) M) else 0.
Lemma gdetE a (M : 'M[L]_a) : gdet M = \det M.
Proof. by rewrite /gdet; case: eqP => // e; rewrite castmx_id. Qed.
Lemma gdetM a b (U : 'M[L]_a) (M : 'M[L]_(a, b)) (V : 'M[L]_b) : a = b -> gdet (U *m M *m V) = \det U * gdet M * \det V.
Proof. by move=> e; subst b; rewrite !gdetE !det_mulmx. Qed.
Lemma gdet_ublock a b c d (X : 'M[L]_(a, b)) Y (Z : 'M[L]_(c, d)) : a = b -> c = d -> gdet (block_mx X Y 0 Z) = gdet X * gdet Z.
Proof. by move=> e1 e2; subst b d; rewrite !gdetE det_ublock. Qed.

Lemma rank_ublock a b c d (X : 'M[L]_(a, b)) Y (Z : 'M[L]_(c, d)) : \rank Z = d -> \rank (block_mx X Y 0 Z) = (\rank X + d)%N.
Proof.
move=> rZ; have /row_fullP[W hW] : row_full Z by rewrite /row_full rZ.
have -> : block_mx X Y 0 Z = block_mx 1%:M (Y *m W) 0 1%:M *m block_mx X 0 0 Z.
  by rewrite mulmx_block !mulmx0 !mul0mx !mul1mx !addr0 !add0r -mulmxA hW mulmx1.
rewrite (eqmxMfull (block_mx X 0 0 Z)) ?rank_diag_block_mx ?rZ //.
by rewrite row_full_unit unitmxE det_ublock !det1 mulr1 unitr1.
Qed.

Lemma core_rank N tau M rho g : (forall i j, (i < tau)%N -> (j < M)%N -> g (N + i)%N j = 0) ->
  \rank (mxn tau rho (fun i j => g (N + i)%N (M + j)%N)) = rho ->
  \rank (mxn (N + tau) (M + rho) g) = (\rank (mxn N M g) + rho)%N.
Proof.
move=> z r; rewrite mxn_block (_ : mxn tau M _ = 0) ?rank_ublock //.
by apply/matrixP => i j; rewrite !mxE z.
Qed.
Lemma core_det N tau M rho g : (forall i j, (i < tau)%N -> (j < M)%N -> g (N + i)%N j = 0) -> N = M -> tau = rho ->
  gdet (mxn (N + tau) (M + rho) g) = gdet (mxn N M g) * gdet (mxn tau rho (fun i j => g (N + i)%N (M + j)%N)).
Proof.
move=> z e1 e2; rewrite mxn_block (_ : mxn tau M _ = 0) ?gdet_ublock //.
by apply/matrixP => i j; rewrite !mxE z.
Qed.
End Gen.

Section Pen.
Variables (R : realFieldType) (L : fieldType) (f : {rmorphism R -> L}).
Implicit Types (A B C D q : arr R).
Local Notation mx := (mxof [rmorphism of @idfun R]).

(* the pencil [B, A - s; D, C] *)
Definition pg n m A B C D (s : L) (i j : nat) : L :=
  if (i < n)%N then (if (j < m)%N then f (get B i j) else f (get A i (j - m)) - s *+ (i == j - m)%N)
  else (if (j < m)%N then f (get D (i - n) j) else f (get C (i - n) (j - m))).
Definition pen n m p A B C D s : 'M[L]_(n + p, m + n) := mxn (n + p) (m + n) (pg n m A B C D s).

Lemma penE n m p A B C D s :
  pen n m p A B C D s = block_mx (mxof f n m B) (mxof f n n A - s%:M) (mxof f p m D) (mxof f p n C).
Proof.
rewrite /pen mxn_block; congr block_mx; apply/matrixP => i j; rewrite !mxE /pg ?ltn_ord // ?(ltnNge (_ + _)) ?leq_addr /= ?addKn //.
Qed.

Lemma pen_trans n m p A B C D q qd s : shp A = (n, n) -> shp B = (n, m) -> shp C = (p, n) -> shp D = (p, m) ->
  shp q = (n, n) -> shp qd = (p, p) -> mx n n (aT q) *m mx n n q = 1%:M ->
  block_mx (mxof f n n (aT q)) 0 0 (mxof f p p (aT qd)) *m pen n m p A B C D s *m block_mx 1%:M 0 0 (mxof f n n q) =
  pen n m p (amul (amul (aT q) A) q) (amul (aT q) B) (amul (amul (aT qd) C) q) (amul (aT qd) D) s.
Proof.
move=> [rA cA] [rB cB] [rC cC] [rD cD] [rq cq] [rd cd] o.
rewrite !penE !mulmx_block !mulmx0 !mul0mx !mulmx1 !addr0 !add0r.
rewrite (@mxof_mul _ _ _ n n m) ?nr_mk ?nc_mk // (@mxof_mul _ _ _ p p m) ?nr_mk ?nc_mk //.
rewrite (@mxof_mul _ _ _ p n n) ?nr_mk ?nc_mk // (@mxof_mul _ _ _ p p n) ?nr_mk ?nc_mk //.
rewrite (@mxof_mul _ _ _ n n n (amul (aT q) A)) ?nr_mk ?nc_mk // (@mxof_mul _ _ _ n n n (aT q)) ?nr_mk ?nc_mk //.
congr (block_mx _ _ _ _).
have oL : mxof f n n (aT q) *m mxof f n n q = 1%:M by rewrite !(mx_map f) -map_mxM o map_mx1.
by rewrite mulmxBr mulmxBl scalar_mxC -(mulmxA s%:M) oL mulmx1.
Qed.

(* the entries of the arrays of the next pass *)
Lemma tz_nextP n m sigma nu rho q A B Cbd rD A' B' C' D' : (n = nu + rho)%N -> shp A = (n, n) -> shp B = (n, m) -> shp q = (n, n) ->
  (sigma <= nr Cbd)%N -> nc Cbd = n ->
  tz_next q A B (asubm Cbd 0 sigma 0 n) rD sigma nu = (A', B', C', D') ->
  let X := amul (amul (aT q) A) q in let Y := amul (aT q) B in
  [/\ [/\ shp A' = (nu, nu), shp B' = (nu, m), shp C' = (rho + sigma, nu)%N & shp D' = (rho + sigma, m)%N],
    forall i j, (i < nu)%N -> (j < nu)%N -> get A' i j = get X i j, forall i j, (i < nu)%N -> (j < m)%N -> get B' i j = get Y i j,
    forall i j, (i < rho + sigma)%N -> (j < nu)%N -> get C' i j = if (i < rho)%N then get X (nu + i) j else get (amul Cbd q) (i - rho) j &
    forall i j, (i < rho + sigma)%N -> (j < m)%N -> get D' i j = if (i < rho)%N then get Y (nu + i) j else get rD (i - rho) j].
Proof.
move=> en [rA cA] [rB cB] [rq cq] rC cC; rewrite /tz_next rA cB.
have ns : (n + sigma - nu = rho + sigma)%N by rewrite en; clear; lia.
have nn : (n - nu = rho)%N by rewrite en addKn.
case: ltnP => s0.
  set AC := amul (avcat _ _) q; set BD := avcat _ (asubm rD _ _ _ _); case=> <- <- <- <-; set X := amul (amul (aT q) A) q; set Y := amul (aT q) B.
  have gAC i j : (i < n + sigma)%N -> (j < n)%N -> get AC i j = if (i < n)%N then get X i j else get (amul Cbd q) (i - n) j.
    move=> hi hj; rewrite /AC get_mul /= ?cq // ?subn0 ?cA //.
    case: ltnP => hin.
      rewrite /X get_mul /= ?cq ?cA // !sumNE; apply: eq_bigr => k _; rewrite get_mk /= ?subn0 ?cA ?cq //.
      by rewrite hin.
    have h3 : (i - n < sigma)%N by move: hi hin; clear; lia.
    rewrite get_mul ?cq ?cC // ?sumNE; last exact: leq_trans h3 rC.
    apply: eq_bigr => k _; rewrite get_mk /= ?subn0 ?cA ?cq // ltnNge hin /=.
    by rewrite get_subm ?subn0 ?add0n.
  have gBD i j : (i < n + sigma)%N -> (j < m)%N -> get BD i j = if (i < n)%N then get Y i j else get rD (i - n) j.
    move=> hi hj; rewrite /BD get_mk /= ?subn0 ?cq ?cB //; case: ltnP => hin //.
    by rewrite get_subm ?subn0 ?add0n //; move: hi hin; clear; lia.
  split.
  - by rewrite /shp /= !subn0 ns.
  - by move=> i j hi hj; rewrite get_subm ?subn0 // !add0n gAC; [rewrite (_ : (i < n)%N) // | |]; move: hi hj; rewrite en; clear; lia.
  - by move=> i j hi hj; rewrite get_subm ?subn0 // !add0n gBD //; [rewrite (_ : (i < n)%N) // |]; move: hi; rewrite en; clear; lia.
  - move=> i j hi hj; rewrite get_subm ?subn0 ?ns // add0n gAC; try by move: hi hj; rewrite en; clear; lia.
    by rewrite {1}en ltn_add2l en subnDl.
  move=> i j hi hj; rewrite get_subm ?subn0 ?ns // add0n gBD //; last by move: hi; rewrite en; clear; lia.
  by rewrite {1}en ltn_add2l en subnDl.
have -> : sigma = 0%N by move: s0; clear; lia.
set S := amul _ (ahcat _ _); case=> <- <- <- <-; set X := amul (amul (aT q) A) q; set Y := amul (aT q) B.
have gX i j : (i < n)%N -> (j < n)%N -> get S i j = get X i j.
  move=> hi hj; rewrite /X -amulA /= ?rq ?rA ?cA // /S !get_mul /= ?cq ?cB //; last by move: hj; clear; lia.
  rewrite !sumNE; apply: eq_bigr => k _; congr (_ * _); have hk : (k < n)%N by rewrite -[n]rq.
  by rewrite get_mk /= ?rA ?cq ?cB ?hj //; move: hj; clear; lia.
have gY i j : (i < n)%N -> (j < m)%N -> get S i (n + j) = get Y i j.
  move=> hi hj; rewrite /Y /S !get_mul /= ?cq ?cB ?ltn_add2l // !sumNE; apply: eq_bigr => k _; congr (_ * _).
  have hk : (k < n)%N by rewrite -[n]rq.
  by rewrite get_mk /= ?rA ?cq ?cB ?ltn_add2l // ltnNge leq_addr /= addKn.
split.
- by rewrite /shp /= !subn0 addKn nn addn0.
- by move=> i j hi hj; rewrite get_subm ?subn0 // !add0n gX //; move: hi hj; rewrite en; clear; lia.
- by move=> i j hi hj; rewrite get_subm ?subn0 ?addKn // !add0n gY //; move: hi; rewrite en; clear; lia.
- move=> i j; rewrite addn0 => hi hj; rewrite hi get_subm ?subn0 ?nn // add0n gX //; move: hi hj; rewrite en; clear; lia.
move=> i j; rewrite addn0 => hi hj; rewrite hi get_subm ?addKn ?nn // gY //; move: hi; rewrite en; clear; lia.
Qed.

Lemma unit_blk n p (X : 'M[L]_n) (Y : 'M[L]_p) : X \in unitmx -> Y \in unitmx -> block_mx X 0 0 Y \in unitmx.
Proof. by rewrite !unitmxE det_ublock unitrM => -> ->. Qed.

(* one pass: rho states and tau outputs are removed *)
Lemma deflate n m p sigma tau nu rho q qd A B C D rD A' B' C' D' : (n = nu + rho)%N -> (p = sigma + tau)%N ->
  shp A = (n, n) -> shp B = (n, m) -> shp C = (p, n) -> shp D = (p, m) -> shp q = (n, n) -> shp qd = (p, p) ->
  mx n n (aT q) *m mx n n q = 1%:M -> mx p p (aT qd) *m mx p p qd = 1%:M ->
  (forall i j, (i < tau)%N -> (j < m)%N -> get (amul (aT qd) D) (sigma + i) j = 0) ->
  (forall i j, (i < sigma)%N -> (j < m)%N -> get rD i j = get (amul (aT qd) D) i j) ->
  (forall i j, (i < tau)%N -> (j < nu)%N -> get (amul (amul (aT qd) C) q) (sigma + i) j = 0) ->
  \rank (\matrix_(i < tau, j < rho) get (amul (amul (aT qd) C) q) (sigma + i) (nu + j)) = rho ->
  tz_next q A B (asubm (amul (aT qd) C) 0 sigma 0 n) rD sigma nu = (A', B', C', D') ->
  (forall s, \rank (pen n m p A B C D s) = (\rank (pen nu m (rho + sigma) A' B' C' D' s) + rho)%N) /\
  (p = m -> tau = rho -> exists c, c != 0 /\ forall s, gdet (pen n m p A B C D s) = c * gdet (pen nu m (rho + sigma) A' B' C' D' s)).
Proof.
move=> en ep sA sB sC sD sq sd oq od hD hrD hC hZ hN.
have [|| [sA' sB' sC' sD'] gA gB gC gD] := tz_nextP en sA sB sq _ _ hN; rewrite ?nr_mk ?nc_mk.
  by case: sd => _ ->; rewrite ep leq_addr.
  by case: sC.
set Ah := amul (amul (aT q) A) q in gA gC *; set Bh := amul (aT q) B in gB gD *.
set Ch := amul (amul (aT qd) C) q in hC hZ gC *; set Dh := amul (aT qd) D in hD hrD *.
have uq : mxof f n n q \in unitmx by have [_] := mulmx1_unit oq; rewrite (mx_map f) map_unitmx.
have uqT : mxof f n n (aT q) \in unitmx by have [] := mulmx1_unit oq; rewrite (mx_map f) map_unitmx.
have udT : mxof f p p (aT qd) \in unitmx by have [] := mulmx1_unit od; rewrite (mx_map f) map_unitmx.
have e1 : (n + p = nu + (rho + sigma) + tau)%N by rewrite en ep; clear; lia.
have e2 : (m + n = m + nu + rho)%N by rewrite en; clear; lia.
have T s := pen_trans s sA sB sC sD sq sd oq; rewrite -/Ah -/Bh -/Ch -/Dh in T.
set U := block_mx (mxof f n n (aT q)) _ _ _ in T; set W := block_mx _ _ _ _ in T.
have uU : U \in unitmx by apply: unit_blk.
have uW : W \in unitmx by apply: unit_blk => //; apply: unitmx1.
have z s i j : (i < tau)%N -> (j < m + nu)%N -> pg n m Ah Bh Ch Dh s (nu + (rho + sigma) + i) j = 0.
  move=> hi hj; rewrite /pg; have -> : (nu + (rho + sigma) + i = n + (sigma + i))%N by rewrite en; clear; lia.
  rewrite ltnNge leq_addr /= addKn; case: ltnP => hm; first by rewrite hD // rmorph0.
  by rewrite hC ?rmorph0 //; move: hj hm; clear; lia.
have Z s : mxn tau rho (fun i j => pg n m Ah Bh Ch Dh s (nu + (rho + sigma) + i) (m + nu + j)) =
  map_mx f (\matrix_(i < tau, j < rho) get Ch (sigma + i) (nu + j)).
  apply/matrixP => i j; rewrite !mxE /pg.
  have -> : (nu + (rho + sigma) + i = n + (sigma + i))%N by rewrite en; clear; lia.
  by rewrite ltnNge leq_addr /= addKn -addnA ltnNge leq_addr /= addKn.
have P s : mxn (nu + (rho + sigma)) (m + nu) (pg n m Ah Bh Ch Dh s) = pen nu m (rho + sigma) A' B' C' D' s.
  apply: mxn_ext => i j hi hj; rewrite /pg; have [hinu|hinu] := ltnP i nu.
    have -> : (i < n)%N by move: hinu; rewrite en; clear; lia.
    case: ltnP => hm; first by rewrite gB.
    by rewrite gA //; move: hj hm; clear; lia.
  have hi' : (i - nu < rho + sigma)%N by move: hi hinu; clear; lia.
  case: (ltnP j m) => hm.
    rewrite gD // subnKC //; have -> : (i - nu < rho = (i < n))%N by rewrite en; move: hinu; clear; lia.
    case: ltnP => hin //; rewrite -hrD // ?subnBA; first by congr (f (get _ _ _)); rewrite en; move: hinu hin; rewrite en; clear; lia.
    by move: hi hin; rewrite en; clear; lia.
  have hj' : (j - m < nu)%N by move: hj hm; clear; lia.
  rewrite gC // subnKC //; have -> : (i - nu < rho = (i < n))%N by rewrite en; move: hinu; clear; lia.
  case: ltnP => hin.
    by have -> : (i == j - m)%N = false; [move: hinu hj'; clear; lia | rewrite mulr0n subr0].
  by congr (f (get _ _ _)); move: hinu hin; rewrite en; clear; lia.
have Rk s : \rank (pen n m p A B C D s) = (\rank (pen nu m (rho + sigma) A' B' C' D' s) + rho)%N.
  transitivity (\rank (U *m pen n m p A B C D s *m W)).
    by rewrite mxrankMfree ?row_free_unit // (eqmxMfull (pen n m p A B C D s)) ?row_full_unit.
  rewrite T [in LHS]/pen e1 e2 core_rank; [by rewrite P | by move=> i j hi hj; apply: z |].
  by rewrite Z mxrank_map.
split=> // pm tr; subst tau.
have e0 : (n + p = m + n)%N by rewrite pm addnC.
exists ((\det U)^-1 * (\det W)^-1 * gdet (map_mx f (\matrix_(i < rho, j < rho) get Ch (sigma + i) (nu + j)))); split.
  rewrite !mulf_neq0 ?invr_eq0 //; try by rewrite -unitfE -unitmxE.
  rewrite gdetE det_map_mx fmorph_eq0 -unitfE -unitmxE -row_free_unit /row_free hZ //.
have dU : \det U != 0 by rewrite -unitfE -unitmxE.
have dW : \det W != 0 by rewrite -unitfE -unitmxE.
move=> s; have := gdetM U (pen n m p A B C D s) W e0; rewrite T.
have -> : gdet (pen n m p Ah Bh Ch Dh s) = gdet (mxn (nu + (rho + sigma) + rho) (m + nu + rho) (pg n m Ah Bh Ch Dh s)).
  by rewrite /pen e1 e2.
rewrite core_det //; [rewrite P Z => E | by move=> i j hi hj; apply: z | by move: e0 e1 e2; clear; lia].
apply: (mulfI dU); apply: (mulIf dW); rewrite -E; set x := gdet _; set y := gdet _.
by rewrite !mulrA mulfV // mul1r [RHS]mulrC -!mulrA mulVKf // mulrC.
Qed.
End Pen.
Section Svd.
Variable R : realFieldType.
Variable npsvd : arr R -> arr R * seq R * arr R.
Variable spac : R.
Local Notation mx := (mxof [rmorphism of @idfun R]).
Implicit Types (A B C D M q v : arr R).

Lemma mxT m n M : shp M = (m, n) -> mx n m (aT M) = (mx m n M)^T.
Proof. by case=> r c; apply: mxof_T. Qed.

Lemma hsvd tol M q s v r : wfa M -> 0 <= tol -> svd_at npsvd tol M -> haroldsvd npsvd spac M (Some tol) = Ok (q, s, v, r) ->
  [/\ shp q = (nr M, nr M), mx (nr M) (nr M) (aT q) *m mx (nr M) (nr M) q = 1%:M, \rank (mx (nr M) (nc M) M) = r,
    forall i j, (r <= i < nr M)%N -> (j < nc M)%N -> get (amul (aT q) M) i j = 0 &
    forall i j, (i < nr M)%N -> (j < nc M)%N -> get (amul s v) i j = get (amul (aT q) M) i j].
Proof.
move=> w t0 [ok ex]; rewrite /haroldsvd; case E: (npsvd M) => [[u s0] v0] /= -[<- <- <- <-]; rewrite E in ok ex.
have [hU hV hM] := svd_mx w ok; have [[wu su wv sv] _ _ [ss pos so] _] := ok.
have gU i j (hi : (i < nr M)%N) (hj : (j < nc M)%N) : get (amul (aT u) M) i j = ((mx (nr M) (nr M) u)^T *m mx (nr M) (nc M) M) (Ordinal hi) (Ordinal hj).
  by rewrite -(mxT su) -(@mxof_mul _ _ [rmorphism of @idfun R]) ?mxE //=; case: su.
split=> //.
- by rewrite (mxT su).
- by rewrite (svd_rank hU hV hM ss so t0 ex).
- by move=> i j /andP[h hi] hj; rewrite (gU i j hi hj); apply: (svd_rows hU hM so ex).
move=> i j hi hj; rewrite (gU i j hi hj) hM mulmxA hU mul1mx; case: sv => rv cv.
rewrite get_mul /= ?cv // sumNE mxE; apply: eq_bigr => k _; rewrite !mxE get_mk //.
Qed.
End Svd.

Section Step.
Variables (R : realFieldType) (L : fieldType) (f : {rmorphism R -> L}).
Variable npsvd : arr R -> arr R * seq R * arr R.
Variable spac : R.
Local Notation mx := (mxof [rmorphism of @idfun R]).
Implicit Types (A B C D q : arr R).

(* the second system is a deflation of the first: the same number m of inputs, the pencil loses as much rank as states
   are removed, and keeps its determinant if it stays square *)
Definition deflated m n p A B C D n' p' A' B' C' D' : Prop :=
  [/\ (n' <= n)%N /\ (p' <= p)%N, [/\ shp A' = (n', n'), shp B' = (n', m), shp C' = (p', n') & shp D' = (p', m)],
    [/\ wfa A', wfa B', wfa C' & wfa D'],
    (forall s, \rank (pen f n m p A B C D s) = (\rank (pen f n' m p' A' B' C' D' s) + (n - n'))%N) /\
    (p = m -> p' = m -> exists c, c != 0 /\ forall s, gdet (pen f n m p A B C D s) = c * gdet (pen f n' m p' A' B' C' D' s)) &
    (mx n m B <= mx p m D)%MS -> (mx n' m B' <= mx p' m D')%MS].

Lemma deflated_refl m n p A B C D : shp A = (n, n) -> shp B = (n, m) -> shp C = (p, n) -> shp D = (p, m) ->
  wfa A -> wfa B -> wfa C -> wfa D -> deflated m n p A B C D n p A B C D.
Proof.
move=> *; split=> //; split=> [s|_ _]; first by rewrite subnn addn0.
by exists 1; split=> [|s]; rewrite ?oner_neq0 ?mul1r.
Qed.

Lemma deflated_trans m n p A B C D n1 p1 A1 B1 C1 D1 n2 p2 A2 B2 C2 D2 : deflated m n p A B C D n1 p1 A1 B1 C1 D1 ->
  deflated m n1 p1 A1 B1 C1 D1 n2 p2 A2 B2 C2 D2 -> deflated m n p A B C D n2 p2 A2 B2 C2 D2.
Proof.
move=> [[n1l p1l] s1 w1 [r1 d1] b1] [[n2l p2l] s2 w2 [r2 d2] b2]; split=> //.
- by split; [apply: leq_trans n2l n1l | apply: leq_trans p2l p1l].
- split=> [s|pm p2m].
    by rewrite r1 r2 -addnA; congr (_ + _)%N; move: n1l n2l; clear; lia.
  have p1m : p1 = m by move: p1l p2l; rewrite pm p2m; clear; lia.
  have [c [c0 hc]] := d1 pm p1m; have [d [d0 hd]] := d2 p1m p2m.
  by exists (c * d); split=> [|s]; rewrite ?mulf_neq0 // hc hd mulrA.
by move=> h; apply: b2; apply: b1.
Qed.

Lemma asubm_wf M a b c d : wfa (@asubm R M a b c d). Proof. exact: wfa_mk. Qed.

(* the compression of D and C from the left *)
Lemma compressP tol n m p C D : 0 <= tol -> wfa C -> wfa D -> shp C = (p, n) -> shp D = (p, m) -> (aany D -> svd_at npsvd tol D) ->
  tz_compress npsvd spac tol C D = Ok None /\ \rank (mx p m D) = p \/
  exists qd rD sigma tau, [/\ tz_compress npsvd spac tol C D = Ok (Some (amul (aT qd) C, rD, sigma)), (p = sigma + tau)%N,
    shp qd = (p, p) /\ mx p p (aT qd) *m mx p p qd = 1%:M, \rank (mx p m D) = sigma &
    (forall i j, (i < tau)%N -> (j < m)%N -> get (amul (aT qd) D) (sigma + i) j = 0) /\
    (forall i j, (i < sigma)%N -> (j < m)%N -> get rD i j = get (amul (aT qd) D) i j)].
Proof.
move=> t0 wC wD [rC cC] [rD cD] ex; rewrite /tz_compress; case: ifP => an.
  have ex' := ex an; case E: (haroldsvd npsvd spac D (Some tol)) => [[[[q s] v] r]|e]; last first.
    by move: E; rewrite /haroldsvd; case: (npsvd D) => [[]].
  have [sq o rk hz hs] := hsvd wD t0 ex' E; rewrite rD cD in sq o rk hz hs.
  have rp : (r <= p)%N by rewrite -rk rank_leq_row.
  cbn [bind]; rewrite rD; case: eqP => [e|_]; first by left; split=> //; rewrite rk; move: e rp; clear; lia.
  right; exists q, (amul s v), r, (p - r)%N; split=> //; first by rewrite subnKC.
  split=> i j hi hj; first by apply: hz => //; rewrite leq_addr /=; move: hi; clear; lia.
  by apply: hs => //; apply: leq_trans hi rp.
right; exists (aeye p), D, 0%N, p.
have D0 := aany_false wD an; rewrite rD cD in D0.
have g i j : (i < p)%N -> get (amul (aT (aeye p)) D) i j = get D i j.
  move=> hi; have [hj|hj] := ltnP j m; last by rewrite !get_out_c ?cD // ?wfa_mul //= cD.
  rewrite get_mul /= ?cD // sumNE D0 get_azeros big1 // => k _; by rewrite get_azeros mulr0.
split.
- congr (Ok (Some (_, _, _))); apply: arr_eqP; rewrite ?wfa_mul //= => i j; rewrite rC cC => hi hj.
  rewrite get_mul /= ?cC // sumNE (bigD1 (Ordinal hi)) //= big1 ?addr0.
    by rewrite get_mk //= get_mk // eqxx mul1r.
  by move=> k hk; rewrite get_mk //= get_mk // (_ : (k == i :> nat) = false) ?mul0r //; apply/negbTE.
- by [].
- split=> //; rewrite mxof_eye mulmx1 (mxT (_ : shp _ = (p, p))) // mxof_eye trmx1 //.
- by rewrite D0 mxof_zeros mxrank0.
split=> i j // hi hj; rewrite g // D0 get_azeros //.
Qed.

Lemma row_of k l m (X : 'M[R]_(k, m)) (Y : 'M[R]_(l, m)) (i : 'I_k) : (exists i' : 'I_l, forall j, X i j = Y i' j) -> (row i X <= Y)%MS.
Proof. by case=> i' e; have -> : row i X = row i' Y; [apply/rowP => j; rewrite !mxE e | apply: row_sub]. Qed.

(* the compression of the lower part of C from the right *)
Lemma rightP tol n p sigma tau Cbd : 0 <= tol -> (p = sigma + tau)%N -> shp Cbd = (p, n) ->
  let M := aT (asubm Cbd sigma p 0 n) in svd_at npsvd tol M ->
  exists q s v rho, [/\ haroldsvd npsvd spac M (Some tol) = Ok (q, s, v, rho), (rho <= n)%N /\ (rho <= tau)%N,
    shp (afliplr q) = (n, n) /\ mx n n (aT (afliplr q)) *m mx n n (afliplr q) = 1%:M,
    (forall i j, (i < tau)%N -> (j < n - rho)%N -> get (amul Cbd (afliplr q)) (sigma + i) j = 0) &
    \rank (\matrix_(i < tau, j < rho) get (amul Cbd (afliplr q)) (sigma + i) (n - rho + j)) = rho /\
    (rho = 0%N -> forall i j, (i < tau)%N -> (j < n)%N -> get Cbd (sigma + i) j = 0)].
Proof.
move=> t0 ep [rC cC] M ex; case E: (haroldsvd npsvd spac M (Some tol)) => [[[[q s] v] r]|e]; last first.
  by move: E; rewrite /haroldsvd; case: (npsvd M) => [[]].
exists q, s, v, r; have wM : wfa M by apply: wfa_T.
have [sq o rk hz _] := hsvd wM t0 ex E.
have nM : nr M = n by rewrite /= subn0.
have cM : nc M = tau by rewrite /= ep addKn.
rewrite nM cM in sq o rk hz; have [rq cq] := sq.
have gM k i : (k < n)%N -> (i < tau)%N -> get M k i = get Cbd (sigma + i) k.
  by move=> hk hi; rewrite /M get_mk /= ?subn0 ?ep ?addKn // get_subm ?ep ?addKn ?subn0.
have nl : (r <= n)%N by rewrite -rk rank_leq_row.
have tl : (r <= tau)%N by rewrite -rk rank_leq_col.
have sf : shp (afliplr q) = (n, n) by rewrite /shp /= rq cq.
have gF i j : (i < tau)%N -> (j < n)%N -> get (amul Cbd (afliplr q)) (sigma + i) j = get (amul (aT q) M) (n.-1 - j) i.
  move=> hi hj; have hr : (n.-1 - j < n)%N by move: hj; clear; lia.
  have -> : get (amul Cbd (afliplr q)) (sigma + i) j = sumN n (fun k => get Cbd (sigma + i) k * get (afliplr q) k j).
    by rewrite get_mul ?cC //= ?rC ?cq ?ep ?ltn_add2l.
  have -> : get (amul (aT q) M) (n.-1 - j) i = sumN n (fun k => get (aT q) (n.-1 - j) k * get M k i).
    by rewrite get_mul ?cM //= ?cq ?rq.
  rewrite !sumNE.
  apply: eq_bigr => k _; rewrite gM // get_mk ?rq ?cq // get_mk ?rq ?cq //= mulrC //.
have oF : mx n n (aT (afliplr q)) *m mx n n (afliplr q) = 1%:M.
  rewrite (mxT sf) (mx_fliplr sq) trmx_mul Jmx_tr.
  by rewrite -mulmxA (mulmxA _ (mx n n q)) -(mxT sq) o mul1mx JJ.
split=> //.
- by move=> i j hi hj; rewrite gF // ?hz //; move: hj nl; clear; lia.
have en : n = (n - r + r)%N by rewrite subnK.
have gC : (mx n tau M)^T *m mx n n (afliplr q) = \matrix_(i < tau, j < n) get (amul Cbd (afliplr q)) (sigma + i) j.
  apply/matrixP => i j; rewrite [RHS]mxE mxE get_mul ?cC //= ?rC ?cq ?ep ?ltn_add2l // sumNE.
  by apply: eq_bigr => k _; rewrite !mxE gM.
split.
  have u : mx n n (afliplr q) \in unitmx by have [] := mulmx1_unit oF.
  have : \rank ((mx n tau M)^T *m mx n n (afliplr q)) = r by rewrite mxrankMfree ?row_free_unit // mxrank_tr.
  rewrite gC => hr; rewrite -[RHS]hr.
  transitivity (\rank (row_mx (0 : 'M[R]_(tau, n - r)) (\matrix_(i < tau, j < r) get (amul Cbd (afliplr q)) (sigma + i) (n - r + j)))).
    by rewrite rank_row_0mx.
  transitivity (\rank (mxn tau (n - r + r) (fun i j => get (amul Cbd (afliplr q)) (sigma + i) j))); last by rewrite -en.
  congr (\rank _); apply/matrixP => i j; rewrite [RHS]mxE; case: (splitP j) => k ek.
    have -> : j = lshift r k by apply: val_inj.
    by rewrite row_mxEl mxE /= gF // ?hz //; move: (ltn_ord k) (ltn_ord i) nl; clear; lia.
  have -> : j = rshift (n - r) k by apply: val_inj.
  by rewrite row_mxEr mxE.
move=> r0 i j hi hj; rewrite -gM //.
have /eqP : \rank (mx n tau M) = 0%N by rewrite rk.
rewrite mxrank_eq0 => /eqP /matrixP /(_ (Ordinal hj) (Ordinal hi)); by rewrite !mxE.
Qed.

Lemma sub_pid k p sigma (X : 'M[R]_(k, p)) : (forall i (j : 'I_p), (sigma <= j)%N -> X i j = 0) -> (X <= (pid_mx sigma : 'M[R]_p))%MS.
Proof.
move=> h; have -> : X = X *m pid_mx sigma; last exact: submxMl.
apply/matrixP => i j; rewrite mxE (bigD1 j) //= big1 ?addr0 => [|k' hk].
  by rewrite mxE eqxx /=; case: ltnP => hj; rewrite ?mulr1 // mulr0 h.
by rewrite mxE (_ : (k' == j :> nat) = false) ?mulr0 //; apply/negbTE.
Qed.

(* lines 3230-3263: a pass always ends, and keeps the pencil up to the states removed *)
Lemma stepP tol n m p A B C D : 0 <= tol -> wfa A -> wfa B -> wfa C -> wfa D ->
  shp A = (n, n) -> shp B = (n, m) -> shp C = (p, n) -> shp D = (p, m) -> step_exact npsvd spac tol A B C D ->
  [\/ tz_step npsvd spac tol A B C D = Ok (TzStop R) /\ ((mx p n C)^T <= (mx p m D)^T)%MS,
    tz_step npsvd spac tol A B C D = Ok (TzEmpty R) /\ exists p' A' B' C' D', deflated m n p A B C D 0 p' A' B' C' D' |
    exists nu p' A' B' C' D', [/\ tz_step npsvd spac tol A B C D = Ok (TzNext (A', B', C', D')), (0 < nu < n)%N &
      deflated m n p A B C D nu p' A' B' C' D']].
Proof.
move=> t0 wA wB wC wD sA sB sC sD [ex1 ex2]; rewrite /tz_step.
have [rA cA] := sA; have [rB cB] := sB; have [rC cC] := sC; have [rD cD] := sD; rewrite rA rD.
have [[E rk]|[qd [rDD [sigma [tau [E ep [sd od] rk [hz hs]]]]]]] := compressP t0 wC wD sC sD ex1.
  rewrite E /=; constructor 1; split=> //; apply: submx_full.
  by rewrite /row_full mxrank_tr rk.
have sCb : shp (amul (aT qd) C) = (p, n) by rewrite /shp /= cC; case: sd => _ ->.
have := ex2 _ _ _ E; rewrite rA rD => ex3.
have [q [s [v [rho [E2 [ln lt] [sq oq] hzC [hZ h0]]]]]] := rightP t0 ep sCb ex3.
rewrite E /= E2; cbn [bind].
have ud : mx p p qd *m mx p p (aT qd) = 1%:M by apply: mulmx1C.
have Dh : mx p m (amul (aT qd) D) = mx p p (aT qd) *m mx p m D by rewrite (@mxof_mul _ _ _ p p m) // ?nr_mk ?nc_mk //; case: sd.
have Ch : mx p n (amul (aT qd) C) = mx p p (aT qd) *m mx p n C by rewrite (@mxof_mul _ _ _ p p n) // ?nr_mk ?nc_mk //; case: sd.
have hD : mx p m D = mx p p qd *m mx p m (amul (aT qd) D) by rewrite Dh mulmxA ud mul1mx.
have hC : mx p n C = mx p p qd *m mx p n (amul (aT qd) C) by rewrite Ch mulmxA ud mul1mx.
case: eqP => [r0|/eqP r0].
  constructor 1; split=> //; rewrite hC hD !trmx_mul submxMr //.
  have cz (j : 'I_p) : (sigma <= j)%N -> (j - sigma < tau)%N by move: (ltn_ord j); rewrite {2}ep; clear; lia.
  have dE : ((mx p m (amul (aT qd) D))^T <= (pid_mx sigma : 'M[R]_p))%MS.
    by apply: sub_pid => i j hj; rewrite !mxE -(subnKC hj) hz // cz.
  have cE : ((mx p n (amul (aT qd) C))^T <= (pid_mx sigma : 'M[R]_p))%MS.
    by apply: sub_pid => i j hj; rewrite !mxE -(subnKC hj) h0 // cz.
  apply: submx_trans cE _; rewrite -(mxrank_leqif_sup dE).
  have sp : (sigma <= p)%N by rewrite ep leq_addr.
  rewrite mxrank_tr Dh rank_pid_mx //.
  by rewrite (eqmxMfull (mx p m D)) ?rk // row_full_unit; have [] := mulmx1_unit od.
have en : n = (n - rho + rho)%N by rewrite subnK.
have key : forall A' B' C' D', tz_next (afliplr q) A B (asubm (amul (aT qd) C) 0 sigma 0 n) rDD sigma (n - rho) = (A', B', C', D') ->
  deflated m n p A B C D (n - rho) (rho + sigma) A' B' C' D'.
  move=> A' B' C' D' hN.
  have [Rk Dt] := deflate f en ep sA sB sC sD sq sd oq od hz hs hzC hZ hN.
  have [|| sh gA gB gC gD] := tz_nextP en sA sB sq _ _ hN; rewrite ?nr_mk ?nc_mk //.
    by case: sd => _ ->; rewrite ep leq_addr.
  split=> //.
  - by split; [rewrite leq_subr | rewrite ep addnC leq_add2l].
  - move: hN; rewrite /tz_next; case: ifP => _ [<- <- <- <-]; split; exact: asubm_wf.
  - split=> [x|pm pm']; first by rewrite Rk subKn.
    by apply: Dt => //; move: ep pm'; rewrite pm; clear; lia.
  move=> BD; set Y := amul (aT (afliplr q)) B in gB gD.
  have Yh : mx n m Y = mx n n (aT (afliplr q)) *m mx n m B by rewrite (@mxof_mul _ _ _ n n m) // ?nr_mk ?nc_mk //; case: sq.
  apply: (@submx_trans _ _ _ _ _ _ (mx n m Y)).
    apply/row_subP => i; apply: row_of; have hi : (i < n)%N by apply: leq_trans (ltn_ord i) _; rewrite leq_subr.
    by exists (Ordinal hi) => j; rewrite !mxE gB.
  rewrite Yh; apply: submx_trans (submxMl _ _) _; apply: submx_trans BD _.
  rewrite hD; apply: submx_trans (submxMl _ _) _; apply/row_subP => i.
  have [hi|hi] := ltnP i sigma.
    have hi' : (rho + i < rho + sigma)%N by rewrite ltn_add2l.
    apply: row_of; exists (Ordinal hi') => j; rewrite !mxE gD //= (ltnNge (rho + i)) leq_addr /= addKn hs //.
  have -> : row i (mx p m (amul (aT qd) D)) = 0; last exact: sub0mx.
  apply/rowP => j; rewrite !mxE -(subnKC hi) hz //; move: (ltn_ord i) hi; rewrite {2}ep; clear; lia.
case: eqP => [e0|/eqP e0].
  constructor 2; split=> //; rewrite e0 in key.
  case hN: (tz_next _ _ _ _ _ _ 0) => [[[A' B'] C'] D'] in key.
  by exists (rho + sigma)%N, A', B', C', D'; apply: key.
constructor 3; case hN: (tz_next _ _ _ _ _ _ _) => [[[A' B'] C'] D'].
exists (n - rho)%N, (rho + sigma)%N, A', B', C', D'; split=> //; last exact: key.
by move: e0 r0 ln; clear; lia.
Qed.

(* the loop: enough passes are allowed *)
Lemma loopP c tol n m p A B C D : 0 <= tol -> wfa A -> wfa B -> wfa C -> wfa D ->
  shp A = (n, n) -> shp B = (n, m) -> shp C = (p, n) -> shp D = (p, m) -> (0 < n <= c)%N -> loop_exact npsvd spac c tol (A, B, C, D) ->
  (tz_loop npsvd spac c tol (A, B, C, D) = Ok (tz_empty R) /\ exists p' A' B' C' D', deflated m n p A B C D 0 p' A' B' C' D') \/
  exists n' p' A' B' C' D', [/\ tz_loop npsvd spac c tol (A, B, C, D) = Ok (A', B', C', D'), (0 < n')%N,
    deflated m n p A B C D n' p' A' B' C' D' & ((mx p' n' C')^T <= (mx p' m D')^T)%MS].
Proof.
move=> t0; elim: c n p A B C D => [|c IH] n p A B C D wA wB wC wD sA sB sC sD /andP[n0 nc]; first by move: n0 nc; clear; lia.
case=> ex exn; have [[E cd]|[E e]|[nu [p' [A' [B' [C' [D' [E /andP[nu0 nun] df]]]]]]]] := stepP t0 wA wB wC wD sA sB sC sD ex.
- right; exists n, p, A, B, C, D; rewrite /tz_loop -/tz_loop E; split=> //; exact: deflated_refl.
- by left; rewrite /tz_loop -/tz_loop E.
have [_ [sA' sB' sC' sD'] [wA' wB' wC' wD'] _ _] := df.
have nu1 : (0 < nu <= c)%N by rewrite nu0 /=; move: nun nc; clear; lia.
rewrite /tz_loop -/tz_loop E; cbn [bind].
have [[E2 [p2 [A2 [B2 [C2 [D2 df2]]]]]]|[n2 [p2 [A2 [B2 [C2 [D2 [E2 n20 df2 cd]]]]]]]] := IH _ _ _ _ _ _ wA' wB' wC' wD' sA' sB' sC' sD' nu1 (exn _ E).
  by left; split=> //; exists p2, A2, B2, C2, D2; apply: deflated_trans df df2.
right; exists n2, p2, A2, B2, C2, D2; split=> //; exact: deflated_trans df df2.
Qed.
End Step.
