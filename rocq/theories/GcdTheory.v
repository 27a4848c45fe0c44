(* haroldgcd (ModelPoly.v) computes a greatest common divisor in the branch that uses the
   Sylvester matrix, for every exact LU factorization. *)
From mathcomp Require Import all_ssreflect fingroup perm all_algebra zify.
From Verif Require Import Base BaseTheory Spec ModelPoly PolyTheory PolyOps RankTheory.

Set Implicit Arguments.
Unset Strict Implicit.
Unset Printing Implicit Defensive.

Import Order.TTheory GRing.Theory Num.Theory.
Local Open Scope ring_scope.

Section Bezout.
Variable F : fieldType.
Implicit Types (g h m : {poly F}).

(* Bezout with degree bounds *)
Lemma bezout_deg N g h m : g != 0 -> ((size g).-1 + (size h).-1 <= N)%N -> (size m <= N)%N ->
  gcdp g h %| m ->
  exists u v, [/\ m = u * g + v * h, (size (u * g)%R <= N)%N & (size (v * h)%R <= N)%N].
Proof.
move=> g0 hN hm dm; case: (eqVneq h 0) => [h0|h0].
  rewrite h0 gcdp0 in dm; exists (m %/ g), 0.
  by rewrite mul0r addr0 divpK // size_poly0.
set d : {poly F} := gcdp g h in dm *; have d0 : d != 0 by rewrite gcdp_eq0 negb_and g0.
have [[u0 v0] /= E] := Bezoutp g h.
have [q mq] : exists q, m = q * (u0 * g + v0 * h).
  by exists (m %/ (u0 * g + v0 * h)); rewrite divpK // (eqp_dvdl _ E).
pose g' : {poly F} := g %/ d; pose h' : {poly F} := h %/ d.
have eg : g = g' * d by rewrite divpK // dvdp_gcdl.
have eh : h = h' * d by rewrite divpK // dvdp_gcdr.
have g'0 : g' != 0 by apply: contraNneq g0 => z; rewrite eg z mul0r.
pose v : {poly F} := (q * v0) %% g'; pose c : {poly F} := (q * v0) %/ g'.
have ev : q * v0 = c * g' + v by exact: divp_eq.
exists (q * u0 + c * h'), v.
have e : m = (q * u0 + c * h') * g + v * h.
  have gh : g * h' = g' * h by rewrite {1}eg {1}eh mulrAC mulrA.
  rewrite mq mulrDr !mulrA ev !mulrDl addrA; congr (_ + _ + _).
  by rewrite -!mulrA [h' * g]mulrC gh.
have hv : (size (v * h)%R <= N)%N.
  have s1 : (size v < size g')%N by rewrite ltn_modp.
  have s2 : (size g' <= size g)%N.
    rewrite [in X in (_ <= X)%N]eg size_mul //.
    by have := d0; rewrite -size_poly_gt0; plia F.
  have := size_mul_leq v h; move: g0 h0; rewrite -!size_poly_gt0; plia F.
split=> //.
have -> : (q * u0 + c * h') * g = m - v * h by rewrite e addrK.
by rewrite (leq_trans (size_add _ _)) // size_opp geq_max hm.
Qed.
End Bezout.

Section Gcd.
Variable R : fieldType.
Implicit Types (x y : seq R) (q : {poly R}).

(* the polynomial of a row vector, highest power first *)
Definition hp N (v : 'rV[R]_N) : {poly R} := \sum_(j < N) v 0 j *: 'X^(N - j.+1).

Lemma hp_is_linear N : linear (@hp N).
Proof.
move=> a u v; rewrite /hp scaler_sumr -big_split /=; apply: eq_bigr => j _.
by rewrite !mxE scalerDl scalerA.
Qed.
Canonical hp_add N := Additive (@hp_is_linear N).
Canonical hp_lin N := Linear (@hp_is_linear N).

Lemma hp_mkseq N (v : 'rV[R]_N) : hp v = polyhi (mkseq (fun j => \sum_(k < N | k == j :> nat) v 0 k) N).
Proof.
rewrite polyhi_mkseq; apply: eq_bigr => j _; congr (_ *: _).
by rewrite (bigD1 j) ?eqxx //= big1 ?addr0 // => k /andP[/eqP e /eqP]; case; apply: val_inj.
Qed.

Lemma coef_hp N (v : 'rV[R]_N) (j : 'I_N) : (hp v)`_(N - j.+1) = v 0 j.
Proof.
rewrite /hp coef_sum (bigD1 j) //= coefZ coefXn eqxx mulr1 big1 ?addr0 // => k kj.
rewrite coefZ coefXn; case: eqP => e; last by rewrite mulr0.
by case/eqP: kj; apply: val_inj => /=; have := ltn_ord j; have := ltn_ord k; lia.
Qed.

Lemma hp_inj N : injective (@hp N).
Proof. by move=> u v e; apply/rowP => j; rewrite -!coef_hp e. Qed.

Lemma size_hp N (v : 'rV[R]_N) t : (forall j : 'I_N, (j < t)%N -> v 0 j = 0) -> (size (hp v) <= N - t)%N.
Proof.
move=> h; apply: (leq_trans (size_sum _ _ _)); apply/bigmax_leqP => j _.
case: (ltnP j t) => hj; first by rewrite h // scale0r size_poly0.
apply: (leq_trans (size_scale_leq _ _)); rewrite size_polyXn.
by have := ltn_ord j; lia.
Qed.

Lemma hp_surj N (q : {poly R}) : (size q <= N)%N -> hp (\row_(j < N) q`_(N - j.+1)) = q.
Proof.
move=> h; apply/polyP => k; case: (ltnP k N) => hk.
  have hj : (N - k.+1 < N)%N by lia.
  have e : k = (N - (Ordinal hj).+1)%N by rewrite /=; lia.
  by rewrite [in LHS]e coef_hp mxE -e.
rewrite !nth_default //; first exact: leq_trans hk.
apply: leq_trans hk; rewrite -[X in (_ <= X)%N]subn0; exact: size_hp.
Qed.

Section Span.
Variables (aa : seq (seq R)) (N m : nat) (M : 'M[R]_(m, N)).
(* the rows of M are the shifts of the polynomials of aa *)
Hypothesis aaT : forall x, x \in aa -> head 1 x != 0.
Hypothesis rowsP : forall i, exists x k, [/\ x \in aa, (size x + k <= N)%N & hp (row i M) = polyhi x * 'X^k].
Hypothesis rowsS : forall x k, x \in aa -> (size x + k <= N)%N ->
  exists i, hp (row i M) = polyhi x * 'X^k.

Let V (q : {poly R}) := exists v : 'rV[R]_m, q = hp (v *m M).

Lemma V_add q1 q2 : V q1 -> V q2 -> V (q1 + q2).
Proof. by move=> [v1 ->] [v2 ->]; exists (v1 + v2); rewrite mulmxDl linearD. Qed.
Lemma V_scale c q : V q -> V (c *: q).
Proof. by move=> [v ->]; exists (c *: v); rewrite -scalemxAl linearZ. Qed.
Lemma V_zero : V 0.
Proof. by exists 0; rewrite mul0mx linear0. Qed.
Lemma V_sum n (h : 'I_n -> {poly R}) : (forall i, V (h i)) -> V (\sum_(i < n) h i).
Proof. by move=> H; apply: big_ind => //; [exact: V_zero|exact: V_add]. Qed.

Lemma V_mult x (a : {poly R}) : x \in aa -> (size (a * polyhi x)%R <= N)%N -> V (a * polyhi x).
Proof.
move=> hx hs; case: (eqVneq (polyhi x) 0) => [->|x0]; first by rewrite mulr0; exact: V_zero.
case: (eqVneq a 0) => [->|a0]; first by rewrite mul0r; exact: V_zero.
rewrite -[a]coefK poly_def mulr_suml; apply: V_sum => i.
rewrite -scalerAl; apply: V_scale.
have [|j hj] := @rowsS x i hx; last by exists (delta_mx 0 j); rewrite -rowE hj mulrC.
move: hs; rewrite size_mul // (size_polyhi_trim (aaT hx)); have := ltn_ord i.
have := x0; rewrite -size_poly_gt0 (size_polyhi_trim (aaT hx)) => *; plia R.
Qed.

Let dall := \big[@gcdp _/0]_(x <- aa) polyhi x.

Lemma V_dvd q : V q -> dall %| q.
Proof.
move=> [v ->]; rewrite mulmx_sum_row linear_sum /=.
elim/big_ind: _ => [|a b|i _]; [exact: dvdp0|exact: dvdp_add|].
rewrite linearZ /= -mul_polyC; apply: dvdp_mull; have [x [k [hx _ ->]]] := rowsP i.
rewrite dvdp_mulr // /dall; elim: aa hx => //= y l IH; rewrite inE big_cons => /orP[/eqP->|/IH h].
  exact: dvdp_gcdl.
exact: dvdp_trans (dvdp_gcdr _ _) h.
Qed.

(* f has the largest degree, h another one; N = deg f + deg h *)
Variables (f h : seq R).
Hypotheses (fin : f \in aa) (hin : h \in aa) (f0 : f != [::]) (h0 : h != [::]).
Hypothesis dN : ((size f).-1 + (size h).-1 = N)%N.
Hypothesis maxf : forall x, x \in aa -> (size x <= size f)%N.

Lemma V_gcd (l : seq (seq R)) (g1 : {poly R}) : {subset l <= aa} ->
  g1 != 0 -> ((size g1).-1 <= (size h).-1)%N -> (forall q, (size q <= N)%N -> g1 %| q -> V q) ->
  forall q, (size q <= N)%N -> gcdp g1 (\big[@gcdp _/0]_(x <- l) polyhi x) %| q -> V q.
Proof.
elim: l g1 => [|x l IH] g1 sub g10 hs Vg q hq; first by rewrite big_nil gcdp0; exact: Vg.
rewrite big_cons => dq.
have {}dq : gcdp (gcdp g1 (polyhi x)) (\big[@gcdp _/0]_(x <- l) polyhi x) %| q.
  apply: dvdp_trans dq; rewrite !dvdp_gcd (dvdp_trans (dvdp_gcdl _ _) (dvdp_gcdl _ _)).
  by rewrite (dvdp_trans (dvdp_gcdl _ _) (dvdp_gcdr _ _)) dvdp_gcdr.
move: q hq dq; apply: IH => //.
- by move=> y hy; apply: sub; rewrite inE hy orbT.
- by rewrite gcdp_eq0 negb_and g10.
- apply: leq_trans hs; have := leq_gcdpl (polyhi x) g10; plia R.
move=> q hq dq.
have hx : x \in aa by apply: sub; rewrite mem_head.
have hsz : ((size g1).-1 + (size (polyhi x)).-1 <= N)%N.
  by rewrite (size_polyhi_trim (aaT hx)) -dN; have := maxf hx; plia R.
have [u [v [-> s1 s2]]] := bezout_deg g10 hsz hq dq.
apply: V_add; first by apply: Vg => //; exact: dvdp_mulIr.
exact: V_mult.
Qed.

Lemma aa_split (l : seq (seq R)) (x : seq R) : x \in l ->
  exists l', perm_eq l (x :: l') /\ {subset l' <= l}.
Proof. by move=> hx; exists (rem x l); split; [exact: perm_to_rem|exact: mem_rem]. Qed.

Lemma fdv : dall %| polyhi f.
Proof.
rewrite /dall; elim: aa fin => //= y l IH; rewrite inE big_cons => /orP[/eqP->|/IH hh].
  exact: dvdp_gcdl.
exact: dvdp_trans (dvdp_gcdr _ _) hh.
Qed.

Lemma ph0 x : x \in aa -> x != [::] -> polyhi x != 0.
Proof. by move=> hx x0; rewrite -trimf_nil trimf_id ?aaT. Qed.

Lemma V_all q : (size q <= N)%N -> dall %| q -> V q.
Proof.
move=> hq dq.
have pf0 := ph0 fin f0; have ph := ph0 hin h0.
have hsz : ((size (polyhi f)).-1 + (size (polyhi h)).-1 <= N)%N.
  by rewrite !size_polyhi_trim ?aaT // dN.
apply: (@V_gcd aa (gcdp (polyhi f) (polyhi h))) => //.
- by rewrite gcdp_eq0 negb_and pf0.
- have := leq_gcdpr (polyhi f) ph; rewrite (size_polyhi_trim (aaT hin)); plia R.
- move=> {q hq dq} q hq dq; have [u [v [-> s1 s2]]] := bezout_deg pf0 hsz hq dq.
  by apply: V_add; exact: V_mult.
apply: dvdp_trans dq; exact: dvdp_gcdr.
Qed.

Lemma dall0 : dall != 0.
Proof. by apply: contraTneq fdv => ->; rewrite dvd0p; exact: ph0. Qed.

(* the rank of M is N - deg gcd, at least *)
Lemma rank_ge : (N - (size dall).-1 <= \rank M)%N.
Proof.
set k := (N - _)%N.
pose G : 'M[R]_(k, N) := \matrix_(i, j) (dall * 'X^i)`_(N - j.+1).
have szG (i : 'I_k) : (size (dall * 'X^i)%R <= N)%N.
  rewrite size_mul ?dall0 ?monic_neq0 ?monicXn // size_polyXn.
  by have := ltn_ord i; rewrite /k => *; plia R.
have hG (i : 'I_k) : hp (row i G) = dall * 'X^i.
  rewrite -[RHS](hp_surj (szG i)); congr hp.
  by apply/rowP => j; rewrite !mxE.
have fr : row_free G.
  apply: inj_row_free => v /(congr1 (@hp N)); rewrite linear0 mulmx_sum_row linear_sum /=.
  under eq_bigr do rewrite linearZ /= hG scalerAr.
  rewrite -mulr_sumr => /eqP; rewrite mulf_eq0 (negbTE dall0) /= => /eqP e.
  apply/rowP => j; rewrite mxE; move/polyP: e => /(_ j); rewrite coef0 coef_sum.
  rewrite (bigD1 j) //= coefZ coefXn eqxx mulr1 big1 ?addr0 // => i ij.
  by rewrite coefZ coefXn; case: eqP => e; rewrite ?mulr0 //; case/eqP: ij; apply: val_inj.
rewrite -(eqP fr : \rank G = k); apply: mxrankS; apply/row_subP => i.
have [|v] := @V_all (dall * 'X^i) (szG i); first exact: dvdp_mulIl.
by rewrite -hG => /hp_inj ->; exact: submxMl.
Qed.

(* the last nonzero row of a row-equivalent upper trapezoidal matrix *)
Lemma last_row (k : nat) (U : 'M[R]_(k, N)) (t : 'I_k) :
  (U <= M)%MS -> (M <= U)%MS ->
  (forall (i : 'I_k) (j : 'I_N), (j < i)%N -> U i j = 0) ->
  (forall i : 'I_k, (t < i)%N -> row i U = 0) -> row t U != 0 ->
  hp (row t U) %= dall.
Proof.
move=> UM MU tri zr nz; set q := hp _.
have q0 : q != 0 
  by apply: contraNneq nz => q0; apply/eqP/hp_inj; rewrite linear0.
have dq : dall %| q.
  rewrite /q; apply: V_dvd; have /submxP[D ->] := submx_trans (row_sub t U) UM; by exists D.
have sq : (size q <= N - t)%N by apply: size_hp => j hj; rewrite mxE tri.
have rk : (\rank M <= t.+1)%N.
  apply: (leq_trans (mxrankS MU)).
  pose U' : 'M_(t.+1, N) := \matrix_(i, j) U (widen_ord (ltn_ord t) i) j.
  have : (U <= U')%MS.
    apply/row_subP => i; case: (ltnP t i) => hi; first by rewrite zr // sub0mx.
    have hi' : (i < t.+1)%N by rewrite ltnS.
    have -> : row i U = row (Ordinal hi') U'.
      by apply/rowP => j; rewrite !mxE; congr (U _ _); apply: val_inj.
    exact: row_sub.
  by move/mxrankS => h1; apply: (leq_trans h1); exact: rank_leq_row.
have sd := rank_ge.
rewrite eqp_sym -dvdp_size_eqp // eqn_leq dvdp_leq //=.
have := dall0; rewrite -size_poly_gt0; have := q0; rewrite -size_poly_gt0.
move: sd rk sq; move: (\rank M) (size dall) (size q) => a b c; plia R.
Qed.

Lemma full_rank_coprime : (0 < N)%N -> \rank M = N -> dall %= 1.
Proof.
move=> N0 rk.
have : (hp_lin N) (\row_(j < N) (1 : {poly R})`_(N - j.+1)) = 1 by apply: hp_surj; rewrite size_poly1.
move=> /= e1; rewrite /eqp dvd1p andbT; apply: V_dvd; rewrite -e1.
set v := \row_j _; have : (v <= M)%MS.
  by apply: submx_full; rewrite /row_full rk.
by case/submxP => D ->; exists D.
Qed.

End Span.
End Gcd.

Section Main.
Variable R : realFieldType.
Implicit Types (x y : seq R).

(* what scipy.linalg.lu returns as its third component, in exact arithmetic:
   S = P L U, P a permutation, L unit lower trapezoidal, U upper trapezoidal *)
Definition lu_spec (S U : arr R) : Prop :=
  let k := minn (nr S) (nc S) in
  [/\ nr U = k, nc U = nc S,
      (forall i j, (i < k)%N -> (j < nc S)%N -> (j < i)%N -> get U i j = 0) &
      exists (s : 'S_(nr S)) (Lo : 'M[R]_(nr S, k)),
        [/\ forall i j, (val i < val j)%N -> Lo i j = 0, forall i j, val i = val j -> Lo i j = 1 &
            \matrix_(i < nr S, j < nc S) get S i j =
            perm_mx s *m (Lo *m \matrix_(i < k, j < nc S) get U i j)]].

Lemma lower_left_inv m k (Lo : 'M[R]_(m, k)) : (k <= m)%N ->
  (forall i j, (val i < val j)%N -> Lo i j = 0) -> (forall i j, val i = val j -> Lo i j = 1) ->
  exists B, B *m Lo = 1%:M.
Proof.
move=> km lo un; suff : row_free Lo^T.
  by case/row_freeP => B /(congr1 trmx); rewrite trmx_mul trmxK trmx1 => h; exists B^T.
apply: inj_row_free => v hv; apply/rowP => j; rewrite mxE.
have [n] := ubnP j; elim: n j => // n IH j jn.
have hj : (j < m)%N by exact: leq_trans km.
move/rowP: hv => /(_ (Ordinal hj)); rewrite !mxE (bigD1 j) //= mxE un // mulr1 big1 ?addr0 // => i ij.
case: (ltngtP i j) => h.
- by rewrite IH ?mul0r // (leq_trans h).
- by rewrite mxE lo ?mulr0.
- by case/eqP: ij; apply: val_inj.
Qed.

Lemma lu_eqmx (S U : arr R) : lu_spec S U ->
  let A := \matrix_(i < nr S, j < nc S) get S i j in
  let B := \matrix_(i < minn (nr S) (nc S), j < nc S) get U i j in
  (B <= A)%MS /\ (A <= B)%MS.
Proof.
move=> [_ _ _ [s [Lo [lo un e]]]] A B; rewrite /A e mulmxA submxMl; split=> //.
have [C hC] := lower_left_inv (geq_minl _ _) lo un.
have -> : B = C *m (perm_mx s)^T *m (perm_mx s *m Lo *m B).
  rewrite !mulmxA -(mulmxA C) tr_perm_mx -perm_mxM.
  by rewrite mulVg perm_mx1 mulmx1 hC mul1mx.
exact: submxMl.
Qed.

Lemma drop_zero_rowsP (l : seq (seq R)) : has (fun r => has (fun c => c != 0) r) l ->
  exists t, [/\ (t < size l)%N, head [::] (drop_zero_rows l) = nth [::] l t,
     has (fun c => c != 0) (nth [::] l t) & forall i, (i < t)%N -> ~~ has (fun c => c != 0) (nth [::] l i)].
Proof.
elim: l => // r [|r' l] IH; first by rewrite [has _ _]/= orbF => h; exists 0%N.
rewrite [has _ _]/= -[drop_zero_rows _]/(if has (fun c => c != 0) r then r :: r' :: l else drop_zero_rows (r' :: l)).
case: ifP => hr; first by exists 0%N.
move=> /= /IH[t [h1 h2 h3 h4]]; exists t.+1; split=> //.
by case=> [_|i hi] /=; [rewrite hr|exact: h4].
Qed.

Lemma roll_shift x N k : (size x + k <= N)%N ->
  size (roll (x ++ nseq (N - size x) 0) k) = N /\
  polyhi (roll (x ++ nseq (N - size x) 0) k) = polyhi x * 'X^(N - size x - k).
Proof.
move=> h; rewrite /roll size_rotr size_cat size_nseq; split; first by slia R.
have -> : x ++ nseq (N - size x) 0 = (x ++ nseq (N - size x - k) 0) ++ nseq k 0.
  by rewrite -catA -nseqD; congr (_ ++ nseq _ _); slia R.
rewrite -{1}(size_nseq k (0 : R)) rotr_size_cat polyhi_cat polyhi_nseq0 mul0r add0r.
by rewrite polyhi_cat polyhi_nseq0 addr0 size_nseq.
Qed.

(* the polynomials kept by haroldgcd *)
Lemma gcd_args_lead args x : x \in gcd_args args -> head 1 x != 0.
Proof. by case/mapP => y _ ->; exact: lead_trimf. Qed.

Section Sylv.
Variable args : seq (seq R).
Let aa := gcd_args args.
Hypothesis sz2 : (1 < size aa)%N.
Hypothesis sec2 : (1 < gcd_second aa)%N.
Let S := gcd_sylvester aa.
Let im := argmax_size aa.
Let f := nth [::] aa im.
Let others := take im aa ++ drop im.+1 aa.
Let N := ((maxsize aa).-1 + (gcd_second aa).-1)%N.

Lemma aa0 : aa != [::]. Proof. by case: (aa) sz2. Qed.

Lemma im_lt : (im < size aa)%N.
Proof.
have [x hx ex] := maxsize_in aa0; rewrite /im /argmax_size.
by rewrite -[X in (_ < X)%N](size_map size) index_mem -ex map_f.
Qed.

Lemma size_f : size f = maxsize aa.
Proof.
have h := im_lt; rewrite -[LHS](nth_map [::] 0%N) // /im /argmax_size nth_index //.
by rewrite -index_mem size_map.
Qed.

Lemma f_in : f \in aa. Proof. by rewrite mem_nth // im_lt. Qed.

Lemma aa_perm : perm_eq aa (f :: others).
Proof.
rewrite -{1}(cat_take_drop im aa) (drop_nth [::] im_lt) -/f /others.
by apply/permPl; exact: (perm_catCA (take im aa) [:: f] (drop im.+1 aa)).
Qed.

Lemma second_in : exists2 h, h \in aa & size h = gcd_second aa.
Proof.
rewrite /gcd_second; set lower := [seq x <- aa | _].
case E: lower => [|y l]; first by exists f; rewrite ?f_in ?size_f.
rewrite -E; have [|x hx ex] := @maxsize_in R lower; first by rewrite E.
by exists x => //; move: hx; rewrite mem_filter => /andP[].
Qed.

Lemma second_other : exists2 h, h \in others & size h = gcd_second aa.
Proof.
have so : (0 < size others)%N.
  by have := perm_size aa_perm; rewrite /= => h; move: sz2; rewrite h ltnS.
rewrite /gcd_second; set lower := [seq x <- aa | _].
case E: lower => [|y l].
  have ho : head [::] others \in others by case: (others) so => //= z l _; rewrite mem_head.
  exists (head [::] others) => //.
  have ha : head [::] others \in aa by rewrite (perm_mem aa_perm) inE ho orbT.
  have : head [::] others \notin lower by rewrite E.
  rewrite mem_filter ha andbT -leqNgt => h1; apply/eqP; rewrite eqn_leq h1 andbT.
  exact: maxsize_ge.
rewrite -E; have [|x hx ex] := @maxsize_in R lower; first by rewrite E.
exists x => //; move: hx; rewrite mem_filter (perm_mem aa_perm) inE => /andP[h1].
by case/orP=> // /eqP e; move: h1; rewrite e size_f ltnn.
Qed.

Lemma second_le : (gcd_second aa <= maxsize aa)%N.
Proof. by have [h hh <-] := second_in; exact: maxsize_ge. Qed.

Lemma row_mem (r : seq R) :
  reflect (exists x k, [/\ x \in aa, (size x + k <= N)%N & r = roll (x ++ nseq (N - size x) 0) (N - size x - k)])
    (r \in dat S).
Proof.
have sl := second_le; have sf := size_f.
have pE : (gcd_second aa).-1 = (N - size f).+1 by rewrite sf /N; slia R.
rewrite /S /gcd_sylvester [dat _]/= -/im -/f -/others -/N pE mem_cat.
have hrow x (r' : seq R) : (size x <= N)%N -> reflect (exists2 k, (size x + k <= N)%N & r' = roll (x ++ nseq (N - size x) 0) (N - size x - k))
   (r' \in sylv_rows x N (N - size x).+1).
  move=> hx; apply: (iffP mapP) => [[j]|[k hk ->]].
    rewrite mem_iota add0n => /andP[_ hj] ->; exists (N - size x - j)%N; first by slia R.
    by congr roll; slia R.
  by exists (N - size x - k)%N; rewrite ?mem_iota //; slia R.
have ha x : x \in aa -> (size x <= N)%N.
  by move/maxsize_ge => h; apply: (leq_trans h); rewrite /N; slia R.
apply: (iffP orP) => [[/hrow|/flattenP[rs /mapP[x hx ->]]]|[x [k [hx hk e]]]].
- by case=> [|k hk e]; [exact: ha f_in|exists f, k; rewrite f_in].
- have hxa : x \in aa by rewrite (perm_mem aa_perm) inE hx orbT.
  by case/hrow => [|k hk e]; [exact: ha|exists x, k].
move: (hx); rewrite (perm_mem aa_perm) inE => /orP[/eqP ef|ho].
  by left; apply/hrow; [exact: ha f_in|exists k; rewrite -ef].
right; apply/flattenP; exists (sylv_rows x N (N - size x).+1); first by apply/mapP; exists x.
by apply/hrow; [exact: ha|exists k].
Qed.

Lemma wfa_S : wfa S.
Proof.
rewrite /wfa eqxx /=; apply/allP => r; rewrite -[_ \in _]/(r \in dat S) => /row_mem[x [k [hx hk ->]]].
have h : (size x + (N - size x - k) <= N)%N by slia R.
by have [-> _] := roll_shift h; rewrite eqxx.
Qed.

Lemma nrS : (N <= nr S)%N.
Proof.
have sl := second_le; have sf := size_f.
rewrite [nr S]/= size_cat size_mkseq -/im -/f -/others -/N.
have [h hh sh] := second_other.
suff : ((N - size h).+1 <= size (flatten [seq sylv_rows x N (N - size x).+1 | x <- others]))%N.
  by move: sec2 sl; rewrite sh /N; slia R.
have gen (G : seq R -> seq (seq R)) (l : seq (seq R)) : h \in l -> (size (G h) <= size (flatten [seq G x | x <- l]))%N.
  elim: l => //= y l IH; rewrite inE size_cat => /orP[/eqP->|/IH h1]; first exact: leq_addr.
  by apply: (leq_trans h1); exact: leq_addl.
by have := gen (fun x => sylv_rows x N (N - size x).+1) _ hh; rewrite size_mkseq.
Qed.

Let M : 'M[R]_(nr S, N) := \matrix_(i, j) get S i j.

Lemma hp_row (i : 'I_(nr S)) : hp (row i M) = polyhi (nth [::] (dat S) i).
Proof.
have sr : size (nth [::] (dat S) i) = N.
  have /andP[/eqP h1 /allP h2] := wfa_S.
  by apply/eqP; apply: h2; rewrite mem_nth // h1.
by rewrite polyhi_sum sr; apply: eq_bigr => j _; rewrite !mxE.
Qed.

Lemma rows_P (i : 'I_(nr S)) : exists x k, [/\ x \in aa, (size x + k <= N)%N & hp (row i M) = polyhi x * 'X^k].
Proof.
have : nth [::] (dat S) i \in dat S by rewrite mem_nth.
case/row_mem => x [k [hx hk e]]; exists x, k; split=> //; rewrite hp_row e.
have h : (size x + (N - size x - k) <= N)%N by slia R.
by have [_ ->] := roll_shift h; congr (_ * 'X^_); slia R.
Qed.

Lemma rows_S x k : x \in aa -> (size x + k <= N)%N -> exists i, hp (row i M) = polyhi x * 'X^k.
Proof.
move=> hx hk; pose r := roll (x ++ nseq (N - size x) 0) (N - size x - k).
have hr : r \in dat S by apply/row_mem; exists x, k.
have hi : (index r (dat S) < nr S)%N by rewrite index_mem.
exists (Ordinal hi); rewrite hp_row nth_index // /r.
have h : (size x + (N - size x - k) <= N)%N by slia R.
by have [_ ->] := roll_shift h; congr (_ * 'X^_); slia R.
Qed.

Let dall := \big[@gcdp _/0]_(x <- aa) polyhi x.

Lemma f_nil : f != [::].
Proof. by have := second_le; rewrite -size_eq0 size_f; slia R. Qed.

(* the Sylvester branch *)
Lemma gcd_sylv lu eps : lu_spec S (lu S) ->
  (forall i j, get (lu S) i j != 0 -> eps <= `|get (lu S) i j|) ->
  exists2 g, haroldgcd lu eps args = Ok g & polyhi g \is monic /\ polyhi g %= dall.
Proof.
move=> LU thr; rewrite /haroldgcd -/aa; case Ea: aa => [|a0 al]; first by have := aa0; rewrite Ea.
rewrite -Ea.
have sl := second_le; have sf := size_f; have f0 := f_nil.
have [h hh sh] := second_in.
have h0 : h != [::] by rewrite -size_eq0 sh; slia R.
have dN : ((size f).-1 + (size h).-1 = N)%N by rewrite sf sh.
have mf x : x \in aa -> (size x <= size f)%N by rewrite sf; exact: maxsize_ge.
have aT x : x \in aa -> head 1 x != 0 by exact: gcd_args_lead.
have -> : size aa == 1%N = false by slia R.
have -> : maxsize aa == 1%N = false by slia R.
have -> : gcd_second aa == 1%N = false by slia R.
have -> : gcd_second aa == 0%N = false by slia R.
rewrite andbF -/S (arankP wfa_S erefl erefl).
have Nc : nc S = N by [].
have mn : minn (nr S) (nc S) = N by rewrite Nc; apply/minn_idPr; exact: nrS.
have N0 : (0 < N)%N by rewrite /N; slia R.
rewrite mn; case: eqP => rk.
  exists [:: 1] => //; rewrite polyhi1 monic1; split=> //; rewrite eqp_sym.
  exact: (full_rank_coprime (M := M) (aa := aa) rows_P N0 rk).
have [UM MU] := lu_eqmx LU; case: (LU) => Unr Unc Utri _.
set U := \matrix_(i < minn (nr S) (nc S), j < nc S) get (lu S) i j in UM MU.
set u := amap _ (lu S).
have uE i j : (i < nr u)%N -> (j < nc u)%N -> get u i j = get (lu S) i j.
  move=> hi hj; rewrite /u /amap get_mk //; case: (eqVneq (get (lu S) i j) 0) => [->|n0]; first by case: ifP.
  by rewrite ltNge thr.
have unr : nr u = N by rewrite /= Unr mn.
have unc : nc u = N by rewrite /= Unc.
set rws := [seq _ | i <- iota 0 (nr u)].
have srws : size rws = N by rewrite size_map size_iota unr.
have rE (i : nat) : (i < N)%N -> nth [::] rws i = mkseq (fun j => get (lu S) i j) N.
  move=> hi; rewrite (nth_map 0%N) ?size_iota ?unr // nth_iota ?unr // add0n /mkseq unc.
  by apply/eq_in_map => j; rewrite mem_iota add0n => /andP[_ hj]; rewrite uE ?unr ?unc.
have hpU (i : 'I_(minn (nr S) (nc S))) : hp (row i U) = polyhi (nth [::] rws i).
  rewrite rE; last by rewrite -mn.
  by rewrite polyhi_mkseq; apply: eq_bigr => j _; rewrite !mxE.
have nz : has (fun r => has (fun c => c != 0) r) (rev rws).
  rewrite has_rev; apply: contraT => /hasPn hz.
  have U0 : U = 0.
    apply/row_matrixP => i; rewrite row0; apply: hp_inj; rewrite linear0 hpU.
    have hi : (i < size rws)%N by rewrite srws -mn.
    by have := hz _ (mem_nth [::] hi); rewrite has_polyhi negbK => /eqP.
  have [|i hi] := @rows_S f 0%N f_in; first by rewrite addn0 -dN; move: sh; slia R.
  move: MU; rewrite U0 => /submx0null M0; move: hi.
  have -> : row i M = 0 by rewrite /M M0 row0.
  rewrite linear0 mulr1 => /eqP; rewrite eq_sym -trimf_nil trimf_id ?aT ?f_in //.
  by rewrite (negbTE f0).
have [t' [ht -> hnz hz]] := drop_zero_rowsP nz.
rewrite size_rev srws in ht; rewrite nth_rev srws // in hnz *.
have ht2 : (N - t'.+1 < minn (nr S) (nc S))%N by rewrite mn; lia.
pose t := Ordinal ht2.
have tr0 : row t U != 0.
  apply: contraTneq hnz => e; rewrite has_polyhi negbK -(hpU t) e linear0 //.
have z0 (i : 'I_(minn (nr S) (nc S))) : (t < i)%N -> row i U = 0.
  move=> hi; apply: hp_inj; rewrite linear0 hpU.
  have hiN : (i < N)%N by rewrite -mn.
  have := hz (N - i.+1)%N; rewrite nth_rev srws; last by lia.
  have -> : (N - (N - i.+1).+1 = i)%N by lia.
  rewrite has_polyhi negbK => h1; apply/eqP/h1; have hi' : (N - t'.+1 < i)%N := hi; clear -hi' hiN ht; move: (nat_of_ord i) N hi' hiN ht => a b; lia.
have tri (i : 'I_(minn (nr S) (nc S))) (j : 'I_(nc S)) : (j < i)%N -> U i j = 0.
  by move=> hji; rewrite mxE Utri.
have key := last_row aT rows_P rows_S f_in hh f0 h0 dN mf UM MU tri z0 tr0.
rewrite hpU -/dall in key.
case Et: (trimf _) => [|c r].
  by move/eqP: Et; rewrite trimf_nil; rewrite has_polyhi in hnz; rewrite (negbTE hnz).
have c0 : c != 0 by have := lead_trimf (nth [::] rws (N - t'.+1)); rewrite Et.
eexists; first reflexivity.
have -> : polyhi [seq x / c | x <- c :: r] = c^-1 *: polyhi (nth [::] rws (N - t'.+1)).
  rewrite -[polyhi (nth _ _ _)]polyhi_trimf Et -polyhi_scale; congr polyhi.
  by apply: eq_map => x; rewrite mulrC.
split; last by rewrite (eqp_trans _ key) // eqp_scale // invr_eq0.
by rewrite monicE lead_coefZ -[polyhi (nth _ _ _)]polyhi_trimf Et lead_coef_polyhi // mulVf.
Qed.

End Sylv.

Lemma is_gcd_args (args : seq (seq R)) (g : {poly R}) :
  g %= \big[@gcdp _/0]_(x <- gcd_args args) polyhi x -> is_gcd args g.
Proof.
move=> e d; rewrite (eqp_dvdr _ e) {g e}.
have main (l : seq (seq R)) : (d %| \big[@gcdp _/0]_(x <- l) polyhi x) = all (fun x => d %| polyhi x) l.
  by elim: l => [|x l IH]; rewrite ?big_nil ?dvdp0 // big_cons dvdp_gcd IH.
rewrite main; split=> [/allP h p hp|h].
  case: (eqVneq (size p) 0%N) => [/size0nil->|p0]; first by rewrite polyhi_nil dvdp0.
  by rewrite -polyhi_trimf; apply/h/map_f; rewrite mem_filter p0.
by apply/allP => y /mapP[x]; rewrite mem_filter => /andP[_ /h h1] ->; rewrite polyhi_trimf.
Qed.

Lemma mem_gcd_args (args : seq (seq R)) x : x \in args -> x != [::] -> trimf x \in gcd_args args.
Proof. by move=> hx x0; apply: map_f; rewrite mem_filter size_eq0 x0. Qed.

Lemma gcd_argsP (args : seq (seq R)) y : y \in gcd_args args ->
  exists x, [/\ x \in args, x != [::] & y = trimf x].
Proof. by case/mapP => x; rewrite mem_filter size_eq0 => /andP[h1 h2] ->; exists x. Qed.

(* either all polynomials have the same positive degree, or two of them have different positive
   degrees *)
Lemma gcd_main lu eps (args : seq (seq R)) :
  let S := gcd_sylvester (gcd_args args) in
  ((1 < count (fun x => x != [::]) args)%N /\
     exists2 k, (1 < k)%N & forall x, x \in args -> x != [::] -> size (polyhi x) = k) \/
  (exists x y, [/\ x \in args, y \in args & (1 < size (polyhi x) < size (polyhi y))%N]) ->
  lu_spec S (lu S) -> (forall i j, get (lu S) i j != 0 -> eps <= `|get (lu S) i j|) ->
  exists2 g, haroldgcd lu eps args = Ok g & polyhi g \is monic /\ is_gcd args (polyhi g).
Proof.
move=> S H LU thr; suff [h1 h2] : (1 < size (gcd_args args))%N /\ (1 < gcd_second (gcd_args args))%N.
  by have [g E [m e]] := gcd_sylv h1 h2 LU thr; exists g => //; split=> //; exact: is_gcd_args.
case: H => [[c [k k1 same]]|[x [y [hx hy /andP[sx sxy]]]]].
  have sz : size (gcd_args args) = count (fun x => x != [::]) args.
    by rewrite size_map size_filter; apply: eq_count => x; rewrite size_eq0.
  rewrite sz c; split=> //.
  have sk y : y \in gcd_args args -> size y = k.
    by case/gcd_argsP => x [hx x0 ->]; rewrite size_trimf same.
  have [|z hz ez] := @maxsize_in R (gcd_args args); first by rewrite -size_eq0 sz; slia R.
  rewrite /gcd_second; set lower := filter _ _; suff -> : lower = [::] by rewrite -ez sk.
  apply/eqP; rewrite -[_ == _]negbK -has_filter -all_predC; apply/allP => y hy /=.
  by rewrite sk // -ez sk // ltnn.
have nn (z : seq R) : (1 < size (polyhi z))%N -> z != [::].
  by apply: contraTneq => ->; rewrite polyhi_nil size_poly0.
have x1 := mem_gcd_args hx (nn _ sx); have y1 := mem_gcd_args hy (nn _ (ltn_trans sx sxy)).
split.
  have d : trimf x != trimf y by apply: contraTneq sxy => e; rewrite -!size_trimf e ltnn.
  case: (gcd_args args) x1 y1 => [//|a [|b l //]]; rewrite !inE => /eqP e1 /eqP e2.
  by rewrite e1 e2 eqxx in d.
rewrite /gcd_second; set lower := filter _ _.
have xl : trimf x \in lower.
  rewrite mem_filter x1 andbT; apply: leq_trans (maxsize_ge y1).
  by rewrite !size_trimf.
case E: lower => [|z l]; first by rewrite E in xl.
by rewrite -E; apply: leq_trans (maxsize_ge xl); rewrite size_trimf.
Qed.

Lemma gcd_constants lu eps (args : seq (seq R)) :
  (1 < count (fun x => x != [::]) args)%N ->
  (forall x, x \in args -> (size (polyhi x) <= 1)%N) ->
  (exists2 x, x \in args & size (polyhi x) = 1%N) ->
  haroldgcd lu eps args = Ok [:: 1] /\ is_gcd args (polyhi [:: 1 : R]).
Proof.
move=> c le1 [x hx ex]; rewrite /haroldgcd.
have x0 : x != [::] by apply/eqP => e; move: ex; rewrite e polyhi_nil size_poly0.
have hm := mem_gcd_args hx x0.
have sz : size (gcd_args args) = count (fun x => x != [::]) args.
  by rewrite size_map size_filter; apply: eq_count => y; rewrite size_eq0.
have mx : maxsize (gcd_args args) = 1%N.
  apply/eqP; rewrite eqn_leq; apply/andP; split.
    by apply: maxsize_le => y /gcd_argsP[z [hz _ ->]]; rewrite size_trimf le1.
  by have := maxsize_ge hm; rewrite size_trimf ex.
split.
  case E: {1}(gcd_args args) => [|a l]; first by rewrite E in hm.
  by rewrite mx sz; case: eqP => // e; rewrite e in c.
move=> d; rewrite polyhi1; split=> [h p _|h]; first by rewrite (dvdp_trans h) // dvd1p.
have := h _ hx; have /eqP/size_poly1P[k k0 ->] := ex.
by rewrite -[k%:P]mulr1 mul_polyC dvdpZr.
Qed.

Lemma gcd_single lu eps (args : seq (seq R)) x :
  [seq y <- args | y != [::]] = [:: x] ->
  haroldgcd lu eps args = Ok (trimf x) /\ is_gcd args (polyhi (trimf x)).
Proof.
move=> h; have e : gcd_args args = [:: trimf x].
  rewrite /gcd_args -[RHS]/(map (@trimf _) [:: x]) -h; congr map.
  by apply: eq_filter => y; rewrite size_eq0.
rewrite /haroldgcd e; split; first by [].
by apply: is_gcd_args; rewrite e big_cons big_nil gcdp0 eqpxx.

Qed.

Lemma gcd_single_ex lu eps (args : seq (seq R)) x :
  [seq y <- args | y != [::]] = [:: x] ->
  exists2 g, haroldgcd lu eps args = Ok g & is_gcd args (polyhi g).
Proof. by move/(gcd_single lu eps) => [h1 h2]; exists (trimf x). Qed.

(* the early exit of lines 236-237: the only polynomials below the largest degree are constants *)
Lemma gcd_early lu eps (args : seq (seq R)) x y :
  x \in args -> y \in args -> size (polyhi x) = 1%N -> (1 < size (polyhi y))%N ->
  (forall z, z \in args -> (size (polyhi z) <= 1)%N \/ size (polyhi z) = size (polyhi y)) ->
  exists2 g, haroldgcd lu eps args = Ok g &
    (1 < size (polyhi g))%N /\ ~~ (polyhi g %| polyhi x).
Proof.
move=> hx hy ex sy all1; rewrite /haroldgcd.
have nn (z : seq R) : (0 < size (polyhi z))%N -> z != [::].
  by apply: contraTneq => ->; rewrite polyhi_nil size_poly0.
have x1 : trimf x \in gcd_args args by apply: mem_gcd_args => //; apply: nn; rewrite ex.
have y1 : trimf y \in gcd_args args by apply: mem_gcd_args => //; apply: nn; exact: ltnW.
have mx : maxsize (gcd_args args) = size (polyhi y).
  apply/eqP; rewrite eqn_leq; apply/andP; split; last first.
    by have := maxsize_ge y1; rewrite size_trimf.
  apply: maxsize_le => z /gcd_argsP[w [hw _ ->]]; rewrite size_trimf.
  by case: (all1 _ hw) => [h|->//]; exact: leq_trans (ltnW sy).
have sec : gcd_second (gcd_args args) = 1%N.
  rewrite /gcd_second mx; set lower := filter _ _.
  have xl : trimf x \in lower by rewrite mem_filter x1 size_trimf ex sy.
  case E: lower => [|z l]; first by rewrite E in xl.
  rewrite -E; apply/eqP; rewrite eqn_leq; apply/andP; split; last first.
    by have := maxsize_ge xl; rewrite size_trimf ex.
  apply: maxsize_le => w; rewrite mem_filter => /andP[h1 /gcd_argsP[v [hv _ ev]]].
  move: h1; rewrite ev size_trimf; case: (all1 _ hv) => [//|->]; by rewrite ltnn.
have sz : size (gcd_args args) == 1%N = false.
  apply/negbTE/eqP => e; have d : trimf x != trimf y.
    by apply: contraTneq sy => e2; rewrite -size_trimf -e2 size_trimf ex.
  case: (gcd_args args) e x1 y1 => [//|a [|//]] _; rewrite !inE => /eqP e1 /eqP e2.
  by rewrite e1 e2 eqxx in d.
case E: {1}(gcd_args args) => [|a l]; first by rewrite E in x1.
rewrite sz mx sec sy /=; have -> : size (polyhi y) == 1%N = false by apply/negbTE; rewrite neq_ltn sy orbT.
eexists; first reflexivity.
have s2 : (1 < size (gcd_args args))%N by move: (gcd_args args) x1 sz => [|? [|]].
have hg := f_in s2; have sg := size_f s2; rewrite mx in sg.
have hs : size (polyhi (nth [::] (gcd_args args) (argmax_size (gcd_args args)))) = size (polyhi y).
  by rewrite size_polyhi_trim //; exact: gcd_args_lead hg.
rewrite hs; split=> //; apply/negP => /dvdp_leq; rewrite -size_poly_gt0 ex hs => /(_ isT).
by rewrite leqNgt sy.
Qed.

End Main.

(* a decidable certificate of lu_spec without row exchanges, for the examples *)
Definition lu_check (R : realFieldType) (S Lo U : arr R) : bool :=
  let k := minn (nr S) (nc S) in
  [&& wfa S, nr U == k, nc U == nc S, nr Lo == nr S, nc Lo == k,
      all (fun i => all (fun j => (i <= j)%N || (get U i j == 0)) (iota 0 (nc S))) (iota 0 k),
      all (fun i => all (fun j => if (i < j)%N then get Lo i j == 0 else (i != j) || (get Lo i j == 1))
          (iota 0 k)) (iota 0 (nr S)) &
      aeq (amul Lo U) S].

Lemma lu_checkP (R : realFieldType) (S Lo U : arr R) : lu_check S Lo U -> lu_spec S U.
Proof.
case/and5P => wS /eqP h1 /eqP h2 /eqP h3 /and4P[/eqP h4 /allP h5 /allP h6 /(aeqP (wfa_mul _ _) wS) e].
split=> //.
  move=> i j hi hj ji; have := h5 i; rewrite mem_iota => /(_ hi)/allP/(_ j); rewrite mem_iota => /(_ hj).
  by rewrite leqNgt ji => /eqP.
exists 1%g, (mxof [rmorphism of idfun] _ _ Lo); split=> [i j ij|i j ij|].
- have := h6 i; rewrite mem_iota ltn_ord => /(_ isT)/allP/(_ j); rewrite mem_iota ltn_ord => /(_ isT).
  by rewrite ij mxE => /eqP.
- have := h6 i; rewrite mem_iota ltn_ord => /(_ isT)/allP/(_ j); rewrite mem_iota ltn_ord => /(_ isT).
  by rewrite mxE; move: ij => /= ->; rewrite ltnn eqxx => /eqP.
rewrite perm_mx1 mul1mx.
have -> : \matrix_(i < nr S, j < nc S) get S i j = mxof [rmorphism of idfun] (nr S) (nc S) (amul Lo U).
  by apply/matrixP => i j; rewrite !mxE e.
rewrite (mxof_mul _ h3 h4 h2); congr (_ *m _).
Qed.
