(* haroldlcm computes the least common multiple and its multipliers. *)
From mathcomp Require Import all_ssreflect all_algebra zify.
From Verif Require Import Base BaseTheory Spec ModelPoly PolyTheory PolyOps RankTheory AnnTheory.

Set Implicit Arguments.
Unset Strict Implicit.
Unset Printing Implicit Defensive.

Import Order.TTheory GRing.Theory Num.Theory.
Local Open Scope ring_scope.

Section CompF.
Variable F : fieldType.
Local Notation mx := (mxof [rmorphism of (@idfun F)]).

Definition okp (p : seq F) := (1 < size p)%N && (head 1 p != 0).
Definition monp (p : seq F) : {poly F} := (head 1 p)^-1 *: polyhi p.

Lemma companion_rows c p (A : arr F) : c != 0 -> p != [::] -> haroldcompanion (c :: p) = Ok A ->
  forall i j, (i.+1 < size p)%N -> (j < size p)%N -> get A i j = (j == i.+1)%:R.
Proof.
move=> c0 p0; rewrite /haroldcompanion /= (negbTE c0) size_rev size_map size_eq0 (negbTE p0) => -[<-] i j hi hj.
rewrite get_mk //; last exact: ltnW. case: eqP => // h; move: hi; rewrite h; slia F.
Qed.

Definition bcol (ps : seq (seq F)) : arr F :=
  foldr (fun x acc => avcat (mk (size x).-1 1 (fun i _ => (i == (size x).-2)%:R)) acc) (azeros 0 1) ps.
Definition crow (ps : seq (seq F)) : arr F :=
  foldr (fun x acc => adiag2 (aT (mk (size x).-1 1 (fun i _ => (i == 0%N)%:R))) acc) (azeros 0 0) ps.

Lemma get_diag2 m1 n1 m2 n2 (A B : arr F) : nr A = m1 -> nc A = n1 -> nr B = m2 -> nc B = n2 ->
  forall i j, (i < m1 + m2)%N -> (j < n1 + n2)%N -> 
   get (adiag2 A B) i j = if (i < m1)%N then (if (j < n1)%N then get A i j else 0)
                          else (if (j < n1)%N then 0 else get B (i - m1) (j - n1)).
Proof.
move=> <- <- <- <- i j hi hj; rewrite /adiag2 /ablock /avcat get_mk //=.
case: ifP => h; rewrite get_mk //=; try lia; case: ifP => h'; rewrite ?get_mk //=; lia.
Qed.

Lemma blockP (ps : seq (seq F)) : all okp ps ->
  exists cs, foldr (fun x acc => do a <- haroldcompanion x; do t <- acc; Ok (a :: t)) (Ok [::]) ps = Ok cs /\
  exists n, let a := adiag cs in let b := bcol ps in let c := crow ps in
   [/\ [/\ nr a = n, nc a = n, nr b = n & nc b = 1%N], nr c = size ps /\ nc c = n,
    forall q, (forall p, p \in ps -> polyhi p %| q) <-> ann (mx n n a) (mx n 1 b) q = 0 &
    forall i, (i < size ps)%N -> let p := nth [::] ps i in
      forall q k e, (size p <= k.+1)%N -> (size (q * monp p)%R <= k.+1)%N ->
       \sum_(x < k) (\sum_(j < n) get c i j * kv (mx n n a) (mx n 1 b) x j 0) * (q * monp p)`_(x + e).+1 = q`_e].
Proof.
elim: ps => [_|p ps IH /= /andP[/andP[sp hp] /IH]].
  exists [::]; split=> //; exists 0%N; split=> // q; split=> // _.
  by apply/colP => -[].
case=> cs [E [n /= [[a1 a2 b1 b2] [c1 c2] han hmu]]].
case: p sp hp => [//|c0 p] sp hp; have p0 : p != [::] by rewrite -size_eq0; move: sp; rewrite /=; case: (size p).
have [A [EA wA A1 A2 HA]] := companionP hp p0; rewrite EA /= E /=.
have {}HA := HA F [rmorphism of idfun]; rewrite map_poly_id // in HA.
have HR := companion_rows hp p0 EA.
have lp : (0 < size p)%N by rewrite lt0n size_eq0.
have hA' : forall i j : 'I_(size p), (i.+1 < size p)%N -> mx (size p) (size p) A i j = (j == i.+1 :> nat)%:R.
  by move=> i j hi; rewrite mxE /= HR.
exists (A :: cs); split=> //; exists (size p + n)%N; split.
- by split; rewrite /= ?A1 ?A2 ?a1 ?a2 ?b1 //.
- by rewrite /= c1 c2.
- move=> q; rewrite /= (@mxof_diag2 _ _ _ (size p) n (size p) n) // (@mxof_vcat _ _ _ (size p) n 1) //.
  rewrite ann_block; have hann := @ann_comp_n F (size p) (mx (size p) (size p) A) _ q lp hA' HA.
  split=> [h|].
    rewrite mxof_mk /= (proj1 hann) ?(proj1 (han q)) ?col_mx0 //.
    - by move=> r hr; apply: h; rewrite inE hr orbT.
    - by rewrite dvdpZl ?invr_eq0 //; apply: h; rewrite inE eqxx.
  rewrite mxof_mk /=; move/eqP; rewrite col_mx_eq0 => /andP[/eqP/hann h1 /eqP/han h2] r.
  rewrite inE => /orP[/eqP->|/h2 //]; by move: h1; rewrite dvdpZl ?invr_eq0.
- rewrite /= (@mxof_diag2 _ _ _ (size p) n (size p) n) // (@mxof_vcat _ _ _ (size p) n 1) //.
  move=> i; rewrite ltnS; case: i => [|i] hi q k e /=.
    move=> sk hq; rewrite -[RHS](@mult_coef_n F (size p) (mx (size p) (size p) A) (monp (c0 :: p)) (Ordinal lp) q k e) //.
    apply: eq_bigr => x _; congr (_ * _).
    rewrite (bigD1 (lshift n (Ordinal lp))) //= (@get_diag2 1 (size p) (size ps) n) ?ltn_addr //= lp get_mk //= get_mk // mul1r big1 ?addr0.
      by rewrite kv_block col_mxEu mxof_mk.
    move=> j j0; rewrite (@get_diag2 1 (size p) (size ps) n) //=; case: ifP => hj; rewrite ?mul0r //.
    rewrite get_mk //= get_mk // (_ : (j : nat) == 0%N = false) ?mul0r //.
    by apply/negbTE; apply: contra j0 => /eqP j0; rewrite -val_eqE /= j0.
  move=> sk hq; rewrite -(hmu i hi q k e) //; apply: eq_bigr => x _; congr (_ * _).
  rewrite big_split_ord /= big1 ?add0r; last first.
    by move=> j _; rewrite (@get_diag2 1 (size p) (size ps) n) //= ?ltn_ord ?mul0r // ltn_addr.
  apply: eq_bigr => j _; rewrite (@get_diag2 1 (size p) (size ps) n) //= ?ltn_add2l // ltnNge leq_addr /= addKn subSS subn0.
  by rewrite kv_block col_mxEd.
Qed.

End CompF.

Section Gram.
Variable R : realFieldType.

Lemma gram0 n m (C : 'M[R]_(n, m)) (x : 'cV[R]_m) : C^T *m C *m x = 0 -> C *m x = 0.
Proof.
move=> h; have e : (C *m x)^T *m (C *m x) = 0 by rewrite trmx_mul -!mulmxA (mulmxA C^T) h mulmx0.
have s0 : \sum_(i < n) ((C *m x) i 0) ^+ 2 = 0.
  have := congr1 (fun M : 'M_1 => M 0 0) e; rewrite !mxE => s0; rewrite -[RHS]s0.
  by apply: eq_bigr => i _; rewrite [in RHS]mxE expr2.
apply/colP => i; rewrite [RHS]mxE.
move/psumr_eq0P: s0 => /(_ (fun i _ => sqr_ge0 _)) /(_ i isT) /eqP; rewrite sqrf_eq0 => /eqP //.
Qed.

Lemma gram_unit n m (C : 'M[R]_(n, m)) : \rank C = m -> C^T *m C \in unitmx.
Proof.
move=> h; apply: ker0_unit => x hx.
exact: (@free_ker0 R n m C h x (gram0 hx)).
Qed.

End Gram.

Section LcmR.
Variable R : realFieldType.
Local Notation mx := (mxof [rmorphism of (@idfun R)]).

Lemma krylov_step (A B C : arr R) n j : nr A = n -> nc A = n -> nr C = n -> nc C = j.+1 ->
  mx n j.+1 C = kmx (mx n n A) (mx n 1 B) j.+1 ->
  let C' := ahcat C (amul A (acols C [:: (nc C).-1])) in
  mx n j.+2 C' = kmx (mx n n A) (mx n 1 B) j.+2.
Proof.
move=> A1 A2 C1 C2 e; rewrite /=; apply/matrixP => i t; rewrite !mxE /=.
have eg : forall (i : 'I_n) t, (t < j.+1)%N -> get C i t = kv (mx n n A) (mx n 1 B) t i 0.
  by move=> i' t' ht; have := congr1 (fun M : 'M_(n, j.+1) => M i' (Ordinal ht)) e; rewrite !mxE.
rewrite get_mk ?C1 ?C2 ?addn1 //=; case: ifP => [/eg //|/negbT]; rewrite -leqNgt => ht.
have -> : (t : nat) = j.+1 by have := ltn_ord t; lia.
rewrite subnn get_mk // ?A1 // sumNE A2 [kv _ _ _]/= mxE; apply: eq_bigr => k _.
by rewrite get_mk ?C1 //= -/(kv _ _ j) -eg // !mxE.
Qed.

Lemma krylovP (A B : arr R) n k : nr A = n -> nc A = n -> 
  forall C j, wfa C -> nr C = n -> nc C = j.+1 -> mx n j.+1 C = kmx (mx n n A) (mx n 1 B) j.+1 ->
  indep (mx n n A) (mx n 1 B) j.+1 -> (j.+1 + k = n)%N ->
  exists m, let C' := krylov A C k in
   [/\ [/\ wfa C', nr C' = n, nc C' = m.+1 & (0 < m)%N], mx n m.+1 C' = kmx (mx n n A) (mx n 1 B) m.+1,
       indep (mx n n A) (mx n 1 B) m & ~ indep (mx n n A) (mx n 1 B) m.+1].
Proof.
move=> A1 A2; elim: k => [|k IH] C j wC C1 C2 e hi hk; rewrite /krylov -/krylov.
  exists j.+1; split=> //=; first by split=> //; rewrite ?wfa_mk ?C2 ?addn1.
    exact: (@krylov_step A B C n j).
  by move/indep_le; move: hk; rewrite addn0 => ->; rewrite ltnn.
have eC := @krylov_step A B C n j A1 A2 C1 C2 e; rewrite /= in eC.
set C' := ahcat _ _ in eC *.
have nC' : nc C' = j.+2 by rewrite /C' /= C2 addn1.
have w' : wfa C' by exact: wfa_mk.
have rk : arank C' = \rank (kmx (mx n n A) (mx n 1 B) j.+2).
  by rewrite (@arankP _ _ n j.+2) // -eC; congr (\rank _); apply/matrixP => i t; rewrite !mxE.
case: ifP => [hr|/negbT/negbNE].
  exists j.+1; split=> //; move/indepP => /eqP h.
  by move: hr; rewrite rk nC' h eqxx.
by rewrite rk nC' => /indepP h; apply: (IH C' j.+1) => //; rewrite -hk addSn addnS.
Qed.

Lemma nth_sca (sc : seq R) i : all (fun x => x != 0) sc -> (i < size sc)%N -> nth 0 sc i != 0.
Proof. by move=> /all_nthP h hi; apply: h. Qed.

(* the balancing is the similarity by diag(sc) *)
Lemma balP (a b : arr R) (sc : seq R) n : size sc = n -> all (fun x => x != 0) sc ->
  let D := \matrix_(i < n, j < n) (nth 0 sc i *+ (i == j)) in
  [/\ D \in unitmx,
   mx n n (mk n n (fun i j => (nth 0 sc i)^-1 * get a i j * nth 0 sc j)) = invmx D *m mx n n a *m D &
   mx n 1 (mk n 1 (fun i _ => get b i 0 * (nth 0 sc i)^-1)) = invmx D *m mx n 1 b].
Proof.
move=> ss sn0 D; pose E := \matrix_(i < n, j < n) ((nth 0 sc i)^-1 *+ (i == j)).
have dl : forall m (g : 'I_n -> R) (M : 'M_(n, m)), (\matrix_(i, j) (g i *+ (i == j))) *m M = \matrix_(i, j) (g i * M i j).
  move=> m g M; apply/matrixP => i j; rewrite !mxE (bigD1 i) //= mxE eqxx mulr1n big1 ?addr0 // => k ki.
  by rewrite mxE eq_sym (negbTE ki) mulr0n mul0r.
have dr : forall m (g : 'I_n -> R) (M : 'M_(m, n)), M *m (\matrix_(i, j) (g i *+ (i == j))) = \matrix_(i, j) (M i j * g j).
  move=> m g M; apply/matrixP => i j; rewrite !mxE (bigD1 j) //= mxE eqxx mulr1n big1 ?addr0 // => k ki.
  by rewrite mxE (negbTE ki) mulr0n mulr0.
have DE : D *m E = 1%:M.
  apply/matrixP => i j; rewrite (dl n (fun i => nth 0 sc i)) !mxE.
  case: eqP => _; rewrite ?mulr0n ?mulr0 // mulr1n mulfV // nth_sca // ss //.
have [uD uE] := mulmx1_unit DE; have iD : invmx D = E.
  by rewrite -[RHS](mulKmx uD) DE mulmx1.
rewrite iD; split=> //.
  rewrite (dl n (fun i => (nth 0 sc i)^-1)) (dr n (fun i => nth 0 sc i)) mxof_mk.
  by apply/matrixP => i j; rewrite !mxE.
rewrite (dl 1%N (fun i => (nth 0 sc i)^-1)) mxof_mk.
by apply/matrixP => i j; rewrite !mxE (ord1 j) mulrC.
Qed.

Lemma svd_mono (s : arr R) i i' : (i <= i')%N -> (i' < nr s)%N -> (i' < nc s)%N ->
  (forall i, (i.+1 < nr s)%N -> (i.+1 < nc s)%N -> get s i i = 0 -> get s i.+1 i.+1 = 0) ->
  get s i i = 0 -> get s i' i' = 0.
Proof.
move=> + + + h; elim: i' => [|i' IH]; first by case: i.
rewrite leq_eqVlt => /orP[/eqP->//|] hi hr hc h0; apply: h => //.
by apply: IH => //; [exact: ltnW|exact: ltnW].
Qed.

Lemma adj_coef0 (l : seq R) x z : (z < (size l).-1)%N ->
  adj_coef l x 0 z = (polyhi l)`_(x + ((size l).-1 - z.+1)).+1.
Proof.
move=> hz; rewrite /adj_coef coef_polyhi.
have e : (size l - (x + ((size l).-1 - z.+1)).+2 = z - x)%N by slia R.
case: (eqVneq x 0%N) => [->|x0]; first rewrite subn0 hz; last rewrite lt0n x0 subn0.
  rewrite ifT; first by congr nth; slia R. slia R.
case: ifP => h1; last by rewrite ifF //; slia R.
by rewrite ifT ?ifT //; first congr nth; slia R.
Qed.

Lemma lcm_manyP sca svd (ps : seq (seq R)) : (forall a, sca_ok a (sca a)) ->
  (forall C, wfa C -> svd_ok C (svd C)) -> ps != [::] -> all (@okp R) ps ->
  exists l ms, [/\ lcm_many sca svd ps = Ok (l, ms),
   (1 < size l)%N /\ head 0 l = 1,
   forall q, (polyhi l %| q) <-> (forall p, p \in ps -> polyhi p %| q),
   size ms = size ps &
   forall i, (i < size ps)%N -> polyhi (nth [::] ms i) * monp (nth [::] ps i) = polyhi l].
Proof.
move=> hsca hsvd ps0 hps; rewrite /lcm_many.
have [cs [-> [n [[a1 a2 b1 b2] [c1 c2] han hmu]]]] := blockP hps.
rewrite [bind (Ok cs) _]/= -/(bcol ps) -/(crow ps) a1 b1 eqxx.
set a := adiag cs in a1 a2 han hmu *; set b := bcol ps in b1 b2 han hmu *.
set c := crow ps in c1 c2 hmu *.
have [ss sn0] := hsca a; rewrite a1 in ss; set sc := sca a in ss sn0 *.
set As := mk n n _; set Bs := mk n 1 _.
have [uD eA eB] := @balP a b sc n ss sn0; rewrite -/As -/Bs in eA eB.
set D := \matrix_(i, j) _ in uD eA eB.
have han' : forall q, (forall p, p \in ps -> polyhi p %| q) <-> ann (mx n n As) (mx n 1 Bs) q = 0.
  by move=> q; rewrite eA eB; apply: (iff_trans (han q)); apply: iff_sym; exact: ann_sim.
have [p [hp pin]] : exists p, okp p /\ p \in ps.
  case: ps ps0 hps {han hmu han' c1 c a a1 a2 b b1 b2 c2 ss sn0 sc As Bs eA eB D uD} => // p ps _ /= /andP[hp _].
  by exists p; rewrite inE eqxx.
have sp : (1 < size (polyhi p))%N by case/andP: hp => h1 h2; rewrite size_polyhi_trim.
have B0 : mx n 1 Bs != 0.
  apply/eqP => h; have /han' : ann (mx n n As) (mx n 1 Bs) 1 = 0.
    by rewrite /ann size_poly1 big_ord1 /= h scaler0.
  by move/(_ p pin); rewrite dvdp1 => /eqP e; rewrite e in sp.
have n0 : (0 < n)%N.
  by rewrite lt0n; apply/eqP => h; move/eqP: B0; apply; apply/colP => i; have := ltn_ord i; rewrite {2}h.
have eB1 : mx n 1 Bs = kmx (mx n n As) (mx n 1 Bs) 1.
  by apply/matrixP => i j; rewrite (ord1 j) [RHS]mxE.
have [m [[wC C1 C2 m0] eC hi hd]] := @krylovP As Bs n n.-1 erefl erefl Bs 0%N (wfa_mk _ _ _) erefl erefl
   eB1 (indep1 (A := mx n n As) B0) (prednK n0).
set C := krylov As Bs n.-1 in wC C1 C2 eC *.
have := hsvd C wC; case: (svd C) => -[u s] v [[]].
rewrite C1 C2 => -[u1 u2] [s1 s2] [v1 v2] eCusv [du dv] off mono.
have mn : (m <= n)%N := indep_le hi.
have uu : mx n n u \in unitmx by rewrite unit_adet.
have uv : mx m.+1 m.+1 v \in unitmx by rewrite unit_adet.
have eK : kmx (mx n n As) (mx n 1 Bs) m.+1 = mx n n u *m mx n m.+1 s *m mx m.+1 m.+1 v.
  by rewrite -eC eCusv (@mxof_mul _ _ _ n m.+1 m.+1) //= (@mxof_mul _ _ _ n n m.+1).
have off' : forall (i : 'I_n) (j : 'I_m.+1), i != j :> nat -> mx n m.+1 s i j = 0.
  by move=> i j /eqP ij; rewrite mxE /= off // ?s1 ?s2.
have mono' : forall (i i' : 'I_n) (j j' : 'I_m.+1), i = j :> nat -> i' = j' :> nat -> (i <= i')%N ->
    mx n m.+1 s i j = 0 -> mx n m.+1 s i' j' = 0.
  move=> i i' j j' ij ij' ii'; rewrite !mxE /= -ij -ij' => h.
  by apply: (@svd_mono s i i') => //; rewrite ?s1 ?s2 // ij'.
have [] := @kry_solve _ n m (mx n n As) (mx n 1 Bs) _ _ _ uu uv eK off' mono' hi hd mn.
set T := _ *m mx _ _ v; set T11 := \matrix_(i, j) _; set T12 := \col_i _ => uT11 hsol.
rewrite [m.+1.-1]/=.
set U := asubm (amul s v) 0 m 0 m; set W := aneg _.
have eT : mx n m.+1 (amul s v) = T by rewrite (@mxof_mul _ _ _ n m.+1 m.+1).
clearbody T; have eTg : forall i j (hi : (i < n)%N) (hj : (j < m.+1)%N), get (amul s v) i j = T (Ordinal hi) (Ordinal hj).
  by move=> i j hi' hj; rewrite -eT mxE.
have eU : mx m m U = T11.
  apply/matrixP => i j; rewrite mxE /= /U /asubm get_mk ?subn0 //= !add0n mxE.
  rewrite (eTg i j (leq_trans (ltn_ord i) mn) (ltnW (ltn_ord j))); congr (T _ _); exact: val_inj.
have eW : mx m 1 W = - T12.
  apply/matrixP => i j; rewrite (ord1 j) mxE /= /W /aneg /amap /asubm /= get_mk ?subn0 ?subSnn //= get_mk ?subn0 ?subSnn //= !mxE addn0.
  rewrite (eTg i m (leq_trans (ltn_ord i) mn) (ltnSn m)); congr (- T _ _); exact: val_inj.
have U1 : nr U = m by rewrite /U nr_mk subn0.
have U2 : nc U = m by rewrite /U nc_mk subn0.
have W1 : nr W = m by rewrite /W !nr_mk subn0.
have W2 : nc W = 1%N by rewrite /W !nc_mk subSnn.
clearbody U W; have dU : adet U != 0 by rewrite -(unit_adet [rmorphism of idfun] U1) eU.
rewrite (np_solveP U1 U2 W1 W2) (negbTE dU) /bind -/bind.
set x := amul (ainv U) W.
have x1 : nr x = m by rewrite /x /amul /ainv /ascale /amap !nr_mk.
have ex : mx m 1 x = invmx T11 *m - T12.
  rewrite /x (@mxof_mul _ _ _ m m 1) ?mxof_inv ?eU ?eW // /ainv /ascale /amap ?nr_mk ?nc_mk //.
clearbody x; rewrite x1.
have {hsol} := hsol (mx m 1 x); rewrite ex mulKVmx // => /(_ erefl); rewrite -ex => hann.
set l := rev _.
have sl : size l = m.+1 by rewrite /l size_rev size_cat size_mkseq addn1.
have el : polyhi l = 'X^m + rVpoly (mx m 1 x)^T.
  rewrite /polyhi /l revK; apply/polyP => k; rewrite coef_Poly coefD coefXn coef_rVpoly nth_cat size_mkseq.
  case: ltngtP => km.
  - by rewrite insubT add0r nth_mkseq // !mxE.
  - by rewrite insubF ?addr0 ?nth_default /= ?subn_gt0 // ltnNge ltnW.
  - by rewrite km subnn insubF ?ltnn // addr0.
rewrite -el in hann; rewrite sl [_.-1]/=.
have hl : head 0 l = 1 by rewrite /l rev_cat.
have hl1 : head 1 l != 0 by rewrite /l rev_cat /= oner_neq0.
have ql : forall q, (polyhi l %| q) <-> (forall p, p \in ps -> polyhi p %| q).
  move=> q; apply: (iff_trans _ (iff_sym (han' q))); apply: ann_min => //.
    by rewrite -size_poly_gt0 size_polyhi_trim ?sl //.
  by move=> r hr; apply: hi; move: hr; rewrite size_polyhi_trim ?sl //.
rewrite c1 c2; set c' := mk (size ps) n _; set Ck := asubm C 0 n 0 m.
have eCk : mx n m Ck = kmx (mx n n As) (mx n 1 Bs) m.
  apply/matrixP => i j; rewrite mxE /= /Ck /asubm get_mk ?subn0 //= !add0n mxE.
  by have := congr1 (fun M : 'M_(n, m.+1) => M i (widen_ord (leqnSn m) j)) eC; rewrite !mxE.
have rk : \rank (mx n m Ck) = m by apply/eqP; rewrite eCk; apply/indepP.
rewrite /lstsq; set G := amul (aT Ck) Ck; set H := amul (aT Ck) Bs.
have eG : mx m m G = (mx n m Ck)^T *m mx n m Ck.
  by rewrite /G (@mxof_mul _ _ _ m n m) ?(@mxof_T _ _ _ n m) //= !subn0.
have eH : mx m 1 H = (mx n m Ck)^T *m mx n 1 Bs.
  by rewrite /H (@mxof_mul _ _ _ m n 1) ?(@mxof_T _ _ _ n m) //= !subn0.
have G1 : nr G = m by exact: subn0.
have G2 : nc G = m by exact: subn0.
have H1 : nr H = m by exact: subn0.
have H2 : nc H = 1%N by [].
clearbody G H; have dG : adet G != 0.
  rewrite -(unit_adet [rmorphism of idfun] G1) eG; exact: gram_unit.
rewrite (np_solveP G1 G2 H1 H2) (negbTE dG).
set bl := amul (ainv G) H.
have ebl0 : mx m 1 bl = invmx (mx m m G) *m mx m 1 H.
  rewrite /bl (@mxof_mul _ _ _ m m 1) ?mxof_inv // /ainv /ascale /amap ?nr_mk ?nc_mk //.
clearbody bl.
have ebl : forall y, (y < m)%N -> get bl y 0 = (y == 0%N)%:R.
  move=> y hy; have e : mx m 1 bl = \col_i (i == 0%N :> nat)%:R.
    have uG : mx m m G \in unitmx by rewrite (unit_adet _ G1).
    rewrite ebl0; apply: (can_inj (mulKmx uG)); rewrite mulKVmx //.
    rewrite eG eH -mulmxA; congr (_ *m _); apply/colP => i; rewrite [RHS]mxE (bigD1 (Ordinal m0)) //= eCk !mxE eqxx mulr1.
    rewrite big1 ?addr0 // => j j0; rewrite !mxE; case: eqP => [h|]; rewrite ?mulr0 //.
    by case/eqP: j0; apply: val_inj.
  by have := congr1 (fun M : 'cV_m => M (Ordinal hy) 0) e; rewrite !mxE.
do 2!eexists; split; [reflexivity| by rewrite sl ltnS m0 hl|exact: ql|by rewrite size_mkseq|].
move=> i ips; rewrite nth_mkseq //.
have pin' : nth [::] ps i \in ps by apply: mem_nth.
have hpi : okp (nth [::] ps i) by move/allP: hps; apply.
have : monp (nth [::] ps i) %| polyhi l.
  rewrite /monp dvdpZl; first by apply: (proj1 (ql _)) => //; rewrite dvdpp.
  by rewrite invr_eq0; case/andP: hpi.
move=> /dvdpP[q eq]; rewrite eq; congr (_ * _); apply/polyP => e.
have spl : (size (nth [::] ps i) <= m.+1)%N.
  rewrite -sl -size_polyhi_trim; last by case/andP: hpi.
  rewrite -[size l]size_polyhi_trim; last exact: hl1.
  apply: dvdp_leq; last by apply: (proj1 (ql _)) => //; rewrite dvdpp.
  by rewrite -size_poly_gt0 size_polyhi_trim ?sl //.
rewrite -(hmu i ips q m e) //; last by rewrite -eq -sl size_polyhi_le.
rewrite -eq coef_polyhi size_mkseq; case: (ltnP e m) => em; last first.
  rewrite big1 // => t _; rewrite [(polyhi l)`_ _]nth_default ?mulr0 //.
  apply: leq_trans (size_polyhi_le _) _; by rewrite sl ltnS (leq_trans em) // leq_addl.
rewrite nth_mkseq; last by rewrite ltn_subrL m0.
rewrite sumNE; apply: eq_bigr => t _; congr (_ * _); last first.
  rewrite sumNE (bigD1 (Ordinal m0)) //= ebl // eqxx mulr1 big1 ?addr0.
    rewrite adj_coef0 ?sl /=; last by rewrite ltn_subrL m0.
    by congr (_`_ (_ + _).+1); move: em; clear; lia.
  move=> y y0; rewrite ebl // (_ : (y : nat) == 0%N = false) ?mulr0 //.
  by apply/negbTE; apply: contra y0 => /eqP h; rewrite -val_eqE /= h.
rewrite /amul get_mk; [|by []|by rewrite nc_mk subn0 ltn_ord]; rewrite sumNE; apply: eq_bigr => j _; rewrite /c' get_mk // -mulrA; congr (_ * _).
have -> : get Ck j t = kmx (mx n n As) (mx n 1 Bs) m j t by rewrite -eCk mxE.
rewrite mxE eA eB kv_sim //.
have := congr1 (fun M : 'cV_n => M j 0) (mulKVmx uD (kv (mx n n a) (mx n 1 b) t)).
rewrite mxE (bigD1 j) //= big1 ?addr0; first by rewrite mxE eqxx mulr1n => <-.
by move=> k kj; rewrite mxE eq_sym (negbTE kj) mulr0n mul0r.
Qed.

Lemma clean0 (p : seq R) : clean 0 p = p.
Proof. by rewrite /clean -[RHS]map_id; apply: eq_map => x; rewrite normr_lt0. Qed.

Lemma lcm_oneP c (p : seq R) : c != 0 -> p != [::] ->
  exists l ms, [/\ lcm_one (c :: p) = Ok (l, ms), head 0 l = 1, (1 < size l)%N,
   polyhi l = monp (c :: p) & ms = [:: rcons (nseq (size p).-1 0) 1]].
Proof.
move=> c0 p0; rewrite /lcm_one /= (negbTE c0) size_map size_eq0 (negbTE p0).
do 2!eexists; split; first reflexivity.
- by rewrite /= mulfV.
- by rewrite /= size_map ltnS lt0n size_eq0.
- rewrite /monp /= -polyhi_scale /=; congr (polyhi (_ :: _)); first by rewrite mulrC.
  by apply: eq_map => x; rewrite mulrC.
- by [].
Qed.

Definition good (p : seq R) := (p != [::]) && (head 1 p != 0).

Lemma monp1 c : c != 0 -> monp [:: c : R] = 1.
Proof. by move=> c0; rewrite /monp /= polyhi1 -mul_polyC -polyCM mulVf. Qed.

Lemma good_cases (p : seq R) : good p ->
  if (1 < size p)%N then (okp p : Prop) else exists2 c, p = [:: c] & c != 0.
Proof.
case: p => [|c [|d p]] //= /andP[_ h]; first by exists c.
Qed.

Lemma placeP (args : seq (seq R)) l ms : all good args -> 
  size ms = count (fun x => 1 < size x)%N args ->
  (forall i, (i < size ms)%N ->
     polyhi (nth [::] ms i) * monp (nth [::] [seq x <- args | (1 < size x)%N] i) = polyhi l) ->
  size (place args l ms) = size args /\
  forall i, (i < size args)%N -> polyhi (nth [::] (place args l ms) i) * monp (nth [::] args i) = polyhi l.
Proof.
elim: args ms => [|p args IH] ms //= /andP[gp /IH{}IH].
have := good_cases gp; case: ifP => h /=.
  case: ms => // m ms _ [sm] hm; have [|i hi|h1 h2] := IH ms => //.
    by have := hm i.+1; rewrite /= ltnS; apply.
  split; first by rewrite /= h1.
  by case=> [|i] hi /=; [exact: (hm 0%N) | exact: h2].
case=> c -> c0; rewrite add0n => sm hm; have [h1 h2] := IH ms sm hm.
split; first by rewrite /= h1.
by case=> [|i] hi /=; [rewrite monp1 ?mulr1 | exact: h2].
Qed.

Lemma lcm_full sca svd (args : seq (seq R)) : (forall a, sca_ok a (sca a)) ->
  (forall C, wfa C -> svd_ok C (svd C)) -> args != [::] -> all good args ->
  exists l ms, [/\ haroldlcm sca svd 0 args = Ok (l, ms), head 0 l = 1, is_lcm args (polyhi l),
    size ms = size args &
    forall i, (i < size args)%N ->
      head 0 (nth [::] ms i) != 0 /\ polyhi (nth [::] ms i) * monp (nth [::] args i) = polyhi l].
Proof.
move=> hsca hsvd a0 ga; rewrite /haroldlcm.
have -> : has (fun x => size x == 0%N) args = false.
  apply/negbTE/hasPn => x hx; move/allP: ga => /(_ x hx) /andP[]; by rewrite size_eq0.
case: ifP => hall.
  exists [:: 1], (nseq (size args) [:: 1]); split=> //.
  - rewrite polyhi1 => q; rewrite dvd1p; split=> // _ p hp.
    have := good_cases (allP ga _ hp); move/allP: hall => /(_ p hp) /eqP ->.
    by case=> c -> c0; rewrite polyhi1 -[c%:P]mulr1 mul_polyC dvdpZl // dvd1p.
  - by rewrite size_nseq.
  move=> i hi; rewrite nth_nseq hi; split; first exact: oner_neq0.
  have hp := mem_nth [::] hi; have := good_cases (allP ga _ hp); move/allP: hall => /(_ _ hp) /eqP ->.
  by case=> c -> c0; rewrite monp1 // polyhi1 mulr1.
set popped := filter _ args.
have pok : all (@okp R) popped.
  apply/allP => x; rewrite mem_filter => /andP[h hx]; have := good_cases (allP ga _ hx); by rewrite h.
have p0 : popped != [::].
  apply/negP; rewrite -size_eq0 size_filter -leqn0 -ltnS leqNgt ltnS -has_count; apply/negP/negPn.
  move/negbT: hall; rewrite -has_predC; case/hasP => x hx /= h1; apply/hasP; exists x => //.
  by have := allP ga _ hx; case: (x) h1 => [|? []].
have [l [ms [-> hl hlc sm hm]]] : exists l ms,
  [/\ (if (1 < size popped)%N then lcm_many sca svd popped else lcm_one (head [::] popped)) = Ok (l, ms),
   (1 < size l)%N /\ head 0 l = 1,
   forall q, (polyhi l %| q) <-> (forall p, p \in popped -> polyhi p %| q), size ms = size popped &
   forall i, (i < size popped)%N -> polyhi (nth [::] ms i) * monp (nth [::] popped i) = polyhi l].
  case: ifP => hs; first exact: lcm_manyP.
  move: p0 pok hs; case: popped => [|[|c p] [|]] //= _ /andP[/andP[hp hc] _] _.
  have p0 : p != [::] by rewrite -size_eq0 -lt0n; move: hp; rewrite /= ltnS.
  have [l [ms [-> h1 h2 h3 h4]]] := lcm_oneP hc p0; exists l, ms; split=> //.
  - move=> q; rewrite h3 /monp dvdpZl ?invr_eq0 //=; split=> [h r|]; last by apply; rewrite inE.
    by rewrite inE => /eqP->.
  - by rewrite h4.
  case=> //= _; rewrite h4 h3 /= -cats1 polyhi_cat polyhi_nseq0 mul0r add0r polyhi1 mul1r //.
have {}sm' : size ms = count (fun x => 1 < size x)%N args by rewrite sm size_filter.
have [|h1 h2] := @placeP args l ms ga sm'.
  by move=> i hi; apply: hm; rewrite -sm.
rewrite /=; exists (clean 0 l), [seq trimf (clean 0 m) | m <- place args l ms].
rewrite clean0; have hl1 : polyhi l != 0.
  rewrite -size_poly_gt0 size_polyhi_trim; first by case: hl => /ltnW.
  by case: hl; case: (l) => //= y ys _ ->; exact: oner_neq0.
split=> //; first by case: hl.
- move=> q; rewrite hlc; split=> h p hp; last by apply: h; move: hp; rewrite mem_filter => /andP[].
  have := good_cases (allP ga _ hp); case: ifP => hs; first by move=> _; apply: h; rewrite mem_filter hs.
  by case=> c -> c0; rewrite polyhi1 -[c%:P]mulr1 mul_polyC dvdpZl // dvd1p.
- by rewrite size_map.
move=> i hi; rewrite (nth_map [::]) ?h1 // clean0 polyhi_trimf h2 //; split=> //.
have := lead_trimf (nth [::] (place args l ms) i).
have : trimf (nth [::] (place args l ms) i) != [::].
  by rewrite trimf_nil; apply/eqP => e; move: hl1; rewrite -(h2 i hi) e mul0r eqxx.
by case: (trimf _).
Qed.

(* a nonconstant argument with leading zeros is rejected *)
Lemma nr_companion (p : seq R) A : haroldcompanion p = Ok A -> (1 < size (polyhi p))%N ->
  nr A = (size (polyhi p)).-1.
Proof.
move=> e h; have t0 : trimf p != [::] by rewrite trimf_nil -size_poly_gt0 ltnW.
rewrite companion_trim // in e; move: e h (lead_trimf p); rewrite -size_trimf.
case: (trimf p) t0 => // c t _ e /= ht c0.
have t0 : t != [::] by rewrite -size_eq0 -lt0n.
by have [B [E _ n1 _ _]] := companionP c0 t0; move: e; rewrite E => -[<-].
Qed.

Lemma lcm_leading_zero sca svd eps (args : seq (seq R)) p q :
  (forall x, x \in args -> x != [::] /\ ((1 < size x)%N -> (1 < size (polyhi x))%N)) ->
  [seq x <- args | (1 < size x)%N] = p :: q ->
  q != [::] -> (exists x, [/\ x \in args, (1 < size x)%N & head 1 x = 0]) ->
  haroldlcm sca svd eps args = Err ValueError.
Proof.
move=> hall ep q0 [x [hx sx x0]]; rewrite /haroldlcm.
have -> : has (fun x => size x == 0%N) args = false.
  by apply/negbTE/hasPn => y hy; rewrite size_eq0; case: (hall y hy).
have -> : all (fun x => size x == 1%N) args = false.
  by apply/negbTE/allPn; exists x => //; move: sx; case: (size x) => [|[]].
have xin : x \in p :: q by rewrite -ep mem_filter sx.
have hall' : forall y, y \in p :: q -> (1 < size (polyhi y))%N /\ (1 < size y)%N.
  by move=> y; rewrite -ep mem_filter => /andP[sy /hall[_ ->]].
rewrite ep ifT; last by rewrite /= ltnS lt0n size_eq0.
rewrite /lcm_many; set ps := p :: q in xin hall' *; clearbody ps.
have [cs [-> ecs]] : exists cs, foldr (fun x acc => do a <- haroldcompanion x; do t <- acc; Ok (a :: t)) (Ok [::]) ps = Ok cs /\
    nr (adiag cs) = sumn [seq (size (polyhi y)).-1 | y <- ps].
  elim: ps hall' {xin} => [|y ps IH] h; first by exists [::].
  have [|cs [ecs ec]] := IH; first by move=> z hz; apply: h; rewrite inE hz orbT.
  have [sy _] := h y (mem_head _ _).
  have [A eA] : exists A, haroldcompanion y = Ok A.
    have t0 : trimf y != [::] by rewrite trimf_nil -size_poly_gt0 ltnW.
    rewrite companion_trim //; move: (lead_trimf y) sy; rewrite -size_trimf.
    case: (trimf y) t0 => // c t _ /= c0 ht.
    have t0 : t != [::] by rewrite -size_eq0 -lt0n.
    by have [B [E _ _ _ _]] := companionP c0 t0; exists B.
  by rewrite /= eA /= ecs; exists (A :: cs); split=> //=; rewrite (nr_companion eA) // -ec.
rewrite /= ifF //; apply/negbTE; rewrite ecs neq_ltn orbC; apply/orP; left.
have -> : forall ps : seq (seq R), nr (foldr (fun x acc => avcat (unitcol R (size x).-1 (size x).-2) acc) (azeros 0 1) ps) = sumn [seq (size y).-1 | y <- ps].
  by elim=> //= y zs ->.
elim: ps xin hall' {ecs} => // y ps IH; rewrite inE => hy h /=.
have [h1 h2] := h y (mem_head _ _); have h3 := size_polyhi_le y.
have le : (sumn [seq (size (polyhi y)).-1 | y <- ps] <= sumn [seq (size y).-1 | y <- ps])%N.
  by elim: (ps) => //= z zs IH'; rewrite leq_add // -!subn1 leq_sub2r // size_polyhi_le.
case/orP: hy => [/eqP e|hy]; last first.
  rewrite -addnS leq_add // -?subn1 ?leq_sub2r //; apply: IH => // z hz; apply: h; by rewrite inE hz orbT.
have : (size (polyhi y) < size y)%N.
  rewrite -e; move: x0 sx; case: (x) => //= c z -> _.
  by rewrite polyhi_cons scale0r add0r ltnS size_polyhi_le.
by move=> h4; rewrite -addSn leq_add // -ltnS !prednK // ltnW.
Qed.

(* a positive threshold can destroy the result *)
Lemma lcm_threshold sca svd (eps : R) : 0 < eps ->
  exists2 args, all good args &
  exists l ms, haroldlcm sca svd eps args = Ok (l, ms) /\ ~ is_lcm args (polyhi l).
Proof.
move=> e0; pose d := eps / 2%:R; have d0 : 0 < d by rewrite divr_gt0 ?ltr0n.
exists [:: [:: 1; d]]; first by rewrite /good /= oner_neq0.
rewrite /haroldlcm /= /lcm_one /= oner_eq0 /=; do 2!eexists; split; first reflexivity.
move=> h; have := proj2 (h (polyhi [:: 1; d])).
rewrite !divr1 => /(_ (fun p hp => ltac:(by move: hp; rewrite inE => /eqP->; rewrite dvdpp))).
have dlt : `|d| < eps by rewrite gtr0_norm // /d ltr_pdivr_mulr ?ltr0n // ltr_pmulr ?ltr1n.
have e1 : polyhi [:: 1; d] = 'X - (- d)%:P by rewrite polyhi_cons polyhi1 scale1r expr1 polyCN opprK.
rewrite /clean /= dlt; case: ifP => _.
  rewrite (polyhi_nseq0 _ 2) dvd0p -size_poly_eq0 e1 size_XsubC //.
rewrite [polyhi [:: 1; 0]](_ : _ = 'X - 0%:P); last by rewrite polyhi_cons polyhi1 scale1r expr1 polyC0 addr0 subr0.
by rewrite dvdp_XsubCl rootE e1 !hornerE ?opprK ?add0r (gt_eqF d0).
Qed.

Lemma head_lead (p : seq R) : p != [::] -> head 1 p != 0 -> lead_coef (polyhi p) = head 1 p.
Proof. by case: p => // c p _ /= c0; rewrite lead_coef_polyhi. Qed.

Lemma lcm_spec_full sca svd (args : seq (seq R)) : (forall a, sca_ok a (sca a)) ->
  (forall C, wfa C -> svd_ok C (svd C)) -> args != [::] ->
  (forall p, p \in args -> p != [::] /\ head 1 p != 0) ->
  exists l ms, [/\ haroldlcm sca svd 0 args = Ok (l, ms), polyhi l \is monic, is_lcm args (polyhi l),
    size ms = size args &
    forall i, (i < size args)%N -> let p := polyhi (nth [::] args i) in
      polyhi (nth [::] ms i) * ((lead_coef p)^-1 *: p) = polyhi l].
Proof.
move=> h1 h2 a0 ha; have ga : all good args by apply/allP => p /ha[p0 hp]; rewrite /good p0.
have [l [ms [e hl hlc sm hm]]] := lcm_full h1 h2 a0 ga; exists l, ms; split=> //.
  case: l hl {e hlc hm} => [/eqP|c l /= ->]; first by rewrite eq_sym oner_eq0.
  by apply/monicP; rewrite lead_coef_polyhi // oner_neq0.
move=> i hi; rewrite /= head_lead; [|by case: (ha _ (mem_nth [::] hi))|by case: (ha _ (mem_nth [::] hi))].
by case: (hm i hi).
Qed.

(* the contracts can be met: a factorisation u s v exists for every matrix *)
Definition arr_of m n (M : 'M[R]_(m, n)) : arr R :=
  mk m n (fun i j => if insub i is Some i' then (if insub j is Some j' then M i' j' else 0) else 0).

Lemma arr_ofK m n (M : 'M[R]_(m, n)) : mx m n (arr_of M) = M.
Proof. by rewrite mxof_mk; apply/matrixP => i j; rewrite mxE /= !valK. Qed.

Lemma get_arr_of m n (M : 'M[R]_(m, n)) i j (hi : (i < m)%N) (hj : (j < n)%N) :
  get (arr_of M) i j = M (Ordinal hi) (Ordinal hj).
Proof.
have := congr1 (fun N : 'M_(m, n) => N (Ordinal hi) (Ordinal hj)) (arr_ofK M).
by rewrite mxE.
Qed.

Definition svd0 (C : arr R) : arr R * arr R * arr R :=
  let M := mx (nr C) (nc C) C in
  (arr_of (col_ebase M), arr_of (pid_mx (\rank M) : 'M_(nr C, nc C)), arr_of (row_ebase M)).

Lemma svd0_ok C : wfa C -> svd_ok C (svd0 C).
Proof.
move=> wC; set M := mx (nr C) (nc C) C; split=> //.
- apply: (@mxof_inj _ _ [rmorphism of idfun] (nr C) (nc C)) => //; first exact: wfa_mul.
  by rewrite (@mxof_mul _ _ _ (nr C) (nc C) (nc C)) // (@mxof_mul _ _ _ (nr C) (nr C) (nc C)) // !arr_ofK mulmx_ebase.
- by rewrite -!(unit_adet [rmorphism of idfun] (erefl _)) !arr_ofK col_ebase_unit row_ebase_unit.
- move=> i j hi hj ij; rewrite (get_arr_of _ hi hj) mxE /=; case: eqP => // e; case: ij; exact: e.
- move=> i hi hj; rewrite (get_arr_of _ hi hj) (get_arr_of _ (ltnW hi) (ltnW hj)) !mxE !eqxx /=.
  case: (ltnP i) => h; first by move/eqP; rewrite oner_eq0.
  by rewrite ltnNge (leq_trans h).
Qed.

Definition sca0 (a : arr R) : seq R := nseq (nr a) 1.
Lemma sca0_ok a : sca_ok a (sca0 a).
Proof. by split; rewrite ?size_nseq // all_nseq oner_neq0 orbT. Qed.

End LcmR.
