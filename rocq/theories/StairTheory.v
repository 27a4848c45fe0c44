(* The staircase loop: similarity and block structure. *)
From mathcomp Require Import all_ssreflect all_algebra zify.
From Coq Require Import String.
From Verif Require Import Base BaseTheory Spec ModelState Denote StateTheory StateProps ModelAux AuxTheory ModelSim SpecSim SimTheory ModelKalman KalmanTheory
  ModelFreq FreqTheory ModelLyap SpecLyap LyapTheory TransferTheory ModelMin SpecMin.

Set Implicit Arguments.
Unset Strict Implicit.
Unset Printing Implicit Defensive.

Import Order.TTheory GRing.Theory Num.Theory.
Local Open Scope ring_scope.

Section Stair.
Variable R : realFieldType.
Local Notation mx := (mxof [rmorphism of @idfun R]).
Implicit Types (A B C T u v : arr R).

Definition ann n m (A : 'M[R]_n) (B : 'M[R]_(n, m)) (x : 'rV[R]_n) := forall j, x *m mpow A j *m B = 0.

Lemma ann_A n m (A : 'M[R]_n) (B : 'M[R]_(n, m)) x : ann A B x -> ann A B (x *m A).
Proof. by move=> h j; rewrite -(mulmxA x) -[A *m mpow A j]/(mpow A j.+1). Qed.

Lemma mpow_sim n (T A A' : 'M[R]_n) j : T *m A = A' *m T -> T *m mpow A j = mpow A' j *m T.
Proof.
move=> h; elim: j => [|j IH] /=; first by rewrite mulmx1 mul1mx.
by rewrite mulmxA h -mulmxA IH mulmxA.
Qed.

Lemma ann_sim n m (T A A' : 'M[R]_n) (B B' : 'M[R]_(n, m)) x : T *m A = A' *m T -> T *m B = B' -> ann A' B' x -> ann A B (x *m T).
Proof. by move=> hA hB h j; rewrite -!mulmxA (mulmxA T) (mpow_sim _ hA) -!mulmxA hB mulmxA h. Qed.

(* the block diagonal matrix of the identity of size k and u *)
Definition bd n k u : 'M[R]_n := \matrix_(i, j) (if (i < k)%N || (j < k)%N then (i == j :> nat)%:R else get u (i - k) (j - k)).

Section Bd.
Variables (k q : nat) (u : arr R).
Let n := (k + q)%N.
Hypothesis ou : (mx q q u)^T *m mx q q u = 1%:M.

Lemma bdE : bd n k u = block_mx 1%:M 0 0 (mx q q u).
Proof.
apply/matrixP => i j; rewrite mxE; case: (splitP i) => a ea; case: (splitP j) => b eb.
- have -> : i = lshift q a by apply: val_inj. have -> : j = lshift q b by apply: val_inj.
  by rewrite block_mxEul mxE.
- have -> : i = lshift q a by apply: val_inj. have -> : j = rshift k b by apply: val_inj.
  by rewrite block_mxEur mxE /=; case: eqP => // e; have := ltn_ord a; rewrite e ltnNge leq_addr.
- have -> : i = rshift k a by apply: val_inj. have -> : j = lshift q b by apply: val_inj.
  by rewrite block_mxEdl mxE /=; case: eqP => // e; have := ltn_ord b; rewrite -e ltnNge leq_addr.
have -> : i = rshift k a by apply: val_inj. have -> : j = rshift k b by apply: val_inj.
by rewrite block_mxEdr mxE /= !addKn.
Qed.

Lemma bd_orth : (bd n k u)^T *m bd n k u = 1%:M.
Proof. by rewrite bdE tr_block_mx !trmx0 trmx1 mulmx_block !mulmx0 !mul0mx !addr0 add0r mulmx1 ou -scalar_mx_block. Qed.

Lemma sum_cut (g : nat -> R) : \sum_(i < n) g i = \sum_(i < k) g i + sumN q (fun l => g (k + l)%N).
Proof. by rewrite big_split_ord /= sumNE. Qed.

Lemma bd_l c (M : 'M[R]_(n, c)) (g : nat -> nat -> R) i j : (forall a b, M a b = g a b) ->
  ((bd n k u)^T *m M) i j = if (i < k)%N then g i j else sumN q (fun l => get u l (i - k) * g (k + l)%N j).
Proof.
move=> h; rewrite mxE.
rewrite (eq_bigr (fun a : 'I_n => (if (a < k)%N || (i < k)%N then (a == i :> nat)%:R else get u (a - k) (i - k)) * g a j)); last first.
  by move=> a _; rewrite !mxE h.
rewrite (sum_cut (fun a => (if (a < k)%N || (i < k)%N then (a == i :> nat)%:R else get u (a - k) (i - k)) * g a j)).
have [hi|hi] := ltnP i k.
  rewrite (bigD1 (Ordinal hi)) //= hi eqxx mul1r big1 ?addr0; last first.
    move=> a ha; rewrite ltn_ord /=; case: eqP => [e|_]; last by rewrite mul0r.
    by case/eqP: ha; apply: val_inj.
  rewrite sumNE big1 ?addr0 // => a _; rewrite orbT; case: eqP => [e|_]; last by rewrite mul0r.
  by move: hi; rewrite -e ltnNge leq_addr.
rewrite big1 ?add0r; last first.
  move=> a _; rewrite ltn_ord /=; case: eqP => [e|_]; last by rewrite mul0r.
  by move: hi; rewrite -e leqNgt ltn_ord.
by rewrite !sumNE; apply: eq_bigr => a _; rewrite (ltnNge _ k) leq_addr /= addKn.
Qed.

Lemma bd_r r (M : 'M[R]_(r, n)) (g : nat -> nat -> R) i j : (forall a b, M a b = g a b) ->
  (M *m bd n k u) i j = if (j < k)%N then g i j else sumN q (fun l => g i (k + l)%N * get u l (j - k)).
Proof.
move=> h; have -> : (M *m bd n k u) i j = ((bd n k u)^T *m M^T) j i by rewrite -trmx_mul [RHS]mxE.
rewrite (@bd_l _ _ (fun a b => g b a)); last by move=> a b; rewrite mxE h.
by case: ifP => // _; rewrite !sumNE; apply: eq_bigr => l _; rewrite mulrC.
Qed.
End Bd.

(* the new A0 of a round *)
Definition newA A u sv k nxt n :=
  let A1 := aput A 0 k (amul (asubm A 0 n k n) u) in
  let A2 := aput A1 k nxt sv in
  aput A2 k k (amul (aT u) (asubm A2 k n k n)).

Lemma newAE A u sv nxt z q : let k := (nxt + z)%N in let n := (k + q)%N in
  shp A = (n, n) -> shp u = (q, q) -> shp sv = (q, z) ->
  (forall i j, (k <= i < n)%N -> (j < nxt)%N -> get A i j = 0) ->
  (forall i j, (i < q)%N -> (j < z)%N -> get sv i j = sumN q (fun l => get u l i * get A (k + l) (nxt + j))) ->
  mx n n (newA A u sv k nxt n) = (bd n k u)^T *m mx n n A *m bd n k u.
Proof.
move=> k n [rA cA] [ru cu] [rv cv] hz hv.
set A1 := aput A 0 k (amul (asubm A 0 n k n) u).
have gA1 i j : (i < n)%N -> (j < n)%N -> get A1 i j = if (j < k)%N then get A i j else sumN q (fun l => get A i (k + l) * get u l (j - k)).
  move=> hi hj; rewrite get_aput ?rA ?cA // /inblk /= subn0 hi cu -/n hj /= andbT subn0 (leqNgt k).
  case: ltnP => // hk; rewrite /= get_mul /= ?subn0 ?cu //; last by move: hj hk; rewrite /n; clear; lia.
  rewrite [(n - k)%N]addKn !sumNE; apply: eq_bigr => l _; rewrite get_subm ?add0n ?subn0 //.
  by rewrite /n addKn.
set A2 := aput A1 k nxt sv.
have gA2 i j : (i < n)%N -> (j < n)%N -> get A2 i j = if (k <= i)%N && (nxt <= j < k)%N then get sv (i - k) (j - nxt) else get A1 i j.
  move=> hi hj; rewrite get_aput ?rA ?cA // /inblk rv cv hi -/k.
  by case: (k <= i)%N; case: (nxt <= j)%N; case: (j < k)%N.
rewrite /newA -/A1 -/A2 /=; apply/matrixP => i j.
rewrite (@bd_r k q u _ _ (fun a b => if (a < k)%N then get A a b else sumN q (fun l => get u l (a - k) * get A (k + l)%N b))); last first.
  by move=> a b; rewrite (@bd_l k q u _ _ (fun x y => get A x y)) // => x y; rewrite mxE.
have hi := ltn_ord i; have hj := ltn_ord j.
have nk : (n - k)%N = q by rewrite /n addKn.
rewrite mxE /= get_aput /= ?rA ?cA // /inblk /= cu nk -/n hi hj andbT !(leqNgt k).
have [ik|ik] := ltnP i k; have [jk|jk] := ltnP j k => /=.
- by rewrite gA2 // (leqNgt k) ik /= gA1 // jk.
- by rewrite gA2 // (leqNgt k) ik /= gA1 // (ltnNge j) jk.
- have hl a : (a < q)%N -> (k <= k + a < n)%N by rewrite leq_addr /n ltn_add2l.
  rewrite gA2 // ik /= jk andbT gA1 // jk; case: ifP => hn.
    rewrite hv ?sumNE; first by apply: eq_bigr => l _; rewrite subnKC.
      by move: ik hi; rewrite /n; clear; lia.
    by move: hn jk; rewrite /k; clear; lia.
  have hn' : (j < nxt)%N by rewrite ltnNge hn.
  rewrite hz //; last by rewrite ik.
  by rewrite sumNE big1 // => l _; rewrite hz ?mulr0 // hl.
have iq : (i - k < q)%N by move: ik hi; rewrite /n; clear; lia.
have jq : (j - k < q)%N by move: jk hj; rewrite /n; clear; lia.
rewrite get_mul /= ?cu ?nk // ru !sumNE.
transitivity (\sum_(l < q) \sum_(a < q) get u l (i - k) * get A (k + l) (k + a) * get u a (j - k)).
  apply: eq_bigr => l _; rewrite /aT get_mk ?cu ?ru //= get_subm ?nk // subnKC // gA2 ?ltn_add2l // leq_addr /= (ltnNge j) jk andbF.
  by rewrite gA1 ?ltn_add2l // (ltnNge j) jk sumNE mulr_sumr; apply: eq_bigr => a _; rewrite mulrA.
rewrite exchange_big /=; apply: eq_bigr => a _; rewrite sumNE mulr_suml; apply: eq_bigr => l _.
by [].
Qed.

Lemma newTE T u k q : let n := (k + q)%N in shp T = (n, n) -> shp u = (q, q) ->
  mx n n (aput T k 0 (amul (aT u) (asubm T k n 0 n))) = (bd n k u)^T *m mx n n T.
Proof.
move=> n [rT cT] [ru cu]; have nk : (n - k)%N = q by rewrite /n addKn.
apply/matrixP => i j; have hi := ltn_ord i; have hj := ltn_ord j.
rewrite (@bd_l k q u _ _ (fun a b => get T a b)); last by move=> a b; rewrite mxE.
rewrite mxE /= get_aput ?rT ?cT // /inblk /= cu !subn0 -/n hi hj !andbT (leqNgt k).
have [//|ik] := ltnP i k; have iq : (i - k < q)%N by move: ik hi; rewrite /n; clear; lia.
rewrite get_mul /= ?cu ?subn0 // ru !sumNE; apply: eq_bigr => l _.
by rewrite /aT get_mk ?cu ?ru //= get_subm ?nk ?subn0.
Qed.

Lemma newCE C u k q p : let n := (k + q)%N in shp C = (p, n) -> shp u = (q, q) ->
  mx p n (aput C 0 k (amul (asubm C 0 p k n) u)) = mx p n C *m bd n k u.
Proof.
move=> n [rC cC] [ru cu]; have nk : (n - k)%N = q by rewrite /n addKn.
apply/matrixP => i j; have hi := ltn_ord i; have hj := ltn_ord j.
rewrite (@bd_r k q u _ _ (fun a b => get C a b)); last by move=> a b; rewrite mxE.
rewrite mxE /= get_aput ?rC ?cC // /inblk /= cu !subn0 -/n hi hj !andbT /= (leqNgt k).
have [//|jk] := ltnP j k; have jq : (j - k < q)%N by move: jk hj; rewrite /n; clear; lia.
rewrite get_mul /= ?cu ?subn0 ?nk // !sumNE; apply: eq_bigr => l _.
by rewrite get_subm ?nk ?subn0 ?add0n.
Qed.

(* ---------------------------------------------------------------- one round *)
Variable npsvd : arr R -> arr R * seq R * arr R.
Variable spac : R.

Local Notation svd_at := (svd_at npsvd).

Lemma svd_facts tol M u s v : wfa M -> 0 <= tol -> svd_at tol M -> npsvd M = (u, s, v) ->
  let m := count (fun x => tol < x) s in let p := nr M in let q := nc M in
  let sv := amul (trunc (mk p q (fun i j => if i == j then nth 0 s i else 0)) m) v in
  [/\ shp u = (p, p) /\ (mx p p u)^T *m mx p p u = 1%:M, shp sv = (p, q) /\ mx p q sv = (mx p p u)^T *m mx p q M, (m <= p)%N,
    (forall i j, (m <= i < p)%N -> (j < q)%N -> get sv i j = 0) &
    (aany M -> (0 < m)%N) /\
    forall g : 'rV_p, g *m mx p q sv = 0 -> forall a : 'I_p, (a < m)%N -> g 0 a = 0].
Proof.
move=> wM t0 [ok ex] e m p q sv; rewrite e in ok ex.
have [hU hV hM] := svd_mx wM ok; have [[wu [u1 u2] wv [v1 v2]] _ _ [ss pos so] _] := ok.
have sz j : (m <= j)%N -> nth 0 s j = 0 by move=> h; apply: (svd_zero so ex).
have sn j : (j < m)%N -> nth 0 s j != 0 by apply: (svd_pos so t0).
have ml : (m <= minn p q)%N by rewrite -ss count_size.
have eT : mx p q (trunc (mk p q (fun i j => if i == j then nth 0 s i else 0)) m) = sigma p q s.
  apply/matrixP => i j; rewrite !mxE /= get_mk // get_mk //; case: ifP => // /andP[h1 h2].
  by case: eqP => // _; rewrite sz.
have eV : mx p q sv = sigma p q s *m mx q q v by rewrite /sv (@mxof_mul _ _ _ _ q) ?nr_mk ?nc_mk ?v2 // eT.
have rowz (i : 'I_p) j : (m <= i)%N -> mx p q sv i j = 0.
  by move=> h; rewrite eV mxE big1 // => k _; rewrite mxE; case: eqP => _; rewrite ?sz ?mul0r.
split; first by rewrite /shp u1 u2.
- by split; [rewrite /shp /= v2 | rewrite eV hM !mulmxA hU mul1mx].
- exact: leq_trans ml (geq_minl _ _).
- by move=> i j /andP[h hi] hj; have := rowz (Ordinal hi) (Ordinal hj) h; rewrite mxE.
split=> [an|g hg a ha].
  rewrite lt0n; apply/eqP => m0.
  have M0 : mx p q M = 0.
    rewrite hM; suff -> : sigma p q s = 0 by rewrite mul0mx mulmx0.
    by apply/matrixP => i j; rewrite !mxE sz ?m0 //; case: eqP.
  case/hasP: an => i; rewrite mem_iota => /andP[_ hi] /hasP[j]; rewrite mem_iota => /andP[_ hj].
  by have := congr1 (fun N : 'M_(p, q) => N (Ordinal hi) (Ordinal hj)) M0; rewrite !mxE /= => ->; rewrite eqxx.
have hs : g *m sigma p q s = 0.
  by rewrite -[LHS]mulmx1 -hV mulmxA -(mulmxA g) -eV hg mul0mx.
have aq : (a < q)%N by apply: leq_trans ha (leq_trans ml (geq_minr _ _)).
have := congr1 (fun N : 'rV_q => N 0 (Ordinal aq)) hs; rewrite !mxE (bigD1 a) //= big1 ?addr0; last first.
  by move=> k hk; rewrite mxE /=; case: eqP => [h|_]; [case/eqP: hk; apply: val_inj | rewrite mulr0].
by rewrite mxE eqxx => /eqP; rewrite mulf_eq0 (negbTE (sn _ ha)) orbF => /eqP.
Qed.

Section Loop.
Variables (n m p : nat) (A : 'M[R]_n) (B : 'M[R]_(n, m)) (C : 'M[R]_(p, n)) (B0 : 'M[R]_(n, m)).

(* A0, C0, T are A, C in the coordinates T x, and the first k of them are reached from the input *)
Definition sim_by A0 C0 T : Prop :=
  [/\ shp A0 = (n, n), shp C0 = (p, n), shp T = (n, n) &
    [/\ (mx n n T)^T *m mx n n T = 1%:M, mx n n T *m A = mx n n A0 *m mx n n T, mx p n C0 *m mx n n T = C & mx n n T *m B = B0]].
Definition reached A0 k : Prop := forall x, ann (mx n n A0) B0 x -> forall a : 'I_n, (a < k)%N -> x 0 a = 0.
Definition sinv (st : sst R) : Prop :=
  let k := (stn st + sts st)%N in
  [/\ sim_by (stA st) (stC st) (stT st), (k <= n)%N,
    (forall i j, (k <= i < n)%N -> (j < stn st)%N -> get (stA st) i j = 0),
    (forall (i : 'I_n) j, (k <= i)%N -> B0 i j = 0) & reached (stA st) k].

(* what the loop ends with *)
Definition sfin A0 C0 T k : Prop :=
  [/\ sim_by A0 C0 T, (k <= n)%N, (forall i j, (k <= i < n)%N -> (j < k)%N -> get A0 i j = 0),
    (forall (i : 'I_n) j, (k <= i)%N -> B0 i j = 0) & reached A0 k].

End Loop.

Lemma low n k nxt z q (A' : 'M[R]_n) (x : 'rV[R]_n) (M : 'M[R]_(q, z)) : n = (k + q)%N -> (nxt + z <= k)%N ->
  (forall a : 'I_n, (a < k)%N -> x 0 a = 0) -> (forall b : 'I_n, (b < k)%N -> (x *m A') 0 b = 0) ->
  (forall (a b : 'I_n) (i : 'I_q) (j : 'I_z), a = (k + i)%N :> nat -> b = (nxt + j)%N :> nat -> A' a b = M i j) ->
  exists g : 'rV_q, g *m M = 0 /\ forall (a : 'I_n) (i : 'I_q), a = (k + i)%N :> nat -> x 0 a = g 0 i.
Proof.
move=> e; subst n => hk hx hA hM; exists (rsubmx x); split; last first.
  by move=> a i e; rewrite mxE; congr (x _ _); apply: val_inj.
apply/matrixP => o j; rewrite ord1 [RHS]mxE.
have hj : (nxt + j < k)%N by apply: leq_trans hk; rewrite ltn_add2l.
rewrite -[RHS](hA (lshift q (Ordinal hj)) hj) [LHS]mxE [RHS]mxE big_split_ord /= [X in _ = X + _]big1 ?add0r.
  by apply: eq_bigr => i _; rewrite mxE (hM (rshift k i) (lshift q (Ordinal hj)) i j).
by move=> i _; rewrite hx ?mul0r //= ltn_ord.
Qed.

Lemma stepP n m p (A : 'M[R]_n) (B : 'M[R]_(n, m)) (C : 'M[R]_(p, n)) (B0 : 'M[R]_(n, m)) tol st r :
  0 <= tol -> sinv A B C B0 st -> (aany (sub_block st) -> svd_at tol (sub_block st)) ->
  st_step npsvd spac tol st = Ok r ->
  match r with
  | None => exists k, sfin A B C B0 (stA st) (stC st) (stT st) k
  | Some st' => sinv A B C B0 st' /\ (stn st + sts st < stn st' + sts st')%N
  end.
Proof.
move=> t0; case: st => A1 C1 T1 nxt z h hs.
have {}h : sinv A B C B0 (SSt A1 C1 T1 nxt z) by [].
case: (h) => sb hk _ _ _; rewrite /= in hk sb.
have [q nE] : exists q, n = (nxt + z + q)%N by exists (n - (nxt + z))%N; rewrite subnKC.
subst n; set k := (nxt + z)%N in A B C B0 h hk sb *; set n := (k + q)%N in A B C B0 h hk sb *.
have [_ _ hz hB hr] := h; clear h; rewrite /= -/k in hz hB hr.
case: (sb) => [[rA cA] [rC cC] [rT cT] [oT eA eC eB]].
have wH : wfa (sub_block (SSt A1 C1 T1 nxt z)) by apply: wfa_mk.
have nk : (n - k)%N = q by rewrite /n addKn.
rewrite /st_step; case: ifP => an.
  case=> <-; exists k; split=> //; move=> i j hi hj; have [h|h] := ltnP j nxt; first exact: hz.
  apply/eqP; apply: contraTT an => h0; rewrite negbK; apply/hasP; exists (i - k)%N.
    by rewrite mem_iota /= rA -/k nk; move: hi; rewrite /n; clear; lia.
  apply/hasP; exists (j - nxt)%N; first by rewrite mem_iota /= -/k; move: h hj; rewrite /k; clear; lia.
  by rewrite get_subm /= ?rA -/k ?subnKC //; move: hi h hj; rewrite /k /n; clear; lia.
move/negbFE: an => an; have {}hs := hs an.
have rH : nr (sub_block (SSt A1 C1 T1 nxt z)) = q by rewrite /= rA.
have cH : nc (sub_block (SSt A1 C1 T1 nxt z)) = z by rewrite /= addKn.
set H := sub_block _ in an hs wH rH cH *; rewrite /haroldsvd.
case eu : (npsvd H) => [[u s] v]; cbn [bind].
have [[su ou] [sv ev] ml rz [mp gz]] := svd_facts wH t0 hs eu.
move: su ou sv ev ml rz mp gz; rewrite rH cH.
set m1 := count _ s; set w := amul (trunc _ m1) v => su ou sv ev ml rz /(_ an) mp gz.
have gH i j : (i < q)%N -> (j < z)%N -> get H i j = get A1 (k + i) (nxt + j).
  by move=> hi hj; rewrite /H /sub_block get_subm //= ?rA ?addKn.
have ou' := mulmx1C ou.
case: ifP => hm; last first.
  have mq : m1 = q by move: hm ml mp; clear; lia.
  case=> <-; exists n; split=> //.
  - by move=> i j; clear; lia.
  - by move=> i j h; have := ltn_ord i; rewrite ltnNge h.
  move=> x hx a ha; have [h|h] := ltnP a k; first exact: hr hx a h.
  have [||||g [g0 gE]] := @low _ k nxt z q (mx n n A1) x (mx q z H) erefl; rewrite ?leqnn //.
  - exact: hr.
  - by move=> b hb; apply: hr hb; apply: ann_A.
  - by move=> a' b' i j e1 e2; rewrite !mxE /= gH // e1 e2.
  have aq : (a - k < q)%N by move: ha h; rewrite /n; clear; lia.
  rewrite (gE a (Ordinal aq)) /= ?subnKC //.
  have gu : g *m mx q q u = 0.
    apply/matrixP => o i; rewrite ord1 [RHS]mxE; apply: (gz (g *m mx q q u)); last by rewrite mq.
    by rewrite ev mulmxA -(mulmxA g) ou' mulmx1.
  by rewrite -[g]mulmx1 -ou' mulmxA gu mul0mx mxE.
case=> <-.
set A2 := aput _ k k _; set T2 := aput _ k 0 _; set C2 := aput C1 0 k _.
rewrite /= in A2 T2 C2 *; rewrite -/k.
have eA2 : mx n n A2 = (bd n k u)^T *m mx n n A1 *m bd n k u.
  rewrite -(@newAE A1 u w nxt z q) //; [by rewrite /newA /A2 rA | by rewrite /shp rA cA |].
  move=> i j hi hj; have := congr1 (fun M : 'M_(q, z) => M (Ordinal hi) (Ordinal hj)) ev; rewrite !mxE /= => ->.
  by rewrite sumNE; apply: eq_bigr => l _; rewrite !mxE /= gH.
have eT2 : mx n n T2 = (bd n k u)^T *m mx n n T1 by rewrite /T2 rA (@newTE T1 u k q) // /shp rT cT.
have eC2 : mx p n C2 = mx p n C1 *m bd n k u by rewrite /C2 rA rC (@newCE C1 u k q p) // /shp rC cC.
have {eT2 eC2 eA2} [eA2 eT2 eC2] := And3 eA2 eT2 eC2.
have oU : (bd n k u)^T *m bd n k u = 1%:M by apply: bd_orth.
have oU' := mulmx1C oU.
have UB : (bd n k u)^T *m B0 = B0.
  rewrite /n bdE -[B0]vsubmxK (_ : dsubmx B0 = 0); last first.
    by apply/matrixP => i j; rewrite !mxE hB //= leq_addr.
  by rewrite tr_block_mx !trmx0 trmx1 mul_block_col !mulmx0 !mul0mx !addr0 mul1mx.
have [ru cu] : nr u = q /\ nc u = q by case: su.
have [rw cw] : nr w = q /\ nc w = z by case: sv.
clearbody w.
have gA2 i j : (k <= i < n)%N -> (j < k)%N -> get A2 i j = if (nxt <= j)%N then get w (i - k) (j - nxt) else get A1 i j.
  move=> /andP[hi1 hi2] hj; have hj' : (j < n)%N by apply: leq_trans hj _.
  rewrite /A2 get_aput /= ?rA ?cA // /inblk /= (leqNgt k j) hj /= andbF /= ?andbF.
  rewrite get_aput /= ?rA ?cA // /inblk /= rw cw -/k -/n hi1 hi2 hj andbT /=; case: ifP => // _.
  by rewrite get_aput /= ?rA ?cA // /inblk /= (leqNgt k j) hj /= ?andbF.
have simA : (bd n k u)^T *m mx n n A1 = mx n n A2 *m (bd n k u)^T by rewrite eA2 -!mulmxA oU' mulmx1.
have hx0 x : ann (mx n n A2) B0 x -> forall a : 'I_n, (a < k)%N -> x 0 a = 0.
  move=> hx a ha; have <- : (x *m (bd n k u)^T) 0 a = x 0 a; last by apply: hr (ann_sim simA UB hx) _ ha.
  rewrite mxE (bigD1 a) //= !mxE ha /= eqxx mulr1 big1 ?addr0 // => b hb; rewrite !mxE ha /=.
  by case: eqP => [e|_]; [case/eqP: hb; apply: val_inj | rewrite mulr0].
split; last by move: hm; clear; lia.
split=> /=.
- split=> //; first by rewrite /A2 /shp /= rA cA.
  + by rewrite /C2 /shp /= rC cC.
  + by rewrite /T2 /shp /= rT cT.
  split.
  + by rewrite eT2 trmx_mul trmxK -mulmxA (mulmxA (bd n k u)) oU' mul1mx.
  + by rewrite eT2 -mulmxA eA mulmxA simA -mulmxA.
  + by rewrite eC2 eT2 -mulmxA (mulmxA (bd n k u)) oU' mul1mx.
  + by rewrite eT2 -mulmxA eB UB.
- by rewrite leq_add2l.
- move=> i j hi hj; rewrite gA2 //; last by move: hi; clear; lia.
  case: leqP => h; last by apply: hz => //; move: hi; clear; lia.
  by rewrite rz //; [move: hi; rewrite /n; clear; lia | move: h hj; rewrite /k; clear; lia].
- by move=> i j h; apply: hB; apply: leq_trans h; rewrite leq_addr.
move=> x hx a ha; have [h|h] := ltnP a k; first exact: hx0 hx a h.
have [||||g [g0 gE]] := @low _ k nxt z q (mx n n A2) x (mx q z w) erefl; rewrite ?leqnn //.
- exact: hx0.
- by move=> b hb; apply: hx0 hb; apply: ann_A.
- move=> a' b' i j e1 e2; have h1 := ltn_ord i; have h2 := ltn_ord j.
  rewrite !mxE /= gA2 ?e1 ?e2 ?leq_addr ?addKn //; last by rewrite ltn_add2l.
  by rewrite /n ltn_add2l.
have aq : (a - k < q)%N by have := ltn_ord a; move: h; rewrite /n; clear; lia.
rewrite (gE a (Ordinal aq)) /= ?subnKC //; apply: gz => //=.
by move: ha h; clear; lia.
Qed.



Lemma step_ok tol st : exists r, st_step npsvd spac tol st = Ok r.
Proof.
case: st => A1 C1 T1 nxt z; rewrite /st_step; case: ifP => _; first by eexists.
rewrite /haroldsvd; case: (npsvd _) => [[u s] v]; cbn [bind]; case: ifP => _; by eexists.
Qed.

Lemma loopP n m p (A : 'M[R]_n) (B : 'M[R]_(n, m)) (C : 'M[R]_(p, n)) (B0 : 'M[R]_(n, m)) tol fuel st :
  0 <= tol -> sinv A B C B0 st -> (forall M, List.In M (loop_svds npsvd spac fuel tol st) -> svd_at tol M) ->
  (n < fuel + (stn st + sts st))%N ->
  exists st' k, st_loop npsvd spac fuel tol st = Ok st' /\ sfin A B C B0 (stA st') (stC st') (stT st') k.
Proof.
move=> t0; elim: fuel st => [|c IH] st hi hs hf.
  by case: hi => _ h _ _ _; move: hf; rewrite add0n ltnNge h.
have [r er] := step_ok tol st.
have hs1 : aany (sub_block st) -> svd_at tol (sub_block st).
  by move=> an; apply: hs; rewrite /= an; left.
have := stepP t0 hi hs1 er; rewrite /= er /=; case: r er => [st'|] er.
  case=> hi' hl; apply: IH => //; last by move: hf hl; clear; lia.
  move=> M hM; apply: hs; rewrite /=; case: ifP => an; last first.
    by case: (st) er an => A1 C1 T1 nxt z; rewrite /st_step /= => + an; rewrite an.
  by rewrite er; right.
by case=> k hk; exists st, k.
Qed.

Lemma startP n m p (A B C : arr R) : 0 <= spac -> wfa B -> shp A = (n, n) -> shp B = (n, m) -> shp C = (p, n) -> aany B ->
  svd_at (svtol spac B (npsvd B).1.2) B ->
  exists st b0, [/\ st_start npsvd spac A B C = Ok (st, b0), shp b0 = (n, m), (0 < sts st)%N /\ sts st = \rank (mx n m B), stn st = 0%N &
    sinv (mx n n A) (mx n m B) (mx p n C) (mx n m b0) st].
Proof.
move=> sp0 wB [rA cA] [rB cB] [rC cC] an hs; rewrite /st_start /haroldsvd.
case eu : (npsvd B) => [[u s] v]; rewrite eu /= in hs.
have sN : s != [::].
  apply/eqP => e; have [ok _] := hs; move: ok; rewrite eu => -[_ _ _ [ss _ _] _]; move: ss; rewrite e /= => ss.
  case/hasP: an => i; rewrite mem_iota => /andP[_ hi] /hasP[j]; rewrite mem_iota => /andP[_ hj] _.
  by move: ss hi hj; rewrite rB cB; clear; lia.
rewrite (negbTE sN); cbn [bind].
have [[su ou] [sw ew] ml rz [mp gz]] := svd_facts wB (svtol_ge0 B s sp0) hs eu.
rewrite -/(svtol spac B s).
move: su ou sw ew ml rz mp gz; rewrite rB cB.
set m1 := count _ s; set w := amul (trunc _ m1) v => -[ru cu] ou sw ew ml rz /(_ an) mp gz.
have ou' := mulmx1C ou.
have rk : m1 = \rank (mx n m B).
  have [ok ex] := hs; rewrite eu /= in ok ex; have [_ _ _ [sz pos so] _] := ok; have [oU oV eM] := svd_mx wB ok.
  by rewrite -rB -cB; apply/esym; apply: svd_rank oU oV eM sz so (svtol_ge0 _ _ sp0) ex.
eexists; eexists; split; [by [] | by [] | by [] | by [] |].
have eA : mx n n (amul (amul (aT u) A) u) = (mx n n u)^T *m mx n n A *m mx n n u.
  by rewrite (@mxof_mul _ _ _ _ n) ?ru // ?nr_mk ?nc_mk ?cu // (@mxof_mul _ _ _ _ n) ?rA ?cA // ?nr_mk ?nc_mk ?cu // mxof_T ?ru ?cu.
rewrite /sinv /= add0n; split=> //.
- split=> /=; [by rewrite /shp /= cu | by rewrite /shp /= rC cu | by rewrite /shp /= cu ru |].
  rewrite mxof_T ?ru ?cu // eA; split.
  + by rewrite trmxK.
  + by rewrite -!mulmxA ou' mulmx1.
  + by rewrite (@mxof_mul _ _ _ _ n) ?cC ?ru ?rC ?cu // -mulmxA ou' mulmx1.
  + by rewrite -ew.
- move=> i j h; have := rz i j; rewrite mxE /= => -> //; by rewrite h ltn_ord.
move=> x hx a ha; apply: gz ha.
by have := hx 0%N; rewrite /= mulmx1.
Qed.

(* from reached to a controllable leading pair *)
Lemma reached_stairs n m k (A : 'M[R]_n) (B : 'M[R]_(n, m)) : (k <= n)%N ->
  (forall i j : 'I_n, (k <= i)%N -> (j < k)%N -> A i j = 0) -> (forall (i : 'I_n) j, (k <= i)%N -> B i j = 0) ->
  (forall x, ann A B x -> forall a : 'I_n, (a < k)%N -> x 0 a = 0) -> stairs_ctrb k A B.
Proof.
move=> kn; have [q nE] : exists q, n = (k + q)%N by exists (n - k)%N; rewrite subnKC.
subst n => hA hB hr; exists (ulsubmx A), (usubmx B); split=> //.
- split=> [i j a b e1 e2|i j a e]; rewrite !mxE; congr (_ _ _); apply: val_inj => //=.
have eA : A = block_mx (ulsubmx A) (ursubmx A) 0 (drsubmx A).
  by rewrite -[LHS]submxK; congr block_mx; apply/matrixP => i j; rewrite !mxE hA //= leq_addr.
have eB : B = col_mx (usubmx B) 0.
  by rewrite -[LHS]vsubmxK; congr col_mx; apply/matrixP => i j; rewrite !mxE hB //= leq_addr.
have pw l : mpow A l *m B = col_mx (mpow (ulsubmx A) l *m usubmx B) 0.
  elim: l => [|l IH] /=; first by rewrite !mul1mx -eB.
  by rewrite -mulmxA IH [X in X *m _]eA mul_block_col !mulmx0 addr0 !mul0mx addr0 mulmxA.
move=> x hx; apply/matrixP => o i; rewrite ord1 [RHS]mxE.
have := hr (row_mx x 0) _ (lshift q i) (ltn_ord i); rewrite row_mxEl; apply.
by move=> l; rewrite -mulmxA pw mul_row_col mul0mx addr0 mulmxA hx.
Qed.

Lemma coreP n m p (A B C : arr R) : 0 <= spac -> wfa B -> shp A = (n, n) -> shp B = (n, m) -> shp C = (p, n) -> aany B ->
  stair_exact npsvd spac A B C ->
  exists A0 B0 C0 T full k, [/\ st_core npsvd spac A B C = Ok (A0, B0, C0, T, full), shp B0 = (n, m),
    sim_by (mx n n A) (mx n m B) (mx p n C) (mx n m B0) A0 C0 T,
    stairs_ctrb k (mx n n A0) (mx n m B0) & full = (\rank (mx n m B) == n)].
Proof.
move=> sp0 wB sA sB sC an /(_ an) [hs hl].
have [st [b0 [es sb [zp rk] n0 hi]]] := startP sp0 wB sA sB sC an hs.
have [rA cA] : nr A = n /\ nc A = n by case: sA.
have fin A0 C0 T k : sfin (mx n n A) (mx n m B) (mx p n C) (mx n m b0) A0 C0 T k -> stairs_ctrb k (mx n n A0) (mx n m b0).
  case=> _ hk hz hB hr; apply: reached_stairs => // i j h1 h2; rewrite mxE /= hz // h1 ltn_ord //.
rewrite /st_core es; cbn [bind]; rewrite rA.
case: eqP => zn.
  exists (stA st), b0, (stC st), (stT st), true, n; case: hi; rewrite n0 add0n -zn => hsim _ hz hB hr; split=> //; last by rewrite -rk -zn eqxx.
  apply: (@fin _ (stC st) (stT st)); split=> //; first by move=> i j; clear; lia.
have [|||st' [k [e hk]]] := @loopP n m p _ _ _ _ (n%:R * norm1 A * spac) n st _ hi.
- by rewrite !mulr_ge0 ?ler0n // smax_ge0.
- by move=> M; rewrite -rA => /(hl _ _ _ es).
- by move: zp; rewrite n0; clear; lia.
rewrite e; cbn [bind]; exists (stA st'), b0, (stC st'), (stT st'), false, k; split=> //; first by case: hk.
  exact: fin hk.
by rewrite -rk; apply/esym/eqP => e'; apply: zn.
Qed.

Lemma controllable_sim n m (T A A' : 'M[R]_n) (B B' : 'M[R]_(n, m)) (S : 'M[R]_n) : S *m T = 1%:M -> T *m A = A' *m T -> T *m B = B' ->
  controllable A B -> controllable A' B'.
Proof.
move=> u hA hB h x hx; have e := h _ (ann_sim hA hB hx).
by rewrite -[x]mulmx1 -(mulmx1C u) mulmxA e mul0mx.
Qed.

Lemma stairs_flip n m k (A : 'M[R]_n) (B : 'M[R]_(n, m)) : stairs_ctrb k A B -> stairs_ctrb_inv k (Jmx R n *m A *m Jmx R n) (Jmx R n *m B).
Proof.
case=> A1 [B1 [kn hA hB [eA eB] hc]]; exists (Jmx R k *m A1 *m Jmx R k), (Jmx R k *m B1); split=> //.
- move=> i j hi hj; rewrite mulJ Jmul hA //=; have := ltn_ord i; have := ltn_ord j; move: hi hj kn; clear; lia.
- move=> i j hi; rewrite Jmul hB //=; have := ltn_ord i; move: hi kn; clear; lia.
- split=> [i j a b e1 e2|i j a e].
    rewrite !mulJ !Jmul; apply: eA; have := ltn_ord a; have := ltn_ord b; move: e1 e2 kn => /=; clear; lia.
  by rewrite !Jmul; apply: eB; have := ltn_ord a; move: e kn => /=; clear; lia.
by apply: (@controllable_sim _ _ (Jmx R k) A1 _ B1 _ (Jmx R k) (JJ R k)) => //; rewrite -!mulmxA JJ mulmx1.
Qed.

(* the core followed by the flips of invert and the transpose of T *)
Lemma core_inv n m p (A B C : arr R) (inv : bool) : 0 <= spac -> wfa B -> shp A = (n, n) -> shp B = (n, m) -> shp C = (p, n) -> aany B ->
  stair_exact npsvd spac A B C ->
  exists A0 B0 C0 T full, st_core npsvd spac A B C = Ok (A0, B0, C0, T, full) /\
  let: (A0, B0, C0, T) :=
      if inv then (afliplr (aflipud A0), aflipud B0, afliplr C0, aflipud T) else (A0, B0, C0, T) in
  [/\ orth_similar n m p A B C A0 B0 C0 (aT T), full = (\rank (amx n m B) == n) &
    exists k, if inv then stairs_ctrb_inv k (amx n n A0) (amx n m B0) else stairs_ctrb k (amx n n A0) (amx n m B0)].
Proof.
move=> sp0 wB sA sB sC an hx; have [A0 [B0 [C0 [T [full [k [e sb sm hk hf]]]]]]] := coreP sp0 wB sA sB sC an hx.
exists A0, B0, C0, T, full; split=> //.
case: sm => sA0 sC0 sT [oT eA eC eB].
have sAf : shp (aflipud A0) = (n, n) by [].
have [rT cT] : nr T = n /\ nc T = n by case: sT.
have eJ : (Jmx R n)^T = Jmx R n by apply: Jmx_tr.
have oT' := mulmx1C oT; have JJn := JJ R n.
have eA' : mx n n A *m (mx n n T)^T = (mx n n T)^T *m mx n n A0.
  by rewrite -[mx n n A]mul1mx -oT -(mulmxA _ (mx n n T)) eA -!mulmxA oT' mulmx1.
have eB' : mx n m B = (mx n n T)^T *m mx n m B0 by rewrite -eB mulmxA oT mul1mx.
have eC' : mx p n C *m (mx n n T)^T = mx p n C0 by rewrite -eC -mulmxA oT' mulmx1.
case: inv; split; rewrite ?amxE //; last 1 first.
- by exists k.
- rewrite /orth_similar !amxE mxof_T /= ?rT ?cT // mx_fliplr // !mx_flipud // mx_fliplr //; split.
  + by split=> //; rewrite /shp /= rT cT.
  + by rewrite trmxK trmx_mul eJ -mulmxA (mulmxA (mx n n T)) oT' mul1mx.
  + by rewrite trmx_mul eJ mulmxA eA' -!mulmxA (mulmxA (Jmx R n)) JJn mul1mx.
  + by rewrite trmx_mul eJ -!mulmxA (mulmxA (Jmx R n)) JJn mul1mx.
  + by rewrite trmx_mul eJ mulmxA eC'.
- by exists k; rewrite ?amxE mx_fliplr // !mx_flipud //; apply: stairs_flip.
rewrite /orth_similar !amxE mxof_T /= ?rT ?cT // trmxK; split=> //.
by split=> //; rewrite /shp /= rT cT.
Qed.
End Stair.
