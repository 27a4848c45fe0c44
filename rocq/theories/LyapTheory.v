(* The block loops of ModelLyap.v keep the invariants of LyapKernel.v. *)
From mathcomp Require Import all_ssreflect all_algebra zify.
From Verif Require Import Base BaseTheory RingTac AuxTheory TransferTheory ModelLyap LyapKernel LyapMini.

Set Implicit Arguments.
Unset Strict Implicit.
Unset Printing Implicit Defensive.

Import GRing.Theory Num.Theory.
Local Open Scope ring_scope.

Section Entries.
Variable R : realFieldType.
Implicit Types (A B X Y x : arr R) (i j k l a b c d u v n : nat).

Lemma get_subm A r0 r1 c0 c1 i j : (i < r1 - r0)%N -> (j < c1 - c0)%N -> get (asubm A r0 r1 c0 c1) i j = get A (r0 + i) (c0 + j).
Proof. exact: get_mk. Qed.

Lemma get_mul A B i j : (i < nr A)%N -> (j < nc B)%N -> get (amul A B) i j = sumN (nc A) (fun k => get A i k * get B k j).
Proof. exact: get_mk. Qed.

Lemma get_aput A r0 c0 B i j : (i < nr A)%N -> (j < nc A)%N ->
  get (aput A r0 c0 B) i j = if inblk r0 c0 B i j then get B (i - r0) (j - c0) else get A i j.
Proof. exact: get_mk. Qed.

Lemma get_aincr A r0 c0 B i j : (i < nr A)%N -> (j < nc A)%N ->
  get (aincr A r0 c0 B) i j = if inblk r0 c0 B i j then get A i j + get B (i - r0) (j - c0) else get A i j.
Proof. exact: get_mk. Qed.

Lemma sum_shift a b (f : nat -> R) : \sum_(a <= k < b) f k = sumN (b - a) (fun k => f (a + k)%N).
Proof. by rewrite sumNE -{1}[a]add0n big_addn big_mkord; apply: eq_bigr => k _; rewrite addnC. Qed.

Lemma get_mulsub A B r0 r1 a b c0 c1 i j : (i < r1 - r0)%N -> (j < c1 - c0)%N ->
  get (amul (asubm A r0 r1 a b) (asubm B a b c0 c1)) i j = \sum_(a <= k < b) get A (r0 + i) k * get B k (c0 + j).
Proof.
move=> hi hj; rewrite get_mul //= sum_shift !sumNE; apply: eq_bigr => k _.
by rewrite !get_subm.
Qed.

(* x @ B[a:b, c0:c1] where x holds the entries of f *)
Lemma get_xmul x B a b c0 c1 i j (f : nat -> R) : nc x = (b - a)%N -> (i < nr x)%N -> (j < c1 - c0)%N ->
  (forall k, (k < b - a)%N -> get x i k = f (a + k)%N) ->
  get (amul x (asubm B a b c0 c1)) i j = \sum_(a <= k < b) f k * get B k (c0 + j).
Proof.
move=> cx hi hj h; rewrite get_mul //= sum_shift !sumNE cx; apply: eq_bigr => k _.
by rewrite get_subm // h.
Qed.

(* A[a:b, r0:r1].T @ x where x holds the entries of f *)
Lemma get_Tmul x A a b r0 r1 i j (f : nat -> R) : (i < r1 - r0)%N -> (j < nc x)%N ->
  (forall k, (k < b - a)%N -> get x k j = f (a + k)%N) ->
  get (amul (aT (asubm A a b r0 r1)) x) i j = \sum_(a <= k < b) get A k (r0 + i) * f k.
Proof.
move=> hi hj h; rewrite get_mul //= sum_shift !sumNE; apply: eq_bigr => k _.
by rewrite getTE //= get_subm // h.
Qed.

Lemma sum_delta a b (f : nat -> R) j : \sum_(a <= k < b) f k * (k == j)%:R = if (a <= j < b)%N then f j else 0.
Proof.
case: ifP => h; last first.
  rewrite big_nat; apply: big1 => k hk; case: eqP => [e|_]; last by rewrite mulr0.
  by move: h; rewrite -e hk.
rewrite (bigD1_seq j) ?mem_index_iota ?iota_uniq //= eqxx mulr1 big1 ?addr0 // => k /negbTE ->.
by rewrite mulr0.
Qed.

Lemma msol_ext kap kap' p q Y x :
  (forall k l i j, (k < p)%N -> (l < q)%N -> (i < p)%N -> (j < q)%N -> kap k l i j = kap' k l i j) ->
  msol kap p q Y x -> msol kap' p q Y x.
Proof.
move=> h [h1 h2 h3 h4]; split=> // i j hi hj; rewrite -[RHS](h4 i j hi hj); congr (_ + _).
by rewrite !sumNE; apply: eq_bigr => k _; rewrite !sumNE; apply: eq_bigr => l _; rewrite h.
Qed.

Lemma W_msol K u v c d (Y : arr R) x (X : nat -> nat -> R) i j :
  msol (fun k l i j => K (u + k)%N (c + l)%N (u + i)%N (c + j)%N) (v - u) (d - c) (asubm Y u v c d) x ->
  (forall k l, (k < v - u)%N -> (l < d - c)%N -> X (u + k)%N (c + l)%N = get x k l) ->
  (u <= i < v)%N -> (c <= j < d)%N -> get Y i j + W K u v c d X i j = 0.
Proof.
move=> [h1 h2 h3 h4] hX hi hj; have hi' : (i - u < v - u)%N by move: hi; clear; lia.
have hj' : (j - c < d - c)%N by move: hj; clear; lia.
have := h4 _ _ hi' hj'; rewrite get_subm //.
have -> : (u + (i - u))%N = i by move: hi; clear; lia.
have -> : (c + (j - c))%N = j by move: hj; clear; lia.
move=> e; apply: etrans e; congr (_ + _); rewrite /W sum_shift !sumNE; apply: eq_bigr => k _.
by rewrite sum_shift !sumNE; apply: eq_bigr => l _; rewrite hX.
Qed.

Section Loops.
Variable cast : R -> R.
Hypothesis castE : forall r, cast r = r.
Variable n : nat.

Definition nn A := nr A = n /\ nc A = n.
Lemma nn_aput A r0 c0 B : nn A -> nn (aput A r0 c0 B). Proof. by []. Qed.
Lemma nn_aincr A r0 c0 B : nn A -> nn (aincr A r0 c0 B). Proof. by []. Qed.

Lemma castx x : wfa x -> amap cast x = x.
Proof. by move=> w; rewrite [RHS]arr_eta //; apply: mk_ext => i j _ _; rewrite castE. Qed.

Definition put2 X u c x := aput (aput X u c (amap cast x)) c u (amap cast (aT x)).

Lemma put2E X u v c d x i j : nn X -> wfa x -> nr x = (v - u)%N -> nc x = (d - c)%N ->
  (u < v)%N -> (v <= c)%N -> (c < d)%N -> (i < n)%N -> (j < n)%N ->
  get (put2 X u c x) i j = if (c <= i < d)%N && (u <= j < v)%N then get x (j - u) (i - c)
    else if (u <= i < v)%N && (c <= j < d)%N then get x (i - u) (j - c) else get X i j.
Proof.
move=> [Xr Xc] wx rx cx uv vc cd hi hj; rewrite /put2 !castx ?wfa_T // !get_aput //= ?Xr ?Xc //.
rewrite /inblk /= rx cx.
have -> : [&& c <= i, i < c + (d - c), u <= j & j < u + (v - u)]%N = (c <= i < d)%N && (u <= j < v)%N.
  by move: uv cd; clear; lia.
have -> : [&& u <= i, i < u + (v - u), c <= j & j < c + (d - c)]%N = (u <= i < v)%N && (c <= j < d)%N.
  by move: uv cd; clear; lia.
case: ifP => // /andP[h1 h2]; rewrite getTE //; rewrite ?rx ?cx; move: h1 h2; clear; lia.
Qed.

Variable bnd : pred nat.

Fixpoint chain c (bl : seq (nat * nat)) : Prop :=
  match bl with
  | [::] => c = n
  | ab :: bl' => [/\ ab.1 = c, block bnd c ab.2, (ab.2 <= c + 2)%N, (ab.2 <= n)%N & chain ab.2 bl']
  end.

(* what put2 does to the matrix, in the form the kernel lemmas ask for *)
Lemma put2_facts X u v c d x : nn X -> wfa x -> nr x = (v - u)%N -> nc x = (d - c)%N ->
  (u < v)%N -> (v <= c)%N -> (c < d)%N -> (d <= n)%N ->
  [/\ forall i j, (u <= i < v)%N -> (c <= j < d)%N -> get (put2 X u c x) i j = get (put2 X u c x) j i,
      forall i j, ~~ ((u <= i < v) && (c <= j < d))%N -> ~~ ((c <= i < d) && (u <= j < v))%N -> (i < n)%N -> (j < n)%N ->
        get (put2 X u c x) i j = get X i j &
      forall k l, (k < v - u)%N -> (l < d - c)%N -> get (put2 X u c x) (u + k) (c + l) = get x k l].
Proof.
move=> hX wx rx cx uv vc cd dn; split=> [i j hi hj|i j h1 h2 hi hj|k l hk hl].
- rewrite !(@put2E _ u v c d) //; try by move: hi hj vc dn; clear; lia.
  by rewrite hi hj /= (negbTE (_ : ~~ (c <= i < d)%N)) //; move: hi vc; clear; lia.
- by rewrite (@put2E _ u v c d) // (negbTE h1) (negbTE h2).
rewrite (@put2E _ u v c d) //; try by move: hk hl uv vc cd dn; clear; lia.
rewrite (negbTE (_ : ~~ (c <= u + k < d)%N)) /=; last by move: hk vc; clear; lia.
rewrite (_ : _ && _ = true) ?addKn //; move: hk hl; clear; lia.
Qed.

Definition put1 X u x := aput X u u (amap cast x).

Lemma put1_facts X u v x : nn X -> wfa x -> nr x = (v - u)%N -> nc x = (v - u)%N -> symm (v - u) x ->
  (u < v)%N -> (v <= n)%N ->
  [/\ forall i j, (u <= i < v)%N -> (u <= j < v)%N -> get (put1 X u x) i j = get (put1 X u x) j i,
      forall i j, ~~ ((u <= i < v) && (u <= j < v))%N -> (i < n)%N -> (j < n)%N -> get (put1 X u x) i j = get X i j &
      forall k l, (k < v - u)%N -> (l < v - u)%N -> get (put1 X u x) (u + k) (u + l) = get x k l].
Proof.
move=> [Xr Xc] wx rx cx sx uv vn.
have E i j : (i < n)%N -> (j < n)%N ->
    get (put1 X u x) i j = if (u <= i < v)%N && (u <= j < v)%N then get x (i - u) (j - u) else get X i j.
  move=> hi hj; rewrite /put1 castx // get_aput ?Xr ?Xc // /inblk rx cx.
  by rewrite (_ : [&& u <= i, i < u + (v - u), u <= j & j < u + (v - u)]%N = (u <= i < v)%N && (u <= j < v)%N) //; move: uv; clear; lia.
split=> [i j hi hj|i j h hi hj|k l hk hl].
- rewrite !E ?hi ?hj //=; try by move: hi hj vn; clear; lia.
  by apply: sx; move: hi hj; clear; lia.
- by rewrite E // (negbTE h).
rewrite E; try by move: hk hl vn; clear; lia.
by rewrite !addKn (_ : _ && _ = true) //; move: hk hl; clear; lia.
Qed.

Lemma sq_sub A u v : sq (v - u) (asubm A u v u v).
Proof. by split; first exact: wfa_mk. Qed.

(* ---------------------------------------------------------------- the continuous loop *)
Section Cont.
Variables (As : arr R) (Y0 : nat -> nat -> R).
Local Notation K := (kC As As).
Hypothesis Asn : nr As = n.
Hypothesis bndn : forall u, bnd u -> (u <= n)%N.
Hypothesis Acut : forall u k i, bnd u -> (u <= k < n)%N -> (i < u)%N -> get As k i = 0.
Hypothesis Y0sym : forall i j, (i < n)%N -> (j < n)%N -> Y0 i j = Y0 j i.

Lemma kC_sym k l i j : K k l i j = K l k j i.
Proof. by rewrite /kC addrC mulrC [in RHS]mulrC [in RHS]addrC addrC; congr (_ + _); rewrite mulrC. Qed.

Lemma kC_cut u k l i j : bnd u -> (u <= k < n)%N -> (i < u)%N -> (l < n)%N -> (j < n)%N -> K k l i j = 0.
Proof.
move=> bu hk hi _ _; rewrite /kC (Acut bu) // mul0r add0r (_ : k == i = false) ?mul0r //.
by apply/negbTE; move: hk hi; clear; lia.
Qed.

Lemma WC a b c d (X : nat -> nat -> R) i j : W K a b c d X i j =
  (if (c <= j < d)%N then \sum_(a <= k < b) get As k i * X k j else 0) +
  (if (a <= i < b)%N then \sum_(c <= l < d) X i l * get As l j else 0).
Proof.
rewrite /W.
have -> : \sum_(a <= k < b) \sum_(c <= l < d) K k l i j * X k l =
    \sum_(a <= k < b) (get As k i * \sum_(c <= l < d) X k l * (l == j)%:R) +
    \sum_(a <= k < b) (\sum_(c <= l < d) X k l * get As l j) * (k == i)%:R.
  rewrite -big_split; apply: eq_bigr => k _ /=; rewrite mulr_sumr mulr_suml -big_split; apply: eq_bigr => l _ /=.
  by rewrite /kC; move: (get As k i) (get As l j) (X k l) (l == j)%:R (k == i)%:R => p q r s t; mc_ring R.
rewrite sum_delta; congr (_ + _).
case: ifP => h.
  by apply: eq_bigr => k _; rewrite sum_delta h.
by apply: big1 => k _; rewrite sum_delta h mulr0.
Qed.

Lemma c_cols_inv u v cols c Ys Xs st : block bnd u v -> (v <= u + 2)%N -> (v <= c)%N -> (c <= n)%N -> chain c cols ->
  nn Ys -> nn Xs -> Icol n K Y0 bnd u v c (get Ys) (get Xs) -> c_cols cast As u v cols Ys Xs = Ok st ->
  [/\ Icol n K Y0 bnd u v n (get st.1) (get st.2), nn st.1 & nn st.2].
Proof.
move=> bl v2; have [b1 b2 uv adj] := bl.
elim: cols c Ys Xs => [|[a d] cols IH] c Ys Xs vc cn /=; first by move=> -> hY hX I [<-].
move=> [-> bc d2 dn ch] hY hX I; have [b3 b4 cd _] := bc; rewrite Asn.
move=> E; have [x Ex {}E] := bindOk E; move: E.
have M : msol (fun k l i j => K (u + k)%N (c + l)%N (u + i)%N (c + j)%N) (v - u) (d - c) (asubm Ys u v c d) x.
  have : msol (kC (asubm As u v u v) (asubm As c d c d)) (v - u) (d - c) (asubm Ys u v c d) x.
    apply: c_mini_gen Ex => //; try exact: sq_sub; move: uv v2 cd d2; clear; lia.
  by apply: msol_ext => k l i j hk hl hi hj; rewrite /kC !get_subm // !eqn_add2l.
have [wx rx cx _] := M.
have [f1 f2 f3] := put2_facts hX wx rx cx uv vc cd dn; rewrite -/(put2 Xs u c x).
apply: (IH d) => //; [by move: cd vc; clear; lia|].
have x1 i l : (u <= i < v)%N -> (l < d - c)%N -> get x (i - u) l = get (put2 Xs u c x) i (c + l).
  move=> hi hl; rewrite -f3 //; last by move: hi; clear; lia.
  by rewrite subnKC //; case/andP: hi.
have x2 k j : (k < v - u)%N -> (c <= j < d)%N -> get x k (j - c) = get (put2 Xs u c x) (u + k) j.
  move=> hk hj; rewrite -f3 //; last by move: hj; clear; lia.
  by rewrite subnKC //; case/andP: hj.
have [Yr Yc] := hY.
apply: (@step_col _ n K Y0 bnd kC_sym bndn kC_cut u v c d (get Ys) (get Xs)) => //.
- by move=> i j hi hj; apply: (W_msol M f3).
- move=> i j hi hj; rewrite !get_aincr //= ?Yr ?Yc; try by move: hi hj uv vc cd dn; clear; lia.
  rewrite /inblk /= rx.
  rewrite (negbTE (_ : ~~ [&& v <= i, _, c <= j & _]%N)); last by move: hi; clear; lia.
  rewrite (_ : [&& u <= i, _, d <= j & _]%N = true); last by move: hi hj; clear; lia.
  rewrite (@get_xmul x As c d d n _ _ (get (put2 Xs u c x) i)) //; [|by move: hi; rewrite ?rx; clear; lia|by move: hj; clear; lia|by move=> k hk; apply: x1].
  rewrite WC (negbTE (_ : ~~ (c <= j < d)%N)) ?hi ?add0r; last by move: hj; clear; lia.
  by rewrite subnKC //; case/andP: hj.
- move=> i j hi hj; rewrite !get_aincr //= ?Yr ?Yc; try by move: hi hj uv vc cd dn; clear; lia.
  rewrite /inblk /= rx cx.
  rewrite (_ : [&& v <= i, _, c <= j & _]%N = true); last by move: hi hj; clear; lia.
  rewrite (negbTE (_ : ~~ [&& u <= i, _, d <= j & _]%N)); last by move: hj; clear; lia.
  rewrite (@get_Tmul x As u v v d _ _ (fun k => get (put2 Xs u c x) k j)) ?cx //; [|by move: hi; clear; lia|by move: hj; clear; lia|by move=> k hk; apply: x2].
  rewrite WC (negbTE (_ : ~~ (u <= i < v)%N)) ?addr0; last by move: hi; clear; lia.
  rewrite (_ : (0 <= j < n)%N = true) ?subnKC //; [by case/andP: hi|by move: hj dn; clear; lia].
- move=> i j hi hj hn; rewrite !get_aincr //= ?Yr ?Yc; try by move: hi hj uv vc cd dn; clear; lia.
  rewrite /inblk /= rx cx.
  rewrite (negbTE (_ : ~~ [&& v <= i, _, c <= j & _]%N)); last by move: hi hj hn uv vc cd; clear; lia.
  by rewrite (negbTE (_ : ~~ [&& u <= i, _, d <= j & _]%N)) //; move: hi uv; clear; lia.
Qed.

Lemma c_rows_inv bl u Ys Xs X : chain u bl -> (u <= n)%N -> nn Ys -> nn Xs ->
  Irow n K Y0 bnd u (get Ys) (get Xs) -> c_rows cast As bl Ys Xs = Ok X ->
  nn X /\ exists Y : nat -> nat -> R, Irow n K Y0 bnd n Y (get X).
Proof.
elim: bl u Ys Xs => [|[a v] bl IH] u Ys Xs /=; first by move=> -> _ _ hX I [<-]; split=> //; exists (get Ys).
move=> [-> bl1 v2 vn ch] un hY hX I; have [b1 b2 uv adj] := bl1; have [Yr Yc] := hY; rewrite Asn.
set Y1 := (if u == 0%N then Ys else _).
have hY1 : nn Y1 by rewrite /Y1; case: ifP.
have [Y1r Y1c] := hY1.
have Y1E i j : (u <= i < v)%N -> (u <= j < n)%N -> get Y1 i j = get Ys i j + \sum_(0 <= l < u) get Xs i l * get As l j.
  move=> hi hj; rewrite /Y1; case: eqP => [->|_]; first by rewrite big_geq // addr0.
  rewrite get_aincr ?Yr ?Yc /inblk /=; try by move: hi hj vn; clear; lia.
  rewrite (_ : [&& u <= i, _, u <= j & _]%N = true); last by move: hi hj; clear; lia.
  rewrite get_mulsub; try by move: hi hj; clear; lia.
  by rewrite !subnKC; [|case/andP: hj|case/andP: hi].
have Y1U i j : (v <= i < n)%N -> (j < n)%N -> get Y1 i j = get Ys i j.
  move=> hi hj; rewrite /Y1; case: eqP => // _; rewrite get_aincr ?Yr ?Yc /inblk //=; last by case/andP: hi.
  by rewrite (negbTE (_ : ~~ [&& u <= i, _, u <= j & _]%N)) //; move: hi uv; clear; lia.
have WE i j : (u <= i < v)%N -> (u <= j < n)%N -> W K u v 0 u (get Xs) i j = \sum_(0 <= l < u) get Xs i l * get As l j.
  by move=> hi hj; rewrite WC hi (negbTE (_ : ~~ (0 <= j < u)%N)) ?add0r //; move: hj; clear; lia.
have inl i : (u <= i < v)%N -> (u <= i < n)%N by move: vn; clear; lia.
move=> E; have [x Ex {}E] := bindOk E; move: E.
have [M sx] : msol (fun k l i j => K (u + k)%N (u + l)%N (u + i)%N (u + j)%N) (v - u) (v - u) (asubm Y1 u v u v) x /\ symm (v - u) x.
  have [] : msol (kC (asubm As u v u v) (asubm As u v u v)) (v - u) (v - u) (asubm Y1 u v u v) x /\ symm (v - u) x.
    apply: c_mini_sym Ex; [by move: uv v2; clear; lia | exact: sq_sub | move=> i j hi hj].
    rewrite !get_subm // !Y1E -?WE; try by move: hi hj vn; clear; lia.
    by apply: (diag_sym kC_sym bndn kC_cut Y0sym bl1 I); move: hi hj; clear; lia.
  by move=> M sx; split=> //; apply: msol_ext M => k l i j hk hl hi hj; rewrite /kC !get_subm // !eqn_add2l.
have [wx rx cx _] := M.
have [f1 f2 f3] := put1_facts hX wx rx cx sx uv vn; rewrite -/(put1 Xs u x).
set Y2 := aincr _ _ _ _.
have hY2 : nn Y2 by [].
move=> E; have [st Es {}E] := bindOk E; move: E.
have [] : [/\ Icol n K Y0 bnd u v n (get st.1) (get st.2), nn st.1 & nn st.2]; last first.
  move=> I2 n1 n2; apply: (IH v) => //.
  exact: (col_end kC_sym bndn kC_cut Y0sym bl1 I2).
apply: (c_cols_inv bl1 v2 (leqnn v) vn ch hY2 _ _ Es) => //.
apply: (@step_diag _ n K Y0 bnd kC_sym bndn kC_cut u v (get Ys) (get Xs)) => //.
- move=> i j hi hj; rewrite WE ?inl // -Y1E ?inl //; exact: (W_msol M f3).
- move=> i j hi hj; rewrite get_aincr ?Y1r ?Y1c /inblk /=; try by move: hi hj vn; clear; lia.
  rewrite rx (_ : [&& u <= i, _, v <= j & _]%N = true); last by move: hi hj; clear; lia.
  rewrite Y1E //; last by move: hj uv; clear; lia.
  rewrite (@get_xmul x As u v v n _ _ (get (put1 Xs u x) i)) //; last first.
  + by move=> k hk; rewrite -f3 ?subnKC //; [case/andP: hi | move: hi; clear; lia].
  + by move: hj; clear; lia.
  + by rewrite rx; move: hi; clear; lia.
  rewrite WC hi (negbTE (_ : ~~ (0 <= j < v)%N)) ?add0r; last by move: hj; clear; lia.
  rewrite (@big_cat_nat _ _ _ u 0 v) //=; last exact: ltnW.
  rewrite subnKC; last by case/andP: hj.
  rewrite addrA; congr (_ + _ + _); rewrite !big_nat; apply: eq_bigr => l hl; rewrite f2 //; move: hl hi uv vn; clear; lia.
- move=> i j hi hj; rewrite get_aincr ?Y1r ?Y1c /inblk /=; try by move: hi hj vn; clear; lia.
  rewrite (negbTE (_ : ~~ [&& u <= i, _, v <= j & _]%N)) ?Y1U //; first by case/andP: hj.
  by rewrite rx; move: hi uv; clear; lia.
Qed.
End Cont.

(* ---------------------------------------------------------------- the generic loop *)
Lemma zipmap (T S1 S2 : Type) (f : T -> S1) (g : T -> S2) s : zip [seq f t | t <- s] [seq g t | t <- s] = [seq (f t, g t) | t <- s].
Proof. by elim: s => //= t s ->. Qed.

Lemma acombine_shape m w (ts : seq (term R)) (f : term R -> arr R) :
  (forall t, nr (f t) = m /\ nc (f t) = w) ->
  nr (acombine m w [seq f t | t <- ts]) = m /\ nc (acombine m w [seq f t | t <- ts]) = w.
Proof. by move=> h; case: ts => //= t ts; have [-> ->] := h t. Qed.

Lemma acombineE m w (ts : seq (term R)) (f : term R -> arr R) i j :
  (forall t, nr (f t) = m /\ nc (f t) = w) -> (i < m)%N -> (j < w)%N ->
  get (acombine m w [seq f t | t <- ts]) i j = \sum_(t <- ts) get (f t) i j.
Proof.
move=> h hi hj; elim: ts => [|t ts IH]; first by rewrite big_nil get_azeros.
by rewrite big_cons -IH /acombine /= geta //; case: (h t) => e1 e2; rewrite ?e1 ?e2.
Qed.

Lemma lift_shape (ts : seq (term R)) u v r0 r1 (f : term R -> arr R) w : (forall t, nc (f t) = w) ->
  nr (lift ts u v r0 r1 [seq f t | t <- ts] w) = (r1 - r0)%N /\ nc (lift ts u v r0 r1 [seq f t | t <- ts] w) = w.
Proof.
move=> h; rewrite /lift -{1 3}[ts]map_id zipmap -map_comp.
by apply: (@acombine_shape _ _ ts (fun t => ascale t.1.1 (amul (aT (asubm t.1.2 u v r0 r1)) (f t)))) => t /=; rewrite h.
Qed.

Lemma liftE (ts : seq (term R)) u v r0 r1 (f : term R -> arr R) w i j : (forall t, nc (f t) = w) ->
  (i < r1 - r0)%N -> (j < w)%N ->
  get (lift ts u v r0 r1 [seq f t | t <- ts] w) i j =
  \sum_(t <- ts) t.1.1 * \sum_(u <= k < v) get t.1.2 k (r0 + i) * get (f t) (k - u) j.
Proof.
move=> h hi hj; rewrite /lift -{1}[ts]map_id zipmap -map_comp.
rewrite (@acombineE _ _ ts (fun t => ascale t.1.1 (amul (aT (asubm t.1.2 u v r0 r1)) (f t)))) //; last first.
  by move=> t /=; rewrite h.
apply: eq_bigr => t _; rewrite getc /= ?h //; congr (_ * _).
rewrite (@get_Tmul (f t) t.1.2 u v r0 r1 i j (fun k => get (f t) (k - u) j)) ?h // => k hk.
by rewrite addKn.
Qed.

Section Gen.
Variables (ts : seq (term R)) (eps : R) (Y0 : nat -> nat -> R).
Variable msym : nat -> nat -> arr R -> res (arr R).
Variable mgen : nat -> nat -> nat -> nat -> arr R -> res (arr R).
Definition kT k l i j : R := \sum_(t <- ts) t.1.1 * get t.1.2 k i * get t.2 l j + eps * ((k == i)%:R * (l == j)%:R).
Local Notation K := kT.
Hypothesis bndn : forall u, bnd u -> (u <= n)%N.
Hypothesis Tcut : forall u k i, bnd u -> (u <= k < n)%N -> (i < u)%N ->
  \sum_(t <- ts) `|get t.1.2 k i| = 0.
Hypothesis kT_sym : forall k l i j, K k l i j = K l k j i.
Hypothesis Y0sym : forall i j, (i < n)%N -> (j < n)%N -> Y0 i j = Y0 j i.
Hypothesis Hsym : forall u v Y x, block bnd u v -> (v <= u + 2)%N -> (v <= n)%N -> symm (v - u) (asubm Y u v u v) ->
  msym u v (asubm Y u v u v) = Ok x ->
  msol (fun k l i j => K (u + k)%N (u + l)%N (u + i)%N (u + j)%N) (v - u) (v - u) (asubm Y u v u v) x /\ symm (v - u) x.
Hypothesis Hgen : forall u v c d Y x, block bnd u v -> (v <= u + 2)%N -> block bnd c d -> (d <= c + 2)%N -> (v <= c)%N -> (d <= n)%N ->
  mgen u v c d (asubm Y u v c d) = Ok x ->
  msol (fun k l i j => K (u + k)%N (c + l)%N (u + i)%N (c + j)%N) (v - u) (d - c) (asubm Y u v c d) x.

Lemma kT_cut u k l i j : bnd u -> (u <= k < n)%N -> (i < u)%N -> (l < n)%N -> (j < n)%N -> K k l i j = 0.
Proof.
move=> bu hk hi _ _; rewrite /kT (_ : k == i = false) ?mul0r ?mulr0 ?addr0; last first.
  by apply/negbTE; move: hk hi; clear; lia.
have := Tcut bu hk hi; elim: ts => [|t s IH]; first by rewrite !big_nil.
rewrite !big_cons => /eqP; rewrite paddr_eq0 ?normr_ge0 //; last by apply: sumr_ge0 => t' _; rewrite normr_ge0.
by rewrite normr_eq0 => /andP[/eqP -> /eqP h]; rewrite mulr0 mul0r add0r IH.
Qed.

Lemma WG a b c d (X : nat -> nat -> R) i j : ~~ ((a <= i < b)%N && (c <= j < d)%N) ->
  W K a b c d X i j = \sum_(t <- ts) t.1.1 * \sum_(a <= k < b) get t.1.2 k i * \sum_(c <= l < d) X k l * get t.2 l j.
Proof.
move=> h; rewrite /W.
have -> : \sum_(a <= k < b) \sum_(c <= l < d) K k l i j * X k l =
    \sum_(a <= k < b) \sum_(c <= l < d) \sum_(t <- ts) t.1.1 * get t.1.2 k i * (X k l * get t.2 l j).
  rewrite !big_nat; apply: eq_bigr => k hk; rewrite !big_nat; apply: eq_bigr => l hl.
  rewrite /kT mulrDl (_ : (k == i)%:R * (l == j)%:R = 0) ?mulr0 ?mul0r ?addr0; last first.
    case: (k =P i) => [e|_]; last by rewrite mul0r.
    case: (l =P j) => [e'|_]; last by rewrite mulr0.
    by move: h; rewrite -e -e' hk hl.
  by rewrite mulr_suml; apply: eq_bigr => t _; rewrite -!mulrA (mulrC (get t.2 l j)).
apply/esym.
have -> : \sum_(t <- ts) t.1.1 * (\sum_(a <= k < b) get t.1.2 k i * (\sum_(c <= l < d) X k l * get t.2 l j)) =
    \sum_(t <- ts) \sum_(a <= k < b) \sum_(c <= l < d) t.1.1 * get t.1.2 k i * (X k l * get t.2 l j).
  apply: eq_bigr => t _; rewrite mulr_sumr; apply: eq_bigr => k _; rewrite mulrA mulr_sumr.
  by apply: eq_bigr => l _.
by rewrite exchange_big; apply: eq_bigr => k _; rewrite exchange_big.
Qed.

(* the products kept by the loop *)
Definition accok u v c (X : nat -> nat -> R) (fa : term R -> arr R) :=
  forall t, [/\ wfa (fa t), nr (fa t) = (v - u)%N, nc (fa t) = (n - u)%N &
    forall k j, (u <= k < v)%N -> (c <= j < n)%N -> get (fa t) (k - u) (j - u) = \sum_(0 <= l < c) X k l * get t.2 l j].

Lemma g_cols_inv u v cols c fa Ys Xs st : block bnd u v -> (v <= u + 2)%N -> (v <= c)%N -> (c <= n)%N -> chain c cols ->
  nn Ys -> nn Xs -> accok u v c (get Xs) fa ->
  Icol n K Y0 bnd u v c (get Ys) (get Xs) -> g_cols cast n ts mgen u v cols [seq fa t | t <- ts] Ys Xs = Ok st ->
  [/\ Icol n K Y0 bnd u v n (get st.1) (get st.2), nn st.1 & nn st.2].
Proof.
move=> bl v2; have [b1 b2 uv adj] := bl.
elim: cols c fa Ys Xs => [|[a d] cols IH] c fa Ys Xs vc cn /=; first by move=> -> hY hX ac I [<-].
move=> [-> bc d2 dn ch] hY hX ac I; have [b3 b4 cd _] := bc.
move=> E; have [x Ex {}E] := bindOk E; move: E.
have M := Hgen bl v2 bc d2 vc dn Ex.
have [wx rx cx _] := M.
have [f1 f2 f3] := put2_facts hX wx rx cx uv vc cd dn; rewrite -/(put2 Xs u c x).
have x1 i l : (u <= i < v)%N -> (l < d - c)%N -> get x (i - u) l = get (put2 Xs u c x) i (c + l).
  move=> hi hl; rewrite -f3 //; last by move: hi; clear; lia.
  by rewrite subnKC //; case/andP: hi.
pose fx (t : term R) := amul x (asubm t.2 c d c n).
have fxE t k j : (u <= k < v)%N -> (c <= j < n)%N ->
    get (fx t) (k - u) (j - c) = \sum_(c <= l < d) get (put2 Xs u c x) k l * get t.2 l j.
  move=> hk hj; rewrite (@get_xmul x t.2 c d c n _ _ (get (put2 Xs u c x) k)) //.
  - by rewrite subnKC //; case/andP: hj.
  - by rewrite rx; move: hk; clear; lia.
  - by move: hj; clear; lia.
  - by move=> l hl; apply: x1.
pose fb (t : term R) := aincr (fa t) 0 (c - u) (fx t).
rewrite -[X in g_cols _ _ _ _ _ _ _ X]/([seq aincr aB.1 0 (c - u) aB.2 | aB <- zip [seq fa t | t <- ts] [seq fx t | t <- ts]]).
rewrite zipmap -map_comp -/fx.
have -> : [seq ((fun aB => aincr aB.1 0 (c - u) aB.2) \o (fun t => (fa t, fx t))) t | t <- ts] = [seq fb t | t <- ts] by [].
have acE t k j : (u <= k < v)%N -> (c <= j < n)%N ->
    get (fb t) (k - u) (j - u) = \sum_(0 <= l < d) get (put2 Xs u c x) k l * get t.2 l j.
  have [wf rf cf hf] := ac t => hk hj.
  rewrite get_aincr ?rf ?cf /inblk /=; try by move: hk hj cd vc uv; clear; lia.
  rewrite rx (_ : _ && _ = true); last by move: hk hj cd vc uv; clear; lia.
  rewrite subn0 (_ : (j - u - (c - u) = j - c)%N); last by move: hj cd vc uv; clear; lia.
  rewrite hf // ?fxE //.
  rewrite [RHS](@big_cat_nat _ _ _ c) //=; last by rewrite ltnW.
  congr (_ + _); rewrite !big_nat; apply: eq_bigr => l hl; rewrite f2 //; move: hk hl uv vc cd dn; clear; lia.
have acb : accok u v d (get (put2 Xs u c x)) fb.
  move=> t; have [wf rf cf hf] := ac t; split; [exact: wfa_mk | exact: rf | exact: cf | move=> k j hk hj].
  by apply: acE => //; move: hj cd; clear; lia.
pose fs (t : term R) := asubm (fb t) 0 (v - u) (c - u) (d - u).
rewrite -map_comp -/fs.
have -> : [seq ((fun a0 : arr R => asubm a0 0 (v - u) (c - u) (d - u)) \o fb) t | t <- ts] = [seq fs t | t <- ts] by [].
have [Yr Yc] := hY.
have [l1r l1c] := @lift_shape ts u v u v fx (n - c) (fun t => erefl).
have [l2r l2c] := @lift_shape ts u v v d fs (d - u - (c - u)) (fun t => erefl).
have dc : (d - u - (c - u) = d - c)%N by move: uv vc cd; clear; lia.
rewrite dc in l2r l2c.
apply: (IH d fb) => //; [by move: cd vc; clear; lia|].
apply: (@step_col _ n K Y0 bnd kT_sym bndn kT_cut u v c d (get Ys) (get Xs)) => //.
- by move=> i j hi hj; apply: (W_msol M f3).
- move=> i j hi hj; rewrite !get_aincr //= ?Yr ?Yc; try by move: hi hj uv vc cd dn; clear; lia.
  rewrite /inblk /= l1r l1c l2r l2c.
  rewrite (negbTE (_ : ~~ [&& v <= i, _, c <= j & _]%N)); last by move: hi; clear; lia.
  rewrite (_ : [&& u <= i, _, c <= j & _]%N = true); last by move: hi hj cd; clear; lia.
  rewrite liftE //; try by move: hi hj cd; clear; lia.
  rewrite WG; last by move: hj; clear; lia.
  congr (_ + _); apply: eq_bigr => t _; congr (_ * _); rewrite !big_nat; apply: eq_bigr => k hk.
  rewrite subnKC; last by case/andP: hi.
  by rewrite fxE //; move: hj cd; clear; lia.
- move=> i j hi hj; rewrite !get_aincr //= ?Yr ?Yc; try by move: hi hj uv vc cd dn; clear; lia.
  rewrite /inblk /= l1r l1c l2r l2c.
  rewrite (_ : [&& v <= i, _, c <= j & _]%N = true); last by move: hi hj; clear; lia.
  rewrite (negbTE (_ : ~~ [&& u <= i, _, c <= j & _]%N)); last by move: hi; clear; lia.
  rewrite -dc liftE //; try by move: hi hj cd vc uv; clear; lia.
  have i_n : (i < n)%N by move: hi dn; clear; lia.
  have vn : (v <= n)%N by move: vc cn; clear; lia.
  have jd : (j < d)%N by case/andP: hj.
  rewrite (@W_cutl _ n K bnd kT_sym kT_cut d) // ?leq0n // WG; last by move: hi; clear; lia.
  congr (_ + _); apply: eq_bigr => t _; congr (_ * _); rewrite !big_nat; apply: eq_bigr => k hk.
  rewrite subnKC; last by case/andP: hi.
  congr (_ * _); rewrite get_subm; try by move: hk hj cd vc uv; clear; lia.
  rewrite -acE //; last by move: hj dn; clear; lia.
  by congr (get _ _ _); move: hk hj vc uv; clear; lia.
- move=> i j hi hj hn; rewrite !get_aincr //= ?Yr ?Yc; try by move: hi hj uv vc cd dn; clear; lia.
  rewrite /inblk /= l1r l1c l2r l2c.
  rewrite (negbTE (_ : ~~ [&& v <= i, _, c <= j & _]%N)); last by move: hi hj hn uv vc cd; clear; lia.
  by rewrite (negbTE (_ : ~~ [&& u <= i, _, c <= j & _]%N)) //; move: hi uv; clear; lia.
Qed.

Lemma g_rows_inv bl u Ys Xs X : chain u bl -> (u <= n)%N -> nn Ys -> nn Xs ->
  Irow n K Y0 bnd u (get Ys) (get Xs) -> g_rows cast n ts msym mgen bl Ys Xs = Ok X ->
  nn X /\ exists Y : nat -> nat -> R, Irow n K Y0 bnd n Y (get X).
Proof.
elim: bl u Ys Xs => [|[a v] bl IH] u Ys Xs /=; first by move=> -> _ _ hX I [<-]; split=> //; exists (get Ys).
move=> [-> bl1 v2 vn ch] un hY hX I; have [b1 b2 uv adj] := bl1; have [Yr Yc] := hY.
pose f0 (t : term R) := amul (asubm Xs u v 0 u) (asubm t.2 0 u u v).
set Y1 := (if u == 0%N then Ys else _).
have hY1 : nn Y1 by rewrite /Y1; case: ifP.
have [Y1r Y1c] := hY1.
have [l1r l1c] := @lift_shape ts u v u v f0 (v - u) (fun t => erefl).
have Y1E i j : (u <= i < v)%N -> (u <= j < v)%N -> get Y1 i j = get Ys i j + W K u v 0 u (get Xs) i j.
  move=> hi hj; rewrite WG; last by move: hj; clear; lia.
  rewrite /Y1; case: eqP => [->|_].
    by rewrite big1 ?addr0 // => t _; rewrite big1 ?mulr0 // => k _; rewrite [X in _ * X]big_geq // mulr0.
  rewrite get_aincr ?Yr ?Yc /inblk; try by move: hi hj vn; clear; lia.
  rewrite l1r l1c (_ : [&& u <= i, _, u <= j & _]%N = true); last by move: hi hj; clear; lia.
  rewrite liftE //; try by move: hi hj; clear; lia.
  congr (_ + _); apply: eq_bigr => t _; congr (_ * _); rewrite !big_nat; apply: eq_bigr => k hk.
  rewrite get_mulsub; try by move: hk hj; clear; lia.
  by rewrite !subnKC //; [case/andP: hj|case/andP: hk|case/andP: hi].
have Y1U i j : (i < n)%N -> (v <= j < n)%N -> get Y1 i j = get Ys i j.
  move=> hi hj; rewrite /Y1; case: eqP => // _; rewrite get_aincr ?Yr ?Yc /inblk //=; last by case/andP: hj.
  by rewrite l1c (negbTE (_ : ~~ [&& u <= i, _, u <= j & _]%N)) //; move: hj uv; clear; lia.
move=> E; have [x Ex {}E] := bindOk E; move: E.
have [|M sx] := Hsym bl1 v2 vn _ Ex.
  move=> i j hi hj; rewrite !get_subm // !Y1E; try by move: hi hj vn; clear; lia.
  by apply: (diag_sym kT_sym bndn kT_cut Y0sym bl1 I); move: hi hj; clear; lia.
have [wx rx cx _] := M.
have [f1 f2 f3] := put1_facts hX wx rx cx sx uv vn; rewrite -/(put1 Xs u x).
pose fa (t : term R) := amul (asubm (put1 Xs u x) u v 0 v) (asubm t.2 0 v u n).
rewrite -/fa.
have ac : accok u v v (get (put1 Xs u x)) fa.
  move=> t; split=> //; first exact: wfa_mk.
  move=> k j hk hj; rewrite get_mulsub; try by move: hk hj uv; clear; lia.
  by rewrite !subnKC //; [move: hj uv; clear; lia | case/andP: hk].
set Y2 := aincr _ _ _ _.
have hY2 : nn Y2 by [].
move=> E; have [st Es {}E] := bindOk E; move: E.
have [] : [/\ Icol n K Y0 bnd u v n (get st.1) (get st.2), nn st.1 & nn st.2]; last first.
  move=> I2 n1 n2; apply: (IH v) => //.
  exact: (col_end kT_sym bndn kT_cut Y0sym bl1 I2).
apply: (g_cols_inv bl1 v2 (leqnn v) vn ch hY2 _ ac _ Es) => //.
have [l2r l2c] := @lift_shape ts u v u v fa (n - u) (fun t => erefl).
apply: (@step_diag _ n K Y0 bnd kT_sym bndn kT_cut u v (get Ys) (get Xs)) => //.
- move=> i j hi hj; rewrite -Y1E //; exact: (W_msol M f3).
- move=> i j hi hj; rewrite get_aincr ?Y1r ?Y1c /inblk; try by move: hi hj vn; clear; lia.
  rewrite l2r l2c (_ : [&& u <= i, _, u <= j & _]%N = true); last by move: hi hj uv; clear; lia.
  rewrite Y1U //; last by move: hi vn; clear; lia.
  rewrite liftE //; try by move: hi hj uv; clear; lia.
  rewrite WG; last by move: hj; clear; lia.
  congr (_ + _); apply: eq_bigr => t _; congr (_ * _); rewrite !big_nat; apply: eq_bigr => k hk.
  have [_ _ _ ->] := ac t => //.
  by rewrite subnKC //; case/andP: hi.
- move=> i j hi hj; rewrite get_aincr ?Y1r ?Y1c /inblk; try by move: hi hj vn; clear; lia.
  rewrite l2r (negbTE (_ : ~~ [&& u <= i, _, u <= j & _]%N)) ?Y1U //; first by case/andP: hi.
  by move: hi uv; clear; lia.
Qed.
End Gen.
End Loops.
End Entries.
