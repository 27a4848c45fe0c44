(* The block forward substitution behind the four Lyapunov solvers, without arrays.

   The unknown X solves  Y0(i,j) + sum_{k,l < n} K(k,l;i,j) X(k,l) = 0.  bnd holds of the block boundaries, and K
   vanishes above them. *)
From mathcomp Require Import all_ssreflect all_algebra zify.

Set Implicit Arguments.
Unset Strict Implicit.
Unset Printing Implicit Defensive.

Import GRing.Theory.
Local Open Scope ring_scope.

Section Kernel.
Variable R : ringType.
Variable n : nat.
Variable K : nat -> nat -> nat -> nat -> R.
Variable Y0 : nat -> nat -> R.
Variable bnd : pred nat.
Implicit Types (X Y : nat -> nat -> R) (a b c d i j k l u v : nat).

Definition W a b c d X i j : R := \sum_(a <= k < b) \sum_(c <= l < d) K k l i j * X k l.

Hypothesis Ksym : forall k l i j, K k l i j = K l k j i.
Hypothesis Ycut : forall u, bnd u -> (u <= n)%N.
Hypothesis Kcut : forall u k l i j, bnd u -> (u <= k < n)%N -> (i < u)%N -> (l < n)%N -> (j < n)%N -> K k l i j = 0.
Hypothesis Y0sym : forall i j, (i < n)%N -> (j < n)%N -> Y0 i j = Y0 j i.

Lemma W_ext a b c d X X' i j : (forall k l, (a <= k < b)%N -> (c <= l < d)%N -> X k l = X' k l) ->
  W a b c d X i j = W a b c d X' i j.
Proof. by move=> h; apply: eq_big_nat => k hk; apply: eq_big_nat => l hl; rewrite h. Qed.

Lemma W_swap a b c d X i j : W a b c d X i j = W c d a b (fun k l => X l k) j i.
Proof. by rewrite /W exchange_big; apply: eq_bigr => l _; apply: eq_bigr => k _; rewrite Ksym. Qed.

Lemma W_splitk a e b c d X i j : (a <= e)%N -> (e <= b)%N -> W a b c d X i j = W a e c d X i j + W e b c d X i j.
Proof. by move=> h1 h2; rewrite /W (big_cat_nat _ _ _ h1 h2). Qed.

Lemma W_splitl a b c e d X i j : (c <= e)%N -> (e <= d)%N -> W a b c d X i j = W a b c e X i j + W a b e d X i j.
Proof. by move=> h1 h2; rewrite (W_swap a b c d) (W_swap a b c e) (W_swap a b e d) (W_splitk _ _ _ _ _ h1 h2). Qed.

Lemma W_zk u b c d X i j : bnd u -> (i < u)%N -> (j < n)%N -> (b <= n)%N -> (d <= n)%N -> W u b c d X i j = 0.
Proof.
move=> hb hi hj hbn hd; rewrite /W big_nat; apply: big1 => k hk; rewrite big_nat; apply: big1 => l hl.
by rewrite (Kcut hb) ?mul0r //; move: hk hl hbn hd; clear; lia.
Qed.

Lemma W_zl a b u d X i j : bnd u -> (j < u)%N -> (i < n)%N -> (b <= n)%N -> (d <= n)%N -> W a b u d X i j = 0.
Proof. by move=> *; rewrite W_swap W_zk. Qed.

Lemma W_cutk u a b c d X i j : bnd u -> (i < u)%N -> (j < n)%N -> (a <= u)%N -> (u <= b)%N -> (b <= n)%N -> (d <= n)%N ->
  W a b c d X i j = W a u c d X i j.
Proof. by move=> hb hi hj h1 h2 h3 h4; rewrite (W_splitk _ _ _ _ _ h1 h2) (W_zk _ _ hb) // addr0. Qed.

Lemma W_cutl u a b c d X i j : bnd u -> (j < u)%N -> (i < n)%N -> (c <= u)%N -> (u <= d)%N -> (d <= n)%N -> (b <= n)%N ->
  W a b c d X i j = W a b c u X i j.
Proof. by move=> hb hi hj h1 h2 h3 h4; rewrite (W_splitl _ _ _ _ _ h1 h2) (W_zl _ _ hb) // addr0. Qed.

(* the block of i is not behind the block of j *)
Definition ok i j := forall d, bnd d -> (j < d)%N -> (i < d)%N.
(* u and v are consecutive boundaries *)
Definition block u v := [/\ bnd u, bnd v, (u < v)%N & forall w, bnd w -> (w <= u)%N \/ (v <= w)%N].

Lemma block_ok u v i j : block u v -> (u <= j < v)%N -> ok i j <-> (i < v)%N.
Proof.
move=> [h1 h2 h3 h4] hj; split=> [h|h w hw hjw]; first by apply: h => //; case/andP: hj.
by case: (h4 w hw) => h5; move: hj hjw h5 h; clear; lia.
Qed.

Definition eqn X i j := Y0 i j + W 0 n 0 n X i j = 0.

(* before the row that starts at u *)
Record Irow u Y X : Prop := {
  rY : forall i j, (u <= i < n)%N -> (u <= j < n)%N -> ok i j -> Y i j = Y0 i j + W 0 u 0 n X i j;
  rS : forall k i, (k < u)%N -> (i < n)%N -> X i k = X k i;
  rE : forall i j, (i < u)%N -> (j < n)%N -> eqn X i j }.

(* in the row [u, v), before the column that starts at c *)
Record Icol u v c Y X : Prop := {
  cR : forall i j, (u <= i < v)%N -> (c <= j < n)%N -> Y i j = Y0 i j + W 0 u 0 n X i j + W u v 0 c X i j;
  cD : forall i j, (v <= i < n)%N -> (v <= j < n)%N -> ok i j ->
         Y i j = Y0 i j + W 0 (if (j < c)%N then v else u) 0 n X i j;
  cS : forall k i, (k < u)%N -> (i < n)%N -> X i k = X k i;
  cS' : forall k i, (u <= k < v)%N -> (i < c)%N -> X i k = X k i;
  cE : forall i j, (i < u)%N -> (j < n)%N -> eqn X i j;
  cE' : forall i j, (u <= i < v)%N -> (u <= j < c)%N -> eqn X i j }.

Lemma row_init X : Irow 0 Y0 X.
Proof. by split=> // i j _ _ _; rewrite /W big_geq // addr0. Qed.

Lemma row_final Y X : Irow n Y X ->
  (forall i j, (i < n)%N -> (j < n)%N -> X i j = X j i) /\ (forall i j, (i < n)%N -> (j < n)%N -> eqn X i j).
Proof. by move=> [_ h1 h2]; split=> // i j hi hj; apply: h1. Qed.

(* the right-hand side of the diagonal block is symmetric *)
Lemma diag_sym u v Y X i j : block u v -> Irow u Y X -> (u <= i < v)%N -> (u <= j < v)%N ->
  Y i j + W u v 0 u X i j = Y j i + W u v 0 u X j i.
Proof.
move=> bl; have [b1 b2 uv _] := bl; have un := Ycut b1; have vn := Ycut b2.
move=> [hY hS _].
have E a b : (u <= a < v)%N -> (u <= b < v)%N ->
    Y a b + W u v 0 u X a b = Y0 a b + W 0 u 0 u X a b + (W 0 u u v X a b + W u v 0 u X a b).
  move=> ha hb; rewrite hY; [|by move: ha vn; clear; lia|by move: hb vn; clear; lia|]; last first.
    by apply/(block_ok _ bl hb); case/andP: ha.
  rewrite (@W_cutl v) //; try (by move: ha hb vn un; clear; lia).
  rewrite (@W_splitl 0 u 0 u v) ?(ltnW uv) // -!addrA; congr (_ + (_ + _)).
move=> hi hj; rewrite !E //; congr (_ + _ + _).
- by apply: Y0sym; move: hi hj vn; clear; lia.
- rewrite W_swap; apply: W_ext => k l hk hl; apply: hS; [by move: hk; clear; lia | move: hl un; clear; lia].
rewrite addrC; congr (_ + _); rewrite W_swap; apply: W_ext => k l hk hl.
  by apply: hS; [move: hk; clear; lia | move: hl vn; clear; lia].
by apply/esym/hS; [move: hl; clear; lia | move: hk vn; clear; lia].
Qed.

Lemma step_diag u v Y X Y' X' : block u v -> Irow u Y X ->
  (forall i j, (u <= i < v)%N -> (u <= j < v)%N -> X' i j = X' j i) ->
  (forall i j, ~~ ((u <= i < v) && (u <= j < v))%N -> (i < n)%N -> (j < n)%N -> X' i j = X i j) ->
  (forall i j, (u <= i < v)%N -> (u <= j < v)%N -> Y i j + W u v 0 u X i j + W u v u v X' i j = 0) ->
  (forall i j, (u <= i < v)%N -> (v <= j < n)%N -> Y' i j = Y i j + W u v 0 v X' i j) ->
  (forall i j, (v <= i < n)%N -> (v <= j < n)%N -> Y' i j = Y i j) ->
  Icol u v v Y' X'.
Proof.
move=> bl [hY hS hE] s1 s2 s3 s4 s5; have [b1 b2 uv adj] := bl; have un := Ycut b1; have vn := Ycut b2.
have eW a b i j : (b <= u)%N -> W a b 0 n X' i j = W a b 0 n X i j.
  move=> hb; apply: W_ext => k l hk hl; apply: s2; move: hk hl hb un; clear; lia.
split.
- move=> i j hi hj; rewrite s4 // hY.
  + by rewrite eW.
  + by move: hi vn; clear; lia.
  + by move: hj uv; clear; lia.
  + move=> d bd jd; case: (adj d bd); move: hi hj jd uv; clear; lia.
- move=> i j hi hj oij; rewrite s5 // (negbTE (_ : ~~ (j < v)%N)); last by move: hj; clear; lia.
  rewrite hY //; [by rewrite eW | by move: hi uv; clear; lia | by move: hj uv; clear; lia].
- move=> k i hk hi; rewrite !s2 //; [exact: hS | | | |]; move: hk hi un; clear; lia.
- move=> k i hk hi; case: (ltnP i u) => hiu; last by apply: s1 => //; rewrite hiu.
  rewrite !s2 //; [apply/esym; apply: hS | ..]; move: hk hi hiu vn; clear; lia.
- move=> i j hi hj; rewrite /eqn (@W_cutk u) //; [|by move: hi un hj; clear; lia..].
  rewrite eW // -(@W_cutk u _ n) //; [exact: hE | by move: un; clear; lia..].
- move=> i j hi hj; have /andP[hi1 hi2] := hi.
  have jn : (j < n)%N by move: hj vn; clear; lia. have i_n : (i < n)%N by move: hi vn; clear; lia.
  rewrite /eqn (@W_cutk v) // (@W_splitk 0 u v) ?(ltnW uv) //.
  rewrite eW // addrA -hY //; last first.
  + by apply/(block_ok _ bl hj).
  + by move: hj vn; clear; lia.
  + by move: hi vn; clear; lia.
  rewrite (@W_cutl v _ _ 0 n) //; last by move: hj; clear; lia.
  rewrite (@W_splitl u v 0 u v) ?(ltnW uv) // addrA.
  rewrite -[RHS](s3 i j hi hj); congr (_ + _ + _); apply: W_ext => k l hk hl.
  by apply: s2; move: hk hl un vn; clear; lia.
Qed.

Lemma step_col u v c d Y X Y' X' : block u v -> block c d -> (v <= c)%N -> Icol u v c Y X ->
  (forall i j, (u <= i < v)%N -> (c <= j < d)%N -> X' i j = X' j i) ->
  (forall i j, ~~ ((u <= i < v) && (c <= j < d))%N -> ~~ ((c <= i < d) && (u <= j < v))%N -> (i < n)%N -> (j < n)%N ->
     X' i j = X i j) ->
  (forall i j, (u <= i < v)%N -> (c <= j < d)%N -> Y i j + W u v c d X' i j = 0) ->
  (forall i j, (u <= i < v)%N -> (d <= j < n)%N -> Y' i j = Y i j + W u v c d X' i j) ->
  (forall i j, (v <= i < d)%N -> (c <= j < d)%N -> Y' i j = Y i j + W u v 0 n X' i j) ->
  (forall i j, (v <= i < n)%N -> (v <= j < n)%N -> ~~ ((i < d) && (c <= j < d))%N -> Y' i j = Y i j) ->
  Icol u v d Y' X'.
Proof.
move=> bl bc vc [hR hD hS hS' hE hE'] s1 s2 s3 s4 s5 s6.
have [b1 b2 uv adj] := bl; have [b3 b4 cd adjc] := bc; have un := Ycut b1; have vn := Ycut b2.
have cn := Ycut b3; have dn := Ycut b4.
have eW i j : W 0 u 0 n X' i j = W 0 u 0 n X i j.
  apply: W_ext => k l hk hl; apply: s2; move: hk hl uv vc cd vn; clear; lia.
have eW2 i j : W u v 0 c X' i j = W u v 0 c X i j.
  apply: W_ext => k l hk hl; apply: s2; move: hk hl uv vc cd vn cn; clear; lia.
have eE i j : (i < v)%N -> (j < c)%N -> W 0 n 0 n X' i j = W 0 n 0 n X i j.
  move=> hi hj; have [i_n jn] : (i < n)%N /\ (j < n)%N by move: hi hj vn cn; clear; lia.
  rewrite !(@W_cutk v 0 n) // !(@W_cutl c _ _ 0 n) //.
  apply: W_ext => k l hk hl; apply: s2; move: hk hl uv vc cd vn cn; clear; lia.
have eE0 i j : (i < u)%N -> (j < n)%N -> W 0 n 0 n X' i j = W 0 n 0 n X i j.
  by move=> hi hj; rewrite !(@W_cutk u 0 n) // eW.
split.
- move=> i j hi hj; rewrite s4 // hR //; last by move: hj cd; clear; lia.
  rewrite eW (@W_splitl u v 0 c d) ?(ltnW cd) // eW2 -!addrA //.
- move=> i j hi hj oij; case: (boolP ((i < d) && (c <= j < d))%N) => hb.
    have /andP[hb1 hb2] := hb; have /andP[hb3 hb4] := hb2.
    rewrite s5 //; last by rewrite hb1 andbT; case/andP: hi.
    rewrite hb4 hD // (ltnNge j c) hb3 /= -addrA; congr (_ + _).
    by rewrite (@W_splitk 0 u v) ?(ltnW uv) // eW.
  rewrite s6 // hD //; congr (_ + _).
  case: (ltnP j c) => hjc.
    have -> : (j < d)%N by move: hjc cd; clear; lia.
    have i_n : (i < n)%N by case/andP: hi.
    rewrite !(@W_cutl c _ _ 0 n) //; apply: W_ext => k l hk hl; apply/esym/s2; move: hk hl uv vc cd vn cn; clear; lia.
  have -> : (j < d)%N = false; last by rewrite eW.
  apply/negbTE; apply: contra hb => hjd; rewrite hjc hjd /= andbT.
  by apply/(block_ok _ bc (_ : c <= j < d)%N) => //; rewrite hjc hjd.
- by move=> k i hk hi; rewrite !s2 //; [exact: hS | ..]; move: hk hi uv vc cd vn; clear; lia.
- move=> k i hk hi; case: (ltnP i c) => hic; last by apply/esym; apply: s1 => //; rewrite hic.
  rewrite !s2 //; [exact: hS' | ..]; move: hk hi hic uv vc cd vn cn; clear; lia.
- by move=> i j hi hj; rewrite /eqn eE0 //; apply: hE.
- move=> i j hi hj; have /andP[hi1 hi2] := hi.
  have [i_n jn] : (i < n)%N /\ (j < n)%N by move: hi hj vn dn; clear; lia.
  case: (ltnP j c) => hjc.
    by rewrite /eqn eE //; apply: hE' => //; case/andP: hj => ->.
  have hj' : (c <= j < d)%N by move: hj hjc; clear; lia.
  rewrite /eqn (@W_cutk v) // (@W_splitk 0 u v) ?(ltnW uv) // eW.
  rewrite (@W_cutl d u v) //; last by move: hj; clear; lia.
  rewrite (@W_splitl u v 0 c d) ?(ltnW cd) // eW2 !addrA -hR ?s3 //; move: hj hjc dn; clear; lia.
Qed.

Lemma col_end u v Y X : block u v -> Icol u v n Y X -> Irow v Y X.
Proof.
move=> bl [hR hD hS hS' hE hE']; have [b1 b2 uv adj] := bl; have un := Ycut b1; have vn := Ycut b2.
have S k i : (k < v)%N -> (i < n)%N -> X i k = X k i.
  by move=> hk hi; case: (ltnP k u) => h; [apply: hS | apply: hS' => //; rewrite h].
split=> //.
- by move=> i j hi hj oij; rewrite hD //; case/andP: hj => _ ->.
move=> i j hi hj; case: (ltnP i u) => hiu; first exact: hE.
case: (ltnP j u) => hju; last by apply: hE'; rewrite ?hiu ?hju.
have i_n : (i < n)%N by move: hi vn; clear; lia.
have := hE j i hju i_n; rewrite /eqn Y0sym // => <-; congr (_ + _); rewrite W_swap.
rewrite (@W_cutk u 0 n _ _ _ j i) // (@W_cutk u 0 n _ _ _ j i) //; apply: W_ext => k l hk hl; apply: S.
  by move: hk un uv; clear; lia.
by case/andP: hl.
Qed.
End Kernel.
