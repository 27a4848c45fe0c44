(* The blocks read off the subdiagonal of a quasi-triangular matrix form a chain of boundaries. *)
From mathcomp Require Import all_ssreflect all_algebra zify.
From Verif Require Import Base BaseTheory ModelLyap LyapKernel LyapMini LyapTheory.

Set Implicit Arguments.
Unset Strict Implicit.
Unset Printing Implicit Defensive.

Import GRing.Theory Num.Theory.
Local Open Scope ring_scope.

Section Marks.
Definition bz_step (bz : seq (option nat)) x := set_nth None (set_nth None bz x (Some 2%N)) x.+1 None.

Lemma bz_foldl n L : (forall x, x \in L -> (x.+1 < n)%N) -> (forall x, x \in L -> x.+1 \notin L) ->
  size (foldl bz_step (nseq n (Some 1%N)) L) = n /\
  forall i, (i < n)%N -> nth None (foldl bz_step (nseq n (Some 1%N)) L) i =
    if i \in L then Some 2%N else if (0 < i)%N && (i.-1 \in L) then None else Some 1%N.
Proof.
elim/last_ind: L => [|L x IH] hn hc /=.
  by rewrite size_nseq; split=> // i hi; rewrite nth_nseq hi andbF.
have [||hs hv] := IH.
- by move=> y hy; apply: hn; rewrite mem_rcons inE hy orbT.
- by move=> y hy; apply: contra (hc y _) => [h|]; rewrite mem_rcons inE ?h ?hy ?orbT.
have xn : (x.+1 < n)%N by apply: hn; rewrite mem_rcons inE eqxx.
rewrite -cats1 foldl_cat /=; move: (foldl _ _ L) hs hv => Z hs hv; rewrite /bz_step !size_set_nth hs; split; first by move: xn; clear; lia.
move=> i hi; rewrite !nth_set_nth /= mem_cat inE.
case: (i =P x.+1) => [->|n1].
  have h := hc x; rewrite mem_rcons inE eqxx in h; have /negbTE := h isT; rewrite mem_rcons inE => /norP[_ /negbTE ->].
  by rewrite /= mem_cat inE eqxx orbT (gtn_eqF (ltnSn x)).
rewrite nth_set_nth /=; case: (i =P x) => [_|n2]; first by rewrite orbT.
rewrite orbF hv // mem_cat inE.
case: i hi n1 n2 => [|i] //= hi n1 n2; rewrite (_ : i == x = false) ?orbF //.
by apply/negbTE/eqP => e; apply: n1; rewrite e.
Qed.
End Marks.

Section Blocks.
Variable R : realFieldType.
Variables (tol : R) (As : arr R).
Let n := nr As.
Let sub i := tol < `|get As i.+1 i|.
Hypothesis noc : forall i, (i.+2 < n)%N -> sub i -> ~~ sub i.+1.

(* the indices where a block starts, and n *)
Definition bnd_of (w : nat) := (w <= n)%N && [|| w == 0%N, w == n | ~~ sub w.-1].

Lemma mem_subdiag i : (i \in subdiag tol As) = (i.+1 < n)%N && sub i.
Proof. by rewrite /subdiag mem_filter mem_iota andbC; congr (_ && _); rewrite /n; move: (nr As); clear; lia. Qed.

Definition mark i := if (i.+1 < n)%N && sub i then Some 2%N else if (0 < i)%N && sub i.-1 then None else Some 1%N.

Lemma block_sizesE : block_sizes tol As = pmap id (mkseq mark n).
Proof.
rewrite /block_sizes; congr pmap; have [||hs hv] := @bz_foldl n (subdiag tol As).
- by move=> x; rewrite mem_subdiag => /andP[].
- move=> x; rewrite !mem_subdiag => /andP[h1 h2]; apply/negP => /andP[h3 h4].
  by move: (noc h3 h2); rewrite h4.
apply: (@eq_from_nth _ None); first by rewrite size_mkseq.
rewrite hs => i hi; rewrite nth_mkseq // hv // !mem_subdiag /mark.
by case: i hi => [|i] hi //=; rewrite hi.
Qed.

Lemma drop_mark s : (s < n)%N -> drop s (mkseq mark n) = mark s :: drop s.+1 (mkseq mark n).
Proof. by move=> h; rewrite (drop_nth None) ?size_mkseq // nth_mkseq. Qed.

Lemma pmap_mark s : (s < n)%N -> mark s != None -> pmap id (drop s (mkseq mark n)) != [::].
Proof. by move=> h; rewrite drop_mark //=; case: (mark s). Qed.

Lemma bnd_mark s : (s < n)%N -> bnd_of s -> mark s != None.
Proof.
move=> h; rewrite /bnd_of /mark; case: ifP => // _; case: s h => [|s] h //= /andP[_]; rewrite (ltn_eqF h) /=.
by move/negbTE ->.
Qed.

Lemma mkblocks_chain s : (s <= n)%N -> bnd_of s -> chain n bnd_of s (mkblocks n s (pmap id (drop s (mkseq mark n)))).
Proof.
have [m] := ubnP (n - s); elim: m s => // m IH s hm sn bs.
case: (ltngtP s n) sn => // [h|->] _; last by rewrite drop_oversize ?size_mkseq.
have ms := bnd_mark h bs.
have E b rest : mkblocks n s (b :: rest) = if rest is [::] then [:: (s, n)] else (s, s + b)%N :: mkblocks n (s + b) rest by [].
have step b : (0 < b <= 2)%N -> bnd_of (s + b)%N -> (forall w, bnd_of w -> (w <= s)%N \/ (s + b <= w)%N) -> (s + b <= n)%N ->
    chain n bnd_of s (mkblocks n s (b :: pmap id (drop (s + b) (mkseq mark n)))).
  move=> hb bb adj bn; rewrite E.
  have B : block bnd_of s (s + b) by split=> //; move: hb; clear; lia.
  case D: (pmap id _) => [|y rest].
    have e : (s + b)%N = n.
      apply/eqP; rewrite eqn_leq bn leqNgt; apply/negP => lt.
      by have := pmap_mark lt (bnd_mark lt bb); rewrite D.
    rewrite e in B; split=> //=; by move: hb e; clear; lia.
  rewrite -D; split=> //=; first by move: hb; clear; lia.
  by apply: IH => //; move: hm h hb; clear; lia.
rewrite drop_mark //; case M: (mark s) ms => [b|] // _ /=.
move: M; rewrite /mark; case: ifP => [/andP[h1 h2] [<-]|h1].
  have e : mark s.+1 = None.
    rewrite /mark /= h2; case: ifP => // /andP[h3 h4]; by have := noc h3 h2; rewrite h4.
  rewrite drop_mark // e -addn2; apply: (step 2%N) => //.
  - rewrite /bnd_of addn2 h1 /=; apply/orP; case: (ltngtP s.+2 n) h1 => // h3 _; [right | by left].
    exact: noc.
  - move=> w /andP[wn bw]; case: (leqP w s) => hw; [by left | right].
    case: (ltngtP w s.+1) => [|hw'|e']; [by move: hw; clear; lia | by move: hw'; clear; lia |].
    by move: bw; rewrite e' /= h2 (ltn_eqF h1).
  - by rewrite addn2.
case: ifP => // h2 [<-]; rewrite -addn1; apply: (step 1%N) => //.
- rewrite /bnd_of addn1 h /=; apply/orP; case: (ltngtP s.+1 n) h => // h3 _; [right | by left].
  by apply/negP => h4; move: h1; rewrite h3 h4.
- by move=> w _; rewrite addn1; case: (leqP w s); [left | right].
- by rewrite addn1.
Qed.

Lemma blocks_chain : chain n bnd_of 0 (blocks tol As).
Proof. by rewrite /blocks block_sizesE -[mkseq _ _]drop0; apply: mkblocks_chain. Qed.
End Blocks.
