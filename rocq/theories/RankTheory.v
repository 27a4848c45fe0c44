(* The executable rank arank of ModelPoly.v is the rank of the matrix. *)
From mathcomp Require Import all_ssreflect all_algebra zify.
From Verif Require Import Base BaseTheory ModelPoly PolyTheory.

Set Implicit Arguments.
Unset Strict Implicit.
Unset Printing Implicit Defensive.

Import GRing.Theory.
Local Open Scope ring_scope.

Section Rank.
Variable R : realFieldType.
Implicit Types (rows : seq (seq R)) (r u v : seq R).

Definition vecr n r : 'rV[R]_n := \row_j nth 0 r j.
Definition rowsum n rows : 'M[R]_n := (\sum_(r <- rows) <<vecr n r>>)%MS.
Definition emb n : 'M[R]_(n, n.+1) := \matrix_(i, j) (j == lift ord0 i)%:R.

Lemma mul_emb0 m n (x : 'M[R]_(m, n)) i : (x *m emb n) i ord0 = 0.
Proof. by rewrite mxE big1 // => k _; rewrite mxE mulr0. Qed.

Lemma mul_embS m n (x : 'M[R]_(m, n)) i k : (x *m emb n) i (lift ord0 k) = x i k.
Proof.
rewrite mxE (bigD1 k) //= mxE eqxx mulr1 big1 ?addr0 // => l ne.
by rewrite mxE (inj_eq lift_inj) eq_sym (negbTE ne) mulr0.
Qed.

Lemma emb_free n : row_free (emb n).
Proof.
apply/row_freeP; exists (emb n)^T; apply/matrixP => i j.
rewrite mxE (bigD1 (lift ord0 j)) //= !mxE eqxx mulr1 (inj_eq lift_inj) big1 ?addr0 1?eq_sym // => l ne.
by rewrite !mxE (negbTE ne) mulr0.
Qed.

Lemma vecr_emb n r w : nth 0 r 0 = 0 -> (forall j, (j < n)%N -> nth 0 r j.+1 = nth 0 w j) ->
  vecr n.+1 r = vecr n w *m emb n.
Proof.
move=> h0 h; apply/rowP => j; case: (unliftP ord0 j) => [k ->|->].
  by rewrite mul_embS !mxE h.
by rewrite mul_emb0 mxE.
Qed.

Lemma rowsum_emb n (I : Type) (l : seq I) (g w : I -> seq R) :
  (forall i, vecr n.+1 (g i) = vecr n (w i) *m emb n) ->
  (rowsum n.+1 [seq g i | i <- l] :=: rowsum n [seq w i | i <- l] *m emb n)%MS.
Proof.
move=> h; rewrite /rowsum !big_map.
elim: l => [|i l IH]; first by rewrite !big_nil mul0mx; apply: eqmx_sym; exact: eqmx0.
rewrite !big_cons.
apply: (eqmx_trans (adds_eqmx (genmxE _) IH)).
apply: eqmx_sym; apply: (eqmx_trans (addsmxMr _ _ _)); apply: adds_eqmx => //.
by apply: (eqmx_trans (eqmxMr _ (genmxE _))); rewrite h.
Qed.

Lemma rowsum_perm n rows rows' : perm_eq rows rows' -> rowsum n rows = rowsum n rows'.
Proof. by move=> h; rewrite /rowsum (perm_big _ h). Qed.

Lemma rowsum_elim n u rows (c : seq R -> R) (w : seq R -> seq R) :
  (forall v, vecr n (w v) = vecr n v - c v *: vecr n u) ->
  (rowsum n (u :: rows) :=: rowsum n (u :: [seq w v | v <- rows]))%MS.
Proof.
move=> h; rewrite /rowsum !big_cons big_map; apply/eqmxP/andP; split.
- rewrite addsmx_sub addsmxSl /=; elim: rows => [|v l IH]; first by rewrite big_nil sub0mx.
  rewrite !big_cons addsmx_sub genmxE; apply/andP; split.
    have -> : vecr n v = c v *: vecr n u + vecr n (w v) by rewrite h addrC subrK.
    apply: addmx_sub; first by apply: scalemx_sub; rewrite (submx_trans _ (addsmxSl _ _)) ?genmxE.
    rewrite (submx_trans _ (addsmxSr _ _)) // (submx_trans _ (addsmxSl _ _)) // genmxE.
    exact: submx_refl.
  apply: (submx_trans IH); rewrite addsmxS // addsmxSr //.
- rewrite addsmx_sub addsmxSl /=; elim: rows => [|v l IH]; first by rewrite big_nil sub0mx.
  rewrite !big_cons addsmx_sub genmxE; apply/andP; split.
    rewrite h; apply: addmx_sub.
      rewrite (submx_trans _ (addsmxSr _ _)) // (submx_trans _ (addsmxSl _ _)) // genmxE.
      exact: submx_refl.
    by rewrite -scaleNr; apply: scalemx_sub; rewrite (submx_trans _ (addsmxSl _ _)) ?genmxE.
  apply: (submx_trans IH); rewrite addsmxS // addsmxSr //.
Qed.

Lemma rank_rowsP n rows : rank_rows n rows = \rank (rowsum n rows).
Proof.
elim: n rows => [|n IH] rows /=.
  by apply/esym/eqP; rewrite -leqn0 rank_leq_row.
case: ltnP => hk; last first.
  rewrite IH; have hn : ~~ has (fun r => head 0 r != 0) rows by rewrite has_find -leqNgt.
  have {hn} h0 r : r \in rows -> nth 0 r 0 = 0.
    by move=> hr; apply/eqP; rewrite nth0; apply: contraNT hn => hd; apply/hasP; exists r.
  have -> : rowsum n.+1 rows = rowsum n.+1 [seq (0 :: behead r) | r <- rows].
    rewrite /rowsum big_map; apply: eq_big_seq => r /h0 hr; congr (<<_>>)%MS.
    apply/rowP => j; rewrite !mxE; case: (j : 'I_n.+1) => -[] //= k _.
    by rewrite nth_behead.
  rewrite (@rowsum_emb n _ rows (fun r => 0 :: behead r) behead).
    by rewrite mxrankMfree ?emb_free.
  by move=> r; apply: vecr_emb.
set k := find _ _ in hk *; set u := nth _ _ _; set others := _ ++ _.
have hu : head 0 u != 0 by apply: (@nth_find _ [::] (fun r => head 0 r != 0)); rewrite has_find.
rewrite (@rowsum_perm _ rows (u :: others)); last first.
  by rewrite -{1}(cat_take_drop k rows) (drop_nth [::] hk) perm_catC /= perm_cons perm_catC.
pose w v := 0 :: mkseq (fun j => nth 0 v j.+1 - head 0 v / head 0 u * nth 0 u j.+1) n.
rewrite (@rowsum_elim _ u others (fun v => head 0 v / head 0 u) w); last first.
  move=> v; apply/rowP => j; rewrite !mxE; case: j => -[|j] hj /=.
    by rewrite !nth0 divfK // subrr.
  by rewrite nth_mkseq.
rewrite {1}/rowsum big_cons -/(rowsum n.+1 (map w others)).
rewrite mxrank_disjoint_sum; last first.
  apply/eqP; rewrite -submx0; apply/rV_subP => x; rewrite sub_capmx genmxE => /andP[/sub_rVP[a ->]].
  rewrite (@rowsum_emb n _ others w (fun v => behead (w v))) => [|v]; last by apply: vecr_emb.
  move=> /submxP[y /rowP/(_ ord0)]; rewrite mulmxA mul_emb0 !mxE /= nth0 => /eqP; rewrite mulf_eq0 (negbTE hu) orbF => /eqP->.
  by rewrite scale0r sub0mx.
rewrite genmxE IH (@rowsum_emb n _ others w (fun v => behead (w v))) => [|v]; last by apply: vecr_emb.
rewrite mxrankMfree ?emb_free // rank_rV.
have -> : vecr n.+1 u != 0.
  by apply/eqP => /rowP/(_ ord0); rewrite !mxE nth0 => /eqP; rewrite (negbTE hu).
by rewrite add1n.
Qed.

Lemma arankP (A : arr R) m n : wfa A -> nr A = m -> nc A = n -> 
  arank A = \rank (\matrix_(i < m, j < n) get A i j).
Proof.
move=> wA hm hn; rewrite /arank rank_rowsP hn; apply: eqmx_rank.
have sz : size (dat A) = m by case/andP: wA => /eqP ->.
rewrite /rowsum (big_nth [::]) big_mkord sz; apply/andP; split.
  apply/sumsmx_subP => i _; rewrite genmxE.
  by rewrite (_ : vecr _ _ = row i (\matrix_(i, j) get A i j)) ?row_sub //; apply/rowP => j; rewrite !mxE.
apply/row_subP => i; rewrite (sumsmx_sup i) // genmxE (_ : row i _ = vecr n (nth [::] (dat A) i)) //.
by apply/rowP => j; rewrite !mxE.
Qed.

End Rank.
