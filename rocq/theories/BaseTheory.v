(* Lemmas tying the executable arrays of Base.v to mathcomp matrices. *)
From mathcomp Require Import all_ssreflect all_algebra.
From Verif Require Import Base.

Set Implicit Arguments.
Unset Strict Implicit.
Unset Printing Implicit Defensive.

Import GRing.Theory.
Local Open Scope ring_scope.

Section Basics.
Variable F : fieldType.
Implicit Types A B C D : arr F.

Lemma get_mk m n (g : nat -> nat -> F) i j :
  (i < m)%N -> (j < n)%N -> get (mk m n g) i j = g i j.
Proof. by move=> im jn; rewrite /get /mk /= nth_mkseq // nth_mkseq. Qed.

Lemma nr_mk m n (g : nat -> nat -> F) : nr (mk m n g) = m. Proof. by []. Qed.
Lemma nc_mk m n (g : nat -> nat -> F) : nc (mk m n g) = n. Proof. by []. Qed.

Lemma wfa_mk m n (g : nat -> nat -> F) : wfa (mk m n g).
Proof.
rewrite /wfa /= size_mkseq eqxx /=; apply/allP => r /mapP[i _ ->].
by rewrite size_mkseq.
Qed.

Lemma mk_ext m n (g h : nat -> nat -> F) :
  (forall i j, (i < m)%N -> (j < n)%N -> g i j = h i j) -> mk m n g = mk m n h.
Proof.
move=> gh; rewrite /mk; congr Arr.
apply: (@eq_from_nth _ [::]); first by rewrite !size_mkseq.
move=> i; rewrite size_mkseq => im; rewrite !nth_mkseq //.
apply: (@eq_from_nth _ 0); first by rewrite !size_mkseq.
by move=> j; rewrite size_mkseq => jn; rewrite !nth_mkseq // gh.
Qed.

Lemma arr_eta A : wfa A -> A = mk (nr A) (nc A) (get A).
Proof.
case: A => m n s /andP[/= /eqP sm /allP sn]; rewrite /mk; congr Arr.
apply: (@eq_from_nth _ [::]); first by rewrite size_mkseq.
move=> i im; rewrite nth_mkseq -?sm //.
have := sn _ (mem_nth [::] im) => /eqP si.
apply: (@eq_from_nth _ 0); first by rewrite size_mkseq.
by move=> j js; rewrite nth_mkseq -?si.
Qed.

Lemma arr_eqP A B : wfa A -> wfa B -> nr A = nr B -> nc A = nc B ->
  (forall i j, (i < nr A)%N -> (j < nc A)%N -> get A i j = get B i j) -> A = B.
Proof.
move=> wA wB eN eM h; rewrite (arr_eta wA) (arr_eta wB) -eN -eM.
by apply: mk_ext.
Qed.

Lemma get_out_r A i j : wfa A -> (nr A <= i)%N -> get A i j = 0.
Proof.
case/andP=> /eqP sz _ h.
by rewrite /get (@nth_default _ [::]) ?sz //; case: j.
Qed.

Lemma get_out_c A i j : wfa A -> (nc A <= j)%N -> get A i j = 0.
Proof.
case/andP=> /eqP sz /allP sn h; rewrite /get.
case: (ltnP i (size (dat A))) => hi.
  by rewrite nth_default // (eqP (sn _ (mem_nth [::] hi))).
by rewrite (@nth_default _ [::]) //; case: j {h}.
Qed.

Lemma sumNE n (g : nat -> F) : sumN n g = \sum_(i < n) g i.
Proof.
rewrite /sumN -(big_mkord xpredT g) /index_iota subn0.
by elim: (iota 0 n) => [|k s IH] /=; rewrite ?big_nil ?big_cons ?IH.
Qed.

Lemma eq_sumN n (g h : nat -> F) :
  (forall i, (i < n)%N -> g i = h i) -> sumN n g = sumN n h.
Proof. by move=> gh; rewrite !sumNE; apply: eq_bigr => i _; apply: gh. Qed.

Lemma detNE n (g : nat -> nat -> F) :
  detN n g = \det (\matrix_(i < n, j < n) g i j).
Proof.
elim: n g => [|n IH] g; first by rewrite det_mx00.
rewrite [LHS]/= sumNE (expand_det_row _ ord0); apply: eq_bigr => j _.
rewrite mxE /cofactor /= add0n IH; congr (_ * (_ * \det _)).
by apply/matrixP=> i k; rewrite !mxE /=.
Qed.

Lemma wfa_T A : wfa (aT A). Proof. exact: wfa_mk. Qed.
Lemma wfa_map h A : wfa (amap h A). Proof. exact: wfa_mk. Qed.
Lemma wfa_mul A B : wfa (amul A B). Proof. exact: wfa_mk. Qed.
Lemma wfa_add A B : wfa (aadd A B). Proof. exact: wfa_mk. Qed.

Lemma aTK A : wfa A -> aT (aT A) = A.
Proof.
move=> wA; apply: arr_eqP => //; rewrite ?wfa_T //=.
by move=> i j hi hj; rewrite /aT !get_mk.
Qed.

Lemma aany_false A : wfa A -> aany A = false -> A = azeros (nr A) (nc A).
Proof.
move=> wA /hasPn h; apply: arr_eqP => //; first exact: wfa_mk.
move=> i j hi hj; rewrite get_mk //.
have hi' : i \in iota 0 (nr A) by rewrite mem_iota.
have hj' : j \in iota 0 (nc A) by rewrite mem_iota.
have /hasPn h2 := h _ hi'; have := h2 _ hj'.
by rewrite negbK => /eqP.
Qed.

Lemma aanyP A : reflect (exists i j, [/\ (i < nr A)%N, (j < nc A)%N & get A i j != 0]) (aany A).
Proof.
apply: (iffP hasP) => [[i]|[i [j [hi hj h]]]].
  rewrite mem_iota /= add0n => hi /hasP[j]; rewrite mem_iota /= add0n => hj h.
  by exists i, j.
exists i; first by rewrite mem_iota /= add0n.
by apply/hasP; exists j; rewrite // mem_iota /= add0n.
Qed.

Lemma aeqP A B : wfa A -> wfa B -> reflect (A = B) (aeq A B).
Proof.
move=> wA wB; apply: (iffP idP) => [|<-]; last first.
  rewrite /aeq !eqxx /=; apply/allP => i _; apply/allP => j _; exact: eqxx.
case/andP=> /andP[/eqP eN /eqP eM] /allP h; apply: arr_eqP => // i j hi hj.
have := h i; rewrite mem_iota /= add0n => /(_ hi) /allP /(_ j).
by rewrite mem_iota /= add0n => /(_ hj) /eqP.
Qed.

End Basics.

(* ------------------------------------------------------------------ *)
(* The matrix denoted by an array, over any extension of the field.     *)

Section MxOf.
Variables (F L : fieldType) (f : {rmorphism F -> L}).
Implicit Types A B C D : arr F.

Definition mxof m n A : 'M[L]_(m, n) := \matrix_(i, j) f (get A i j).

Lemma mxof_mk m n g : mxof m n (mk m n g) = \matrix_(i, j) f (g i j).
Proof. by apply/matrixP => i j; rewrite !mxE get_mk. Qed.

Lemma mxof_inj m n A B : wfa A -> wfa B -> nr A = m -> nc A = n ->
  nr B = m -> nc B = n -> mxof m n A = mxof m n B -> A = B.
Proof.
move=> wA wB Am An Bm Bn /matrixP h.
apply: arr_eqP; rewrite ?Am ?An ?Bm ?Bn // => i j hi hj.
by have := h (Ordinal hi) (Ordinal hj); rewrite !mxE => /fmorph_inj.
Qed.

Lemma mxof_zeros m n : mxof m n (azeros m n) = 0.
Proof. by rewrite mxof_mk; apply/matrixP=> i j; rewrite !mxE rmorph0. Qed.

Lemma mxof_eye n : mxof n n (aeye n) = 1%:M.
Proof. by rewrite mxof_mk; apply/matrixP=> i j; rewrite !mxE rmorph_nat. Qed.

Lemma mxof_ones m n : mxof m n (aones m n) = const_mx 1.
Proof. by rewrite mxof_mk; apply/matrixP=> i j; rewrite !mxE rmorph1. Qed.

Lemma mxof_T m n A : nr A = m -> nc A = n -> mxof n m (aT A) = (mxof m n A)^T.
Proof. by move=> <- <-; rewrite mxof_mk; apply/matrixP=> i j; rewrite !mxE. Qed.

Lemma mxof_map (h : F -> F) (h' : L -> L) m n A :
  nr A = m -> nc A = n -> (forall x, f (h x) = h' (f x)) ->
  mxof m n (amap h A) = map_mx h' (mxof m n A).
Proof. by move=> <- <- hh; rewrite mxof_mk; apply/matrixP=> i j; rewrite !mxE hh. Qed.

Lemma mxof_neg m n A : nr A = m -> nc A = n -> mxof m n (aneg A) = - mxof m n A.
Proof. by move=> <- <-; rewrite mxof_mk; apply/matrixP=> i j; rewrite !mxE rmorphN. Qed.

Lemma mxof_scale c m n A : nr A = m -> nc A = n ->
  mxof m n (ascale c A) = f c *: mxof m n A.
Proof. by move=> <- <-; rewrite mxof_mk; apply/matrixP=> i j; rewrite !mxE rmorphM. Qed.

Lemma mxof_add m n A B : nr A = m -> nc A = n ->
  mxof m n (aadd A B) = mxof m n A + mxof m n B.
Proof. by move=> <- <-; rewrite mxof_mk; apply/matrixP=> i j; rewrite !mxE rmorphD. Qed.

Lemma mxof_sub m n A B : nr A = m -> nc A = n ->
  mxof m n (asub A B) = mxof m n A - mxof m n B.
Proof. by move=> <- <-; rewrite mxof_mk; apply/matrixP=> i j; rewrite !mxE rmorphB. Qed.

Lemma mxof_mul m n p A B : nr A = m -> nc A = n -> nc B = p ->
  mxof m p (amul A B) = mxof m n A *m mxof n p B.
Proof.
move=> <- <- <-; rewrite mxof_mk; apply/matrixP=> i j.
rewrite !mxE sumNE rmorph_sum; apply: eq_bigr => k _.
by rewrite rmorphM !mxE.
Qed.

Lemma mxof_hcat m n1 n2 A B : nr A = m -> nc A = n1 -> nc B = n2 ->
  mxof m (n1 + n2) (ahcat A B) = row_mx (mxof m n1 A) (mxof m n2 B).
Proof.
move=> <- <- <-; rewrite mxof_mk; apply/matrixP=> i j; rewrite !mxE.
case: splitP => k -> /=; first by rewrite mxE.
by rewrite addKn mxE.
Qed.

Lemma mxof_vcat m1 m2 n A B : nr A = m1 -> nr B = m2 -> nc A = n ->
  mxof (m1 + m2) n (avcat A B) = col_mx (mxof m1 n A) (mxof m2 n B).
Proof.
move=> <- <- <-; rewrite mxof_mk; apply/matrixP=> i j; rewrite !mxE.
case: splitP => k -> /=; first by rewrite mxE.
by rewrite addKn mxE.
Qed.

Lemma mxof_block m1 m2 n1 n2 A B C D :
  nr A = m1 -> nc A = n1 -> nc B = n2 -> nr C = m2 -> nc C = n1 -> nc D = n2 ->
  mxof (m1 + m2) (n1 + n2) (ablock A B C D) =
  block_mx (mxof m1 n1 A) (mxof m1 n2 B) (mxof m2 n1 C) (mxof m2 n2 D).
Proof.
move=> Am An Bn Cm Cn Dn.
rewrite (@mxof_vcat m1 m2) //=; last by rewrite An Bn.
by rewrite !mxof_hcat.
Qed.

Lemma mxof_diag2 m1 m2 n1 n2 A B :
  nr A = m1 -> nc A = n1 -> nr B = m2 -> nc B = n2 ->
  mxof (m1 + m2) (n1 + n2) (adiag2 A B) =
  block_mx (mxof m1 n1 A) 0 0 (mxof m2 n2 B).
Proof.
move=> Am An Bm Bn; rewrite (@mxof_block m1 m2 n1 n2) //= Am An Bm Bn.
by rewrite !mxof_zeros.
Qed.

Lemma mxof_det n A : nr A = n -> f (adet A) = \det (mxof n n A).
Proof.
move=> An; rewrite /adet An detNE -det_map_mx; congr (\det _).
by apply/matrixP => i j; rewrite !mxE.
Qed.

Lemma mxof_adj n A : nr A = n -> mxof n n (aadj A) = \adj (mxof n n A).
Proof.
move=> An; rewrite /aadj An mxof_mk; apply/matrixP => i j; rewrite !mxE.
rewrite /cofactor rmorphM rmorphX rmorphN1 detNE -det_map_mx.
congr (_ * \det _); apply/matrixP => k l; rewrite !mxE /=.
by [].
Qed.

Lemma unit_adet n A : nr A = n -> (mxof n n A \in unitmx) = (adet A != 0).
Proof.
by move=> An; rewrite unitmxE unitfE -(mxof_det An) fmorph_eq0.
Qed.

Lemma mxof_inv n A : nr A = n -> adet A != 0 ->
  mxof n n (ainv A) = invmx (mxof n n A).
Proof.
move=> An dA; rewrite /ainv mxof_scale ?An // mxof_adj // fmorphV (mxof_det An).
by rewrite /invmx unit_adet // dA.
Qed.

Lemma np_solve_ok n k A B X : nr A = n -> nc B = k -> np_solve A B = Ok X ->
  [/\ wfa X, nr X = n, nc X = k, mxof n n A \in unitmx &
      mxof n k X = invmx (mxof n n A) *m mxof n k B].
Proof.
move=> An Bk; rewrite /np_solve; case: ifP => // /norP[/negbNE/eqP Asq /negbNE/eqP AB].
case: ifP => // /negbT dA [<-]; split => //; rewrite ?unit_adet //.
  exact: wfa_mk.
by rewrite (@mxof_mul n n k) //= ?mxof_inv.
Qed.

Lemma np_solveP n k A B : nr A = n -> nc A = n -> nr B = n -> nc B = k ->
  np_solve A B = if adet A == 0 then Err LinAlgError else Ok (amul (ainv A) B).
Proof. by move=> An An' Bn Bk; rewrite /np_solve An An' Bn eqxx. Qed.

Lemma mxof_subm m n r0 c0 A :
  mxof m n (asubm A r0 (r0 + m) c0 (c0 + n)) =
  \matrix_(i, j) f (get A (r0 + i) (c0 + j)).
Proof.
rewrite /asubm !addKn mxof_mk; by apply/matrixP=> i j; rewrite !mxE.
Qed.

Lemma mxof_pow n A k : nr A = n.+1 -> nc A = n.+1 ->
  mxof n.+1 n.+1 (apow A k) = (mxof n.+1 n.+1 A) ^+ k.
Proof.
move=> An An'; elim: k => [|k IH] /=; first by rewrite An mxof_eye expr0.
rewrite (@mxof_mul n.+1 n.+1) // ?IH ?exprS //.
case: k {IH} => /= [|k]; first by [].
elim: k => //= ; rewrite ?An' ?An //.
Qed.

End MxOf.

Arguments mxof {F L}.
