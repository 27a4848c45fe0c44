(* transfer_to_state realises num/den: companion resolvents, block diagonals, the filling of C. *)
From mathcomp Require Import all_ssreflect all_algebra zify.
From Verif Require Import Base BaseTheory Spec ModelPoly PolyTheory PolyOps LcmTheory ModelState Denote StateTheory
  ModelTransfer DenoteT TransferTheory TransferOps.

Set Implicit Arguments.
Unset Strict Implicit.
Unset Printing Implicit Defensive.

Import Order.TTheory GRing.Theory Num.Theory.
Local Open Scope ring_scope.

Lemma det_charF (L : fieldType) n (A : 'M[L]_n) x : \det (x%:M - A) = (char_poly A).[x].
Proof.
rewrite /char_poly -horner_evalE -det_map_mx; congr (\det _); apply/matrixP => i j.
by rewrite !mxE /= /horner_eval !hornerE hornerMn hornerX.
Qed.

Section Comp.
Variables (R : realFieldType) (L : fieldType) (f : {rmorphism R -> L}).
Implicit Types (d : seq R) (s : L).

Lemma pevE (p : seq R) s N : (size p <= N)%N -> pev f p s = \sum_(j < N) f (nth 0 (rev p) j) * s ^+ j.
Proof.
move=> h; rewrite /pev (@horner_coef_wide _ N).
  by apply: eq_bigr => j _; rewrite coef_map coef_Poly.
apply: leq_trans h; rewrite size_map_poly; exact: size_polyhi_le.
Qed.

Lemma pevEp (p : seq R) s N : (size (polyhi p) <= N)%N -> pev f p s = \sum_(j < N) f (nth 0 (rev p) j) * s ^+ j.
Proof.
move=> h; rewrite /pev (@horner_coef_wide _ N) ?size_map_poly //.
by apply: eq_bigr => j _; rewrite coef_map coef_Poly.
Qed.

(* the companion matrix of a polynomial with nonzero leading coefficient; nothing for a constant *)
Definition compm (d : seq R) : arr R :=
  let t := rev [seq - ((head 0 d)^-1 * x) | x <- behead d] in
  let n := (size d).-1 in
  mk n n (fun i j => if i == n.-1 then nth 0 t j else (j == i.+1)%:R).

Lemma companion_compm d : head 0 d != 0 -> (1 < size d)%N -> haroldcompanion d = Ok (compm d).
Proof.
case: d => [|c [|y d]] //= c0 _; rewrite /haroldcompanion /= (negbTE c0) size_rev /= size_map.
by [].
Qed.

Lemma compm_const d : size d = 1%N -> compm d = azeros 0 0.
Proof. by case: d => [|c []]. Qed.

Definition pows n (s : L) : 'cV[L]_n := \col_k s ^+ k.
Definition elast n : 'cV[L]_n := \col_k (k.+1 == n :> nat)%:R.

Lemma comp_pows d s (n := (size d).-1) : head 0 d != 0 ->
  (s%:M - mxof f n n (compm d)) *m pows n s = (pev f d s / f (head 0 d)) *: elast n.
Proof.
rewrite {}/n; case: d => [|c p] /= c0; first by rewrite eqxx in c0.
set n := size p.
apply/colP => i; rewrite mulmxBl mul_scalar_mx !mxE -/n.
have hn : (0 < n)%N by apply: leq_ltn_trans (ltn_ord i).
case: eqP => [/eqP hi|hi]; last first.
  rewrite mulr0; have hi' : (i.+1 < n)%N by rewrite ltn_neqAle ltn_ord andbT; apply/eqP.
  rewrite (bigD1 (Ordinal hi')) //= !mxE get_mk // (_ : _ == _ = false); last by apply/eqP; move: hi; rewrite /=; lia.
  rewrite eqxx rmorph1 mul1r -exprS big1 ?addr0 ?subrr //.
  move=> j hj; rewrite !mxE get_mk // (_ : _ == n.-1 = false); last by apply/eqP; move: hi; rewrite /=; lia.
  by rewrite (_ : _ == i.+1 = false) ?rmorph0 ?mul0r //; apply: contraNF hj => /eqP e; rewrite -val_eqE /= e.
rewrite mulr1 /pev polyhi_cons rmorphD hornerD /= map_polyZ map_polyXn hornerZ hornerXn.
rewrite -/(pev f p s) (@pevE p s n) // mulrDl mulrAC divff ?fmorph_eq0 // mul1r -exprS (eqP hi); congr (_ + _).
rewrite mulr_suml -sumrN; apply: eq_bigr => j _; rewrite !mxE get_mk // (_ : _ == _); last by apply/eqP; move/eqP: hi; rewrite /n /=; lia.
rewrite (_ : nth 0 _ j = - (c^-1 * nth 0 (rev p) j)).
  by rewrite rmorphN rmorphM fmorphV mulNr opprK -mulrA mulrC.
rewrite -map_rev (nth_map 0) //=; rewrite size_rev; exact: ltn_ord.
Qed.

Lemma comp_unit d s (n := (size d).-1) : head 0 d != 0 -> pev f d s != 0 -> s%:M - mxof f n n (compm d) \in unitmx.
Proof.
rewrite {}/n; case: d => [|c [|y p]] hd hs.
- by rewrite /= eqxx in hd.
- by rewrite unitmxE /= det_mx00 unitr1.
have [A [E _ _ _ /(_ L f) HA]] := @companionP _ c (y :: p) hd isT.
have := @companion_compm [:: c, y & p] hd isT; rewrite E => -[e].
rewrite unitmxE unitfE det_charF -e HA map_polyZ hornerZ mulf_neq0 //.
by rewrite fmorph_eq0 invr_eq0.
Qed.

(* ---- block diagonal of companion matrices *)
Definition degs (ds : seq (seq R)) := [seq (size d).-1 | d <- ds].
Definition offs (ds : seq (seq R)) j := sumn (take j (degs ds)).
Definition blkA (ds : seq (seq R)) := adiag [seq compm d | d <- ds].

Lemma blkA_dims ds : nr (blkA ds) = sumn (degs ds) /\ nc (blkA ds) = sumn (degs ds).
Proof. by elim: ds => //= d ds [h1 h2]; rewrite -/(blkA ds) h1 h2. Qed.

Lemma wfa_blkA ds : wfa (blkA ds).
Proof. by case: ds => [|d ds] //=; exact: wfa_mk. Qed.

(* (s - A) times this column is the last unit vector of block j *)
Definition blkX (ds : seq (seq R)) (s : L) j k : L :=
  if (offs ds j <= k < offs ds j.+1)%N then
    s ^+ (k - offs ds j) * (f (head 0 (nth [::] ds j)) / pev f (nth [::] ds j) s) else 0.
Definition blkE (ds : seq (seq R)) j k : bool :=
  (0 < (size (nth [::] ds j)).-1)%N && (k.+1 == offs ds j.+1).

Lemma offs_cons d ds j : offs (d :: ds) j.+1 = ((size d).-1 + offs ds j)%N.
Proof. by []. Qed.
Lemma offs0 ds : offs ds 0 = 0%N.
Proof. by rewrite /offs take0. Qed.
Lemma offsS ds j : (j < size ds)%N -> offs ds j.+1 = (offs ds j + (size (nth [::] ds j)).-1)%N.
Proof.
move=> h; rewrite /offs (take_nth 0%N) ?size_map // sumn_rcons (nth_map [::]) //.
Qed.
Lemma offs_le ds j : (offs ds j <= sumn (degs ds))%N.
Proof. by rewrite /offs -{2}(cat_take_drop j (degs ds)) sumn_cat leq_addr. Qed.
Lemma offs_all ds : offs ds (size ds) = sumn (degs ds).
Proof. by rewrite /offs take_oversize ?size_map. Qed.

Lemma blk_inv ds s (n := sumn (degs ds)) : all (fun d => head 0 d != 0) ds -> all (fun d => pev f d s != 0) ds ->
  s%:M - mxof f n n (blkA ds) \in unitmx /\
  forall j, (j < size ds)%N ->
    (s%:M - mxof f n n (blkA ds)) *m (\col_k blkX ds s j k) = \col_k (blkE ds j k)%:R.
Proof.
rewrite {}/n; elim: ds => [|d ds IH] /=.
  by move=> _ _; rewrite unitmxE det_mx00 unitr1.
case/andP=> hd /IH{}IH /andP[hs /IH]; set n' := sumn (degs ds).
have [a1 a2] := blkA_dims ds.
case=> hu hX; rewrite (_ : blkA _ = adiag2 (compm d) (blkA ds)) //.
rewrite -/n' (@mxof_diag2 _ _ _ (size d).-1 n' (size d).-1 n') // scalar_mx_block opp_block_mx add_block_mx !oppr0 !addr0.
split; first by rewrite unitmxE det_ublock unitrM -!unitmxE comp_unit.
move=> [|j] hj.
  have -> : (\col_k blkX (d :: ds) s 0 k : 'cV_((size d).-1 + n')) =
     col_mx ((f (head 0 d) / pev f d s) *: pows _ s) 0.
    apply/colP => k; rewrite !mxE /blkX offs_cons !offs0 addn0 /= subn0; case: splitP => k' hk; rewrite ?hk ?mxE.
      by rewrite mulrC.
    by [].
  rewrite mul_block_col !mulmx0 !mul0mx !addr0 -scalemxAr comp_pows // scalerA mulrA mulfVK // divff ?fmorph_eq0 // scale1r.
  apply/colP => k; rewrite !mxE /blkE offs_cons offs0 addn0 /=; case: splitP => k' hk; rewrite ?hk ?mxE.
    by congr (_ %:R); case: eqP => /= [<-|]; rewrite ?andbF.
  by rewrite (_ : (_ == _ :> nat) = false) ?andbF //; apply/eqP; lia.
have -> : (\col_k blkX (d :: ds) s j.+1 k : 'cV_((size d).-1 + n')) = col_mx 0 (\col_k blkX ds s j k).
  apply/colP => k; rewrite !mxE /blkX !offs_cons; case: splitP => k' hk; rewrite ?hk ?mxE.
    by rewrite leqNgt (leq_trans (ltn_ord k')) ?leq_addr.
  by rewrite leq_add2l ltn_add2l subnDl.
rewrite mul_block_col !mulmx0 mul0mx addr0 add0r hX //.
apply/colP => k; rewrite !mxE /blkE !offs_cons /=; case: splitP => k' hk; rewrite ?hk ?mxE.
  rewrite offsS //; case: posnP => //= h0; rewrite (_ : (_ == _ :> nat) = false) //.
  by apply/eqP; have := ltn_ord k'; move: h0; clear; lia.
by rewrite -addnS eqn_add2l.
Qed.

(* the scalar c (s - A)^-1 b_j for a row c whose block j lists the coefficients of n *)
Lemma blk_tf ds s (N := sumn (degs ds)) j (num : seq R) (c b : nat -> L) :
  all (fun d => head 0 d != 0) ds -> all (fun d => pev f d s != 0) ds -> (j < size ds)%N ->
  head 0 (nth [::] ds j) = 1 ->
  (size (polyhi num) < size (nth [::] ds j))%N ->
  (forall t, (t < (size (nth [::] ds j)).-1)%N -> c (offs ds j + t)%N = f (nth 0 (rev num) t)) ->
  (forall k, (k < N)%N -> b k = (blkE ds j k)%:R) ->
  ((\row_(k < N) c k) *m invmx (s%:M - mxof f N N (blkA ds)) *m (\col_(k < N) b k)) 0 0 =
  pev f num s / pev f (nth [::] ds j) s.
Proof.
move=> h1 h2 hj hm hd hc hb; have [hu hX] := blk_inv h1 h2.
have -> : \col_(k < N) b k = (s%:M - mxof f N N (blkA ds)) *m (\col_k blkX ds s j k).
  by rewrite hX //; apply/colP => k; rewrite !mxE hb.
rewrite -mulmxA mulKmx // mxE.
set D := nth [::] ds j in hm hd hc *.
have hN : (offs ds j.+1 <= N)%N by exact: offs_le.
have hS := offsS hj; rewrite -/D in hS.
rewrite (@pevEp num s (size D).-1); last by move: hd; case: (size D).
transitivity (\sum_(0 <= k < N) c k * blkX ds s j k).
  by rewrite big_mkord; apply: eq_bigr => k _; rewrite !mxE.
rewrite (@big_cat_nat _ _ _ (offs ds j)) //=; last by apply: leq_trans hN; rewrite hS leq_addr.
rewrite big_nat big1 ?add0r; last first.
  by move=> k /andP[_ hk]; rewrite /blkX leqNgt hk mulr0.
rewrite (@big_cat_nat _ _ _ (offs ds j.+1)) //=; last by rewrite hS leq_addr.
rewrite [X in _ + X]big_nat [X in _ + X]big1 ?addr0; last first.
  by move=> k /andP[hk _]; rewrite /blkX [(k < _)%N]ltnNge hk andbF mulr0.
rewrite -{1}[offs ds j]add0n big_addn hS addKn big_mkord mulr_suml; apply: eq_bigr => t _.
rewrite addnC hc // /blkX leq_addr hS ltn_add2l ltn_ord addKn -/D hm rmorph1 mul1r mulrA //.
Qed.

End Comp.

Section Fill.
Variable R : realFieldType.
Implicit Types (C : arr R) (N : pmat R).

Lemma awriteP C x k (v : seq R) C' : awrite C x k v = Ok C' ->
  [/\ nr C' = nr C, nc C' = nc C, wfa C' & forall i j, (i < nr C)%N -> (j < nc C)%N ->
   get C' i j = if (i == x) && (k <= j)%N && (j < k + size v)%N then nth 0 v (j - k) else get C i j].
Proof.
rewrite /awrite; case: ifP => // _ [<-]; split=> //; first exact: wfa_mk.
by move=> i j hi hj; rewrite get_mk.
Qed.

Lemma fill_rowsP N y k cnt C x C' : fill_rows C N y k x cnt = Ok C' -> wfa C ->
  [/\ nr C' = nr C, nc C' = nc C, wfa C' & forall i j, (i < nr C)%N -> (j < nc C)%N ->
   get C' i j = if (x <= i < x + cnt)%N && (k <= j < k + size (ent N i y))%N then nth 0 (rev (ent N i y)) (j - k) else get C i j].
Proof.
elim: cnt C x => [|c IH] C x /=.
  by case=> <- w; split=> // i j _ _; rewrite addn0 ltnNge andbN.
case E: (awrite _ _ _ _) => [C1|] //= E' w; have [h1 h2 h3 h4] := awriteP E.
have [g1 g2 g3 g4] := IH _ _ E' h3; split; rewrite ?g1 ?g2 //.
move=> i j hi hj; rewrite g4 ?h1 ?h2 // h4 // size_rev.
have [->|ne] := eqVneq i x.
  by rewrite ltnn /= leqnn addnS ltnS leq_addr /=.
rewrite /= addSnnS; have -> : (x < i)%N = (x <= i)%N by rewrite ltn_neqAle eq_sym ne.
by [].
Qed.

Lemma fill_colsP N p ds C y k C' : fill_cols C N p y k ds = Ok C' -> wfa C -> nr C = p ->
  (forall i j, (i < p)%N -> (k <= j)%N -> get C i j = 0) ->
  (forall i z t, (i < p)%N -> (z < size ds)%N -> (nth 0%N ds z <= t)%N -> nth 0 (rev (ent N i (y + z))) t = 0) ->
  [/\ nr C' = p, nc C' = nc C, wfa C',
    forall i j, (i < p)%N -> (j < k)%N -> (j < nc C)%N -> get C' i j = get C i j &
    forall i z t, (i < p)%N -> (z < size ds)%N -> (t < nth 0%N ds z)%N -> (k + sumn (take z ds) + t < nc C)%N ->
      get C' i (k + sumn (take z ds) + t) = nth 0 (rev (ent N i (y + z))) t].
Proof.
elim: ds C y k => [|d ds IH] C y k /=.
  by case=> <- w e hC _; split=> //.
case E: (fill_rows _ _ _ _ _ _) => [C1|] //= E' w e hC hN; have [h1 h2 h3 h4] := fill_rowsP E w.
have g i j : (i < p)%N -> (k <= j)%N -> get C1 i j = if (j < nc C)%N then nth 0 (rev (ent N i y)) (j - k) else 0.
  move=> hi hj; case: ifP => hj'; last by apply: get_out_c => //; rewrite h2 leqNgt hj'.
  rewrite h4 ?e // add0n hi hj /=; case: ifP => // hk; rewrite hC // nth_default // size_rev.
  by rewrite leq_subRL // leqNgt hk.
have [||i z t hi hz ht|g1 g2 g3 g4 g5] := IH _ _ _ E' h3.
- by rewrite h1.
- move=> i j hi hj; rewrite g //; last by apply: leq_trans hj; rewrite leq_addr.
  case: ifP => // hj'; have := hN i 0%N (j - k)%N hi isT; rewrite addn0; apply.
  by rewrite leq_subRL // (leq_trans _ hj) // leq_addr.
- by rewrite addSnnS; apply: hN.
split; rewrite ?g1 ?g2 //.
  move=> i j hi hj hj'; rewrite g4 ?h2 //; last by apply: leq_trans hj _; rewrite leq_addr.
  by rewrite h4 ?e // [(k <= j)%N]leqNgt hj /= andbF.
move=> i [|z] t hi hz ht hlt /=.
  rewrite !addn0 in hlt *; rewrite g4 ?h2 ?ltn_add2l // g ?leq_addr // hlt addKn //.
move: hlt; rewrite /= addnA -addSnnS => hlt; apply: g5 => //.
by rewrite h2.
Qed.

Lemma fill_rows_tot N y k cnt C x :
  (forall i, (x <= i < x + cnt)%N -> (k + size (ent N i y) <= nc C)%N || (size (ent N i y) == 1%N)) ->
  exists C', fill_rows C N y k x cnt = Ok C'.
Proof.
elim: cnt C x => [|c IH] C x H /=; first by exists C.
have := H x; rewrite leqnn addnS ltnS leq_addr => /(_ isT) hx.
rewrite {1}/awrite size_rev hx /=; apply: IH => i /andP[h1 h2]; apply: H; rewrite (ltnW h1) /=; by rewrite addnS -addSn.
Qed.

Lemma fill_cols_tot N p ds C y k : (k + sumn ds <= nc C)%N -> wfa C ->
  (forall i z, (i < p)%N -> (z < size ds)%N -> (size (ent N i (y + z)) <= nth 0%N ds z)%N || (size (ent N i (y + z)) == 1%N)) ->
  exists C', fill_cols C N p y k ds = Ok C'.
Proof.
elim: ds C y k => [|d ds IH] C y k hk w H /=; first by exists C.
have [|C1 E] := @fill_rows_tot N y k p C 0.
  move=> i; rewrite add0n => /andP[_ hi]; have := H i 0%N hi isT; rewrite addn0 /=; case/orP=> h; rewrite ?h ?orbT //.
  apply/orP; left; move: hk h; rewrite /=; lia.
rewrite E /=; have [h1 h2 h3 _] := fill_rowsP E w; apply: IH => //.
  by rewrite h2 -addnA.
by move=> i z hi hz; rewrite addSnnS; apply: H.
Qed.

End Fill.
