(* Lemmas about the polynomial operations of ModelPoly.v. *)
From mathcomp Require Import all_ssreflect all_algebra zify.
From Verif Require Import Base BaseTheory Spec ModelPoly.

Set Implicit Arguments.
Unset Strict Implicit.
Unset Printing Implicit Defensive.

Import GRing.Theory.
Local Open Scope ring_scope.

(* lia after making the carrier in occurrences of size uniform *)
Ltac slia F :=
  intros;
  repeat match goal with
    | H : context [@size ?T ?s] |- _ => progress change (@size T s) with (@size (GRing.Field.sort F) s) in H
    | |- context [@size ?T ?s] => progress change (@size T s) with (@size (GRing.Field.sort F) s)
  end; lia.

(* the same for sizes of polynomials *)
Ltac plia F :=
  intros;
  repeat match goal with
    | H : context [@polyseq ?T ?s] |- _ => progress change (@polyseq T s) with (@polyseq (GRing.Field.ringType F) s) in H
    | |- context [@polyseq ?T ?s] => progress change (@polyseq T s) with (@polyseq (GRing.Field.ringType F) s)
  end; slia F.

Section PolyHi.
Variable F : fieldType.
Implicit Types (p q r s x : seq F) (c d : F).

Lemma polyhi_nil : polyhi ([::] : seq F) = 0.
Proof. by rewrite /polyhi /=. Qed.

Lemma coef_polyhi p k :
  (polyhi p)`_k = if (k < size p)%N then nth 0 p (size p - k.+1) else 0.
Proof.
rewrite /polyhi coef_Poly; case: ltnP => h; first by rewrite nth_rev.
by rewrite nth_default // size_rev.
Qed.

Lemma polyhi_cons c p : polyhi (c :: p) = c *: 'X^(size p) + polyhi p.
Proof.
apply/polyP => k; rewrite coefD coefZ coefXn !coef_polyhi /=.
case: (ltngtP k (size p)) => h.
- rewrite mulr0 add0r ltnS (ltnW h) subSS.
  by rewrite -(subnSK h).
- by rewrite mulr0 add0r ltnS leqNgt h.
- by rewrite h ltnS leqnn subnn mulr1 addr0.
Qed.

Lemma polyhi1 c : polyhi [:: c] = c%:P.
Proof. by rewrite polyhi_cons polyhi_nil addr0 expr0 alg_polyC. Qed.

Lemma polyhi_nseq0 n : polyhi (nseq n (0 : F)) = 0.
Proof. by elim: n => // n IH; rewrite /= polyhi_cons scale0r add0r. Qed.

Lemma polyhi_trimf p : polyhi (trimf p) = polyhi p.
Proof. by elim: p => //= c p IH; case: eqP => // ->; rewrite IH polyhi_cons scale0r add0r. Qed.

Lemma polyhi_cat p q : polyhi (p ++ q) = polyhi p * 'X^(size q) + polyhi q.
Proof.
elim: p => [|c p IH] /=; first by rewrite polyhi_nil mul0r add0r.
by rewrite !polyhi_cons IH addrA mulrDl size_cat exprD scalerAl.
Qed.

Lemma polyhi_scale c p : polyhi [seq c * x | x <- p] = c *: polyhi p.
Proof.
elim: p => [|d p IH]; first by rewrite /= !polyhi_nil scaler0.
by rewrite /= !polyhi_cons IH scalerDr scalerA size_map.
Qed.

Lemma size_polyhi_le p : (size (polyhi p) <= size p)%N.
Proof. by rewrite (leq_trans (size_Poly _)) // size_rev. Qed.

Lemma polyhi_inj p q : size p = size q -> polyhi p = polyhi q -> p = q.
Proof.
move=> hs /polyP h; apply: (@eq_from_nth _ 0) => // i hi.
have := h (size p - i.+1)%N; rewrite !coef_polyhi -hs.
have h2 : (size p - i.+1 < size p)%N by rewrite ltn_subrL (leq_ltn_trans _ hi).
by rewrite h2 subnSK // subKn // ltnW.
Qed.

Lemma lead_trimf p : head 1 (trimf p) != 0.
Proof. by elim: p => [|c p IH] /=; [exact: oner_neq0|case: (altP (c =P 0))]. Qed.

Lemma trimf_id p : head 1 p != 0 -> trimf p = p.
Proof. by case: p => //= c p; case: eqP. Qed.

Lemma trimf_nil p : (trimf p == [::]) = (polyhi p == 0).
Proof.
rewrite -polyhi_trimf; have := lead_trimf p; case: (trimf p) => [|c q] /=.
  by rewrite polyhi_nil !eqxx.
move=> c0; symmetry; apply/negbTE/eqP => /polyP/(_ (size q)).
by rewrite coef0 coef_polyhi /= leqnn subnn /= => /eqP; rewrite (negbTE c0).
Qed.

Lemma size_polyhi_trim p : head 1 p != 0 -> size (polyhi p) = size p.
Proof.
case: p => [|c p] /= c0; first by rewrite polyhi_nil size_poly0.
apply/eqP; rewrite eqn_leq size_polyhi_le /=.
have h : (polyhi (c :: p))`_(size p) != 0 by rewrite coef_polyhi /= leqnn subnn.
by rewrite ltnNge; apply/negP => h2; move: h; rewrite nth_default ?eqxx.
Qed.

Lemma size_trimf p : size (trimf p) = size (polyhi p).
Proof. by rewrite -polyhi_trimf size_polyhi_trim // lead_trimf. Qed.

Lemma lead_coef_polyhi c p : c != 0 -> lead_coef (polyhi (c :: p)) = c.
Proof.
move=> c0; rewrite lead_coefE size_polyhi_trim //= coef_polyhi /= leqnn.
by rewrite subnn.
Qed.

Lemma trimf_polyhi p q : polyhi p = polyhi q -> trimf p = trimf q.
Proof. by move=> h; apply: polyhi_inj; rewrite ?size_trimf ?polyhi_trimf h. Qed.

(* np.polyval evaluates *)
Lemma polyvalE p (x : F) : polyval p x = (polyhi p).[x].
Proof.
rewrite /polyval -[RHS]add0r -[0 in RHS](mul0r (x ^+ size p)).
elim: p 0 => [|c p IH] a /=; first by rewrite polyhi_nil horner0 expr0 mulr1 addr0.
rewrite IH polyhi_cons hornerD hornerZ hornerXn addrA mulrDl exprS mulrA.
by rewrite [a * x]mulrC.
Qed.

Lemma polyhi_mkseq n (g : nat -> F) : polyhi (mkseq g n) = \sum_(i < n) g i *: 'X^(n - i.+1).
Proof.
apply/polyP => k; rewrite coef_polyhi size_mkseq coef_sum.
case: ltnP => h; last first.
  rewrite big1 // => i _; rewrite coefZ coefXn; case: eqP => // e; last by rewrite mulr0.
  by move: h; rewrite e leqNgt ltn_subrL (leq_ltn_trans _ (ltn_ord i)).
have h2 : (n - k.+1 < n)%N by rewrite ltn_subrL (leq_ltn_trans _ h).
rewrite nth_mkseq // (bigD1 (Ordinal h2)) //= big1 ?addr0 => [|i ne].
  by rewrite coefZ coefXn subnSK // subKn ?eqxx ?mulr1 // ltnW.
rewrite coefZ coefXn; case: eqP => e; last by rewrite mulr0.
by case/eqP: ne; apply: val_inj; rewrite /= e subnSK // subKn // ltnW.
Qed.

(* ---------------------------------------------------------------- convolve *)
Lemma size_convolve p q : p != [::] -> q != [::] -> size (convolve p q) = (size p + size q).-1.
Proof. by rewrite /convolve => /negbTE-> /negbTE->; rewrite size_mkseq. Qed.

(* reversal of the coefficients below n, a linear map *)
Definition rvp n (P : {poly F}) : {poly F} := \sum_(k < n) P`_k *: 'X^(n - k.+1).

Lemma rvpD n P Q : rvp n (P + Q) = rvp n P + rvp n Q.
Proof. by rewrite -big_split; apply: eq_bigr => k _; rewrite coefD scalerDl. Qed.
Lemma rvpZ n c P : rvp n (c *: P) = c *: rvp n P.
Proof. by rewrite scaler_sumr; apply: eq_bigr => k _; rewrite coefZ scalerA. Qed.
Lemma rvp0 n : rvp n 0 = 0.
Proof. by rewrite /rvp big1 // => k _; rewrite coef0 scale0r. Qed.
Lemma rvp_sum n (I : Type) (r : seq I) (P : pred I) (G : I -> {poly F}) :
  rvp n (\sum_(i <- r | P i) G i) = \sum_(i <- r | P i) rvp n (G i).
Proof. by apply: (big_morph (rvp n)) => [x y|]; rewrite ?rvpD ?rvp0. Qed.
Lemma rvpX n m : (m < n)%N -> rvp n 'X^m = 'X^(n - m.+1).
Proof.
move=> h; rewrite /rvp (bigD1 (Ordinal h)) //= coefXn eqxx scale1r big1 ?addr0 // => i ne.
by rewrite coefXn; case: eqP => [e|_]; [case/eqP: ne; apply: val_inj | rewrite scale0r].
Qed.

Lemma polyhi_rvp p : polyhi p = rvp (size p) (Poly p).
Proof.
rewrite -{1}(mkseq_nth 0 p) polyhi_mkseq; apply: eq_bigr => i _.
by rewrite coef_Poly.
Qed.

Lemma polyhi_sum p : polyhi p = \sum_(i < size p) nth 0 p i *: 'X^(size p - i.+1).
Proof. by rewrite -{1}(mkseq_nth 0 p) polyhi_mkseq. Qed.

Lemma Poly_sum p : Poly p = \sum_(i < size p) nth 0 p i *: 'X^i.
Proof.
apply/polyP => k; rewrite coef_Poly coef_sum; case: (ltnP k (size p)) => h.
  rewrite (bigD1 (Ordinal h)) //= coefZ coefXn eqxx mulr1 big1 ?addr0 // => i ne.
  by rewrite coefZ coefXn; case: eqP => [e|_]; [case/eqP: ne; apply: val_inj|rewrite mulr0].
rewrite nth_default // big1 // => i _; rewrite coefZ coefXn; case: eqP => [e|_]; last by rewrite mulr0.
by move: h; rewrite e leqNgt ltn_ord.
Qed.

Lemma polyhi_convolve p q : polyhi (convolve p q) = polyhi p * polyhi q.
Proof.
rewrite /convolve; case: (altP (p =P _)) => [->|p0] /=; first by rewrite polyhi_nil mul0r.
case: (altP (q =P _)) => [->|q0] /=; first by rewrite polyhi_nil mulr0.
have sp : (0 < size p)%N by case: (p) p0.
have sq : (0 < size q)%N by case: (q) q0.
have -> : polyhi (mkseq (fun k => sumN k.+1 (fun i => nth 0 p i * nth 0 q (k - i))) (size p + size q).-1) =
   rvp (size p + size q).-1 (Poly p * Poly q).
  rewrite polyhi_mkseq; apply: eq_bigr => k _; congr (_ *: _).
  by rewrite sumNE coefM; apply: eq_bigr => i _; rewrite !coef_Poly.
rewrite (Poly_sum p) mulr_suml rvp_sum polyhi_sum mulr_suml; apply: eq_bigr => i _.
rewrite (Poly_sum q) mulr_sumr rvp_sum polyhi_sum mulr_sumr; apply: eq_bigr => j _.
rewrite -!scalerAl -!scalerAr !rvpZ -!exprD; congr (_ *: (_ *: _)).
have [hi hj] := (ltn_ord i, ltn_ord j).
have h : (i + j < (size p + size q).-1)%N.
  by rewrite -ltnS prednK ?addn_gt0 ?sp // -addnS -addSn leq_add.
rewrite rvpX //; congr ('X^_).
by lia.
Qed.

End PolyHi.

Lemma polyhi_map (F G : fieldType) (f : {rmorphism F -> G}) (p : seq F) :
  polyhi (map f p : seq G) = map_poly f (polyhi p).
Proof.
apply/polyP => k; rewrite coef_map !coef_polyhi size_map.
case: ltnP => h; last by apply: esym; exact: rmorph0.
by apply: nth_map; lia.
Qed.
