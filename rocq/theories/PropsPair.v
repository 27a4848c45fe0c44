(* C58: pair_complex_numbers. *)
From mathcomp Require Import all_ssreflect all_algebra zify.
From Verif Require Import Base TransferTheory ModelPair PairTheory.

Set Implicit Arguments.
Unset Strict Implicit.
Unset Printing Implicit Defensive.

Import Order.TTheory GRing.Theory Num.Theory.
Local Open Scope ring_scope.

Section Spec.
Variable R : realFieldType.

(* the complex conjugate of re + i im *)
Definition conj (x : R * R) : R * R := (x.1, - x.2).
(* real numbers as complex ones *)
Definition reals (xs : seq R) : seq (R * R) := [seq (x, 0) | x <- xs].
(* each of the numbers followed by its conjugate *)
Definition pairs (xs : seq (R * R)) : seq (R * R) := flatten [seq [:: x; conj x] | x <- xs].
End Spec.

Section Props.
Variable R : realFieldType.
Local Notation cpx := (R * R)%type.

Lemma evens_dbl (A B : Type) (h k : A -> B) s : evens (dbl h k s) = [seq h x | x <- s].
Proof. by elim: s => //= x s IH; rewrite -/(dbl h k s) IH. Qed.
Lemma odds_dbl (A B : Type) (h k : A -> B) s : odds (dbl h k s) = [seq k x | x <- s].
Proof. 
elim: s => //= x s IH; rewrite -/(dbl h k s) /odds /=; move: IH; rewrite /odds.
by case: s => //= y s <-.
Qed.
Lemma zip_mm (A B C : Type) (h : A -> B) (k : A -> C) s : zip [seq h x | x <- s] [seq k x | x <- s] = [seq (h x, k x) | x <- s].
Proof. by elim: s => //= x s ->. Qed.
Lemma far_dbl (tol : R) op (A : Type) (h k : A -> R) s : 0 <= tol -> (forall x, op (h x) (k x) = 0) -> far tol op (dbl h k s) = false.
Proof.
move=> ht e; rewrite /far evens_dbl odds_dbl zip_mm has_map; apply/negbTE; elim: s => //= x s IH.
by rewrite negb_or IH andbT e normr0 -leNgt.
Qed.

Lemma clean_id (rtol : R) (a : seq cpx) : 0 < rtol -> all (fun x => (x.2 == 0) || (rtol <= `|x.2|)) a ->
  [seq (if `|x.2| < rtol then (x.1, 0) else x) | x <- a] = a.
Proof.
move=> hr /allP h; rewrite -[RHS]map_id; apply/eq_in_map => x /h /orP[/eqP e|e].
  by rewrite e normr0 hr -e -surjective_pairing.
by rewrite ltNge e.
Qed.

(* Beside the reals there are as many entries as their conjugates: then the result is a permutation of the
   argument, the reals in ascending order and the others in adjacent conjugate pairs. *)
Theorem C58_pairs (tol rtol : R) (positives_first reals_first : bool) (a : seq cpx) :
  0 <= tol -> 0 < rtol ->
  all (fun x => (x.2 == 0) || (rtol <= `|x.2|)) a ->
  (forall x, count_mem (conj x) a = count_mem x a) ->
  exists rs ps,
    [/\ pair_complex tol rtol positives_first reals_first a
          = Ok (if reals_first then reals rs ++ pairs ps else pairs ps ++ reals rs),
        sorted <=%R rs,
        all (fun x => if positives_first then 0 < x.2 else x.2 < 0) ps &
        perm_eq (reals rs ++ pairs ps) a].
Proof.
move=> ht hr ha hc; rewrite /pair_complex (clean_id hr ha).
set I := fun x : cpx => rtol <= `|x.2|.
have hI x : x \in a -> I x = (x.2 != 0).
  move=> /(allP ha) /orP[/eqP e|e]; first by rewrite /I e normr0 leNgt hr eqxx.
  by rewrite /I e; case: eqP e => // ->; rewrite normr0 leNgt hr.
have ereal (s : seq cpx) : (forall x, x \in s -> x.2 = 0) -> s = reals [seq x.1 | x <- s].
  by move=> h; rewrite /reals -map_comp -[LHS]map_id; apply/eq_in_map => x /h e /=; rewrite -e -surjective_pairing.
have pc : perm_eq [seq conjc x | x <- a] a.
  apply/allP => x _ /=; rewrite count_map -(hc x); apply/eqP; apply: eq_count => y /=.
  by rewrite -[x in LHS]conjcK (inj_eq (inv_inj (@conjcK R))).
case eent: ([seq x <- a | I x]) => [|e0 ent'].
  have ar x : x \in a -> x.2 = 0.
    move=> hx; apply/eqP; rewrite -(negbK (_ == _)) -(hI x hx); apply: contraT => /negbNE h.
    by have : x \in [seq x <- a | I x]; [rewrite mem_filter h hx | rewrite eent].
  exists (sort <=%R [seq x.1 | x <- a]), [::]; split=> //.
  - by rewrite /pairs /= cats0; case: reals_first.
  - by apply: sort_sorted; apply: le_total.
  - rewrite cats0 {2}(ereal _ ar); by apply: perm_map; rewrite perm_sort.
rewrite -eent; set ent := filter I a.
have entP x : x \in ent -> x.2 != 0 by rewrite mem_filter => /andP[h1 h2]; rewrite -hI.
set s := sort _ ent.
have ss : sorted (@cle R) s by apply: sort_sorted; exact: cle_total.
have sz : all (fun x : cpx => x.2 != 0) s by apply/allP => x; rewrite mem_sort; exact: entP.
have sc : closed s.
  rewrite /closed; have pe : perm_eq ent s by rewrite perm_sym perm_sort.
  have h : perm_eq [seq conjc x | x <- ent] ent.
    have -> : [seq conjc x | x <- ent] = filter I [seq conjc x | x <- a].
      by rewrite filter_map; congr map; apply: eq_filter => x /=; rewrite /I /= normrN.
    by apply: perm_filter.
  by rewrite (perm_trans _ pe) // (perm_trans _ h) // perm_map // perm_sym.
have [||ps [E1 E2 E3 E4]] := @fix_signsP R (size s) s (size [seq x.2 | x <- s]).+1 _ _ ss sz sc => //.
  by rewrite size_map ltnSn.
have szent : size ent = (2 * size ps)%N by have := perm_size E4; rewrite size_sort size_dbl.
rewrite szent mul2n odd_double.
rewrite E1 E2 (@far_dbl tol (fun x y => x - y)) //=; last by move=> x; rewrite subrr.
rewrite (@far_dbl tol +%R) //=; last by move=> x; rewrite subrr.
rewrite !evens_dbl zip_mm -map_comp.
set rr := sort _ [seq x <- a | ~~ I x].
have err : rr = reals [seq x.1 | x <- rr].
  apply: ereal => x; rewrite mem_sort mem_filter => /andP[h1 h2]; apply/eqP; move: h1; rewrite hI // negbK //.
pose ps' := if positives_first then [seq conj x | x <- ps] else ps.
have e2 : flatten [seq (if positives_first then [:: (x.1, - x.2); (x.1, x.2)] else [:: (x.1, x.2); (x.1, - x.2)]) | x <- [seq (x.1, x.2) | x <- ps]] = pairs ps'.
  rewrite /ps' /pairs -map_comp; case: (positives_first); last first.
    by congr flatten; apply: eq_map => x /=; rewrite /conj -surjective_pairing.
  by rewrite -map_comp; congr flatten; apply: eq_map => x /=; rewrite /conj /= opprK.
exists [seq x.1 | x <- rr], ps'; split.
- rewrite -err -e2; congr Ok; have -> : flatten
      [seq ((fun x : cpx => if positives_first then [:: (x.1, - x.2); (x.1, x.2)] else [:: (x.1, x.2); (x.1, - x.2)])
           \o (fun x => (x.1, x.2))) i | i <- ps] = flatten [seq (if positives_first then [:: (x.1, - x.2); (x.1, x.2)] else [:: (x.1, x.2); (x.1, - x.2)]) | x <- [seq (x.1, x.2) | x <- ps]].
    by rewrite -map_comp.
  by [].
- rewrite sorted_map; have : sorted (@cle R) rr by apply: sort_sorted; exact: cle_total.
  apply: sub_sorted => x y; rewrite /cle /= => /orP[/ltW //|/andP[/eqP-> _]]; exact: lexx.
- rewrite /ps'; case: (positives_first); last exact: E3.
  by rewrite all_map; apply: sub_all E3 => x /=; rewrite oppr_gt0.
- rewrite -err.
  have pp : perm_eq (pairs ps') s.
    apply: perm_trans (_ : perm_eq (pairs ps) s); last by rewrite perm_sym.
    rewrite /ps'; case: (positives_first); last exact: perm_refl.
    elim: (ps) => //= x l IH; rewrite /pairs /= -!/(pairs _).
    rewrite -[conj (conj x)]/(conjc (conjc x)) conjcK.
    rewrite -[_ :: _ :: pairs [seq _ | _ <- l]]/([:: conj x; x] ++ _) -[x :: conj x :: _]/([:: x; conj x] ++ _).
    by apply: perm_cat => //; rewrite -[[:: conj x; x]]/([:: conj x] ++ [:: x]) perm_catC.
  apply: perm_trans (_ : perm_eq ([seq x <- a | ~~ I x] ++ ent) a).
    apply: perm_cat; first by rewrite perm_sort.
    by rewrite (perm_trans pp) // perm_sort.
  by rewrite perm_catC perm_filterC.
Qed.

Lemma size_interleave (js : seq R) l : size (interleave js l) = (2 * l)%N.
Proof.
rewrite /interleave size_flatten /shape -map_comp; set g := _ \o _.
have -> : [seq g i | i <- iota 0 l] = nseq l 2%N 
  by have h k i : [seq g i | i <- iota i k] = nseq k 2%N; [elim: k i => //= k IHk i; rewrite IHk | exact: h].
by rewrite sumn_nseq.
Qed.

Lemma fix_signs_size n (js : seq R) j : fix_signs n js = Ok j -> size j = size js.
Proof.
elim: n js j => // n IH [|a [|b t]] j //; first by move=> [<-].
rewrite fix_signsS; case: ifP => _; first by move=> E; have [t' /IH e [<-]] := bindOk E; rewrite /= e.
case: ifP => _; first by move=> E; have [t' /IH e [<-]] := bindOk E; rewrite /= e.
set js := a :: b :: t; set l := first_pos js; case: ifP => // /negbT; rewrite negb_or -!leqNgt => /andP[_ hl] E.
have [t' /IH e E'] := bindOk E; have <- : interleave js l ++ t' = j by case: E'.
rewrite size_cat e size_drop.
rewrite size_interleave.
by rewrite subnKC.
Qed.

Lemma size_evens (T : Type) (s : seq T) : ~~ odd (size s) -> size (evens s) = (size s)./2.
Proof.
move: {2}(size s) (leqnn (size s)) => n; elim: n s => [|n IH] [|x [|y s]] //= h1 h2; rewrite IH //; last by move: h2; rewrite !negbK.
exact: ltnW.
Qed.

Lemma size_pairs (ps : seq cpx) : size (pairs ps) = (2 * size ps)%N.
Proof. by elim: ps => //= x s IH; rewrite /pairs /= -/(pairs s) IH; clear; move: (size s); lia. Qed.

Lemma fst_reals (xs : seq R) : [seq x.1 | x <- reals xs] = xs.
Proof. by elim: xs => //= x s ->. Qed.

(* Whatever the argument, a result that is returned has this shape: the entries that are real up to realness_tol
   in ascending order, the others replaced by as many adjacent conjugate pairs. *)
Theorem C58_shape (tol rtol : R) (positives_first reals_first : bool) (a out : seq cpx) :
  0 < rtol -> pair_complex tol rtol positives_first reals_first a = Ok out ->
  exists rs ps,
    [/\ out = if reals_first then reals rs ++ pairs ps else pairs ps ++ reals rs,
        sorted <=%R rs,
        perm_eq rs [seq x.1 | x <- a & `|x.2| < rtol] &
        size out = size a].
Proof.
move=> hr; rewrite /pair_complex; set a' := [seq _ | x <- a].
set I := fun x : cpx => rtol <= `|x.2|.
have eI x : I (if `|x.2| < rtol then (x.1, 0) else x) = I x.
  by rewrite /I ltNge; case: ifP => /= [/negbTE->|//]; rewrite normr0 leNgt hr.
have sza : size a' = size a by rewrite size_map.
have fr : filter (fun x => ~~ I x) a' = reals [seq x.1 | x <- a & `|x.2| < rtol].
  rewrite /a'; elim: (a) => //= x l IH; rewrite eI; have -> : ~~ I x = (`|x.2| < rtol) by rewrite /I -ltNge.
  by rewrite IH; case: (`|x.2| < rtol).
case eent: ([seq x <- a' | I x]) => [|e0 ent'].
  move=> [<-]; exists (sort <=%R [seq x.1 | x <- a']), [::]; split.
  - by rewrite /pairs /= cats0; case: reals_first.
  - by apply: sort_sorted; apply: le_total.
  - rewrite perm_sort; have := congr1 (map (@fst R R)) fr; rewrite fst_reals => <-.
    suff -> : filter (fun x => ~~ I x) a' = a' by exact: perm_refl.
    apply/all_filterP; apply/allP => x hx; apply/negP => hI.
    by have : x \in [seq x <- a' | I x]; [rewrite mem_filter hI hx | rewrite eent].
  - by rewrite size_map size_sort size_map.
rewrite -eent; set ent := filter I a'; case: ifP => // /negbT ho; set s := sort _ ent.
case: ifP => // _ E; have {E}[j /fix_signs_size ej] := bindOk E; case: ifP => // _ [<-].
set rr := sort _ _.
set pp := flatten _.
have err : rr = reals [seq x.1 | x <- rr].
  rewrite /reals -map_comp -[LHS]map_id; apply/eq_in_map => x; rewrite mem_sort fr => /mapP[y _ ->] //.
have szs : size s = size ent by rewrite size_sort.
pose z := zip (evens [seq x.1 | x <- s]) (evens j).
pose ps := if positives_first then [seq conj x | x <- z] else z.
have epp : pp = pairs ps.
  rewrite /pp /ps /pairs; case: (positives_first); last by congr flatten; apply: eq_map => x /=; rewrite /conj -surjective_pairing.
  by rewrite -map_comp; congr flatten; apply: eq_map => x /=; rewrite /conj /= opprK.
have szp : size ps = (size ent)./2.
  have -> : size ps = size z by rewrite /ps; case: (positives_first); rewrite ?size_map.
  by rewrite /z size_zip !size_evens ?ej ?size_map ?szs // minnn.
exists [seq x.1 | x <- rr], ps; rewrite -err epp; split=> //.
- rewrite sorted_map; have : sorted (@cle R) rr by apply: sort_sorted; exact: cle_total.
  apply: sub_sorted => x y; rewrite /cle /= => /orP[/ltW //|/andP[/eqP-> _]]; exact: lexx.
- have := congr1 (map (@fst R R)) fr; rewrite fst_reals => <-.
  by apply: perm_map; rewrite perm_sort.
- have -> : size (if reals_first then rr ++ pairs ps else pairs ps ++ rr) = (size rr + size (pairs ps))%N.
    by case: (reals_first); rewrite size_cat // addnC.
  rewrite size_pairs szp mul2n; have := odd_double_half (size ent); rewrite (negbTE ho) add0n => ->; rewrite size_sort !size_filter addnC -sza.
  exact: count_predC.
Qed.

(* An odd number of non-real entries is refused. *)
Theorem C58_odd (tol rtol : R) pf rf (a : seq cpx) : 0 < rtol ->
  odd (count (fun x => rtol <= `|x.2|) a) -> pair_complex tol rtol pf rf a = Err ValueError.
Proof.
move=> hr h; rewrite /pair_complex; set a' := [seq _ | x <- a].
have e : size [seq x <- a' | rtol <= `|x.2|] = count (fun x => rtol <= `|x.2|) a.
  rewrite size_filter count_map; apply: eq_count => x /=.
  by case: ifP => //= hx; rewrite normr0 !leNgt hr hx.
by case eent: ([seq x <- a' | rtol <= `|x.2|]) h (e) => [|e0 ent'] h; rewrite -e eent in h *; rewrite ?h.
Qed.

Lemma perm_closed (a : seq cpx) : perm_eq [seq conj x | x <- a] a -> forall x, count_mem (conj x) a = count_mem x a.
Proof.
move=> h x; rewrite -(permP h) count_map; apply: eq_count => y /=.
by rewrite (inj_eq (inv_inj (@conjcK R))).
Qed.
End Props.
Print Assumptions C58_pairs.
Print Assumptions C58_shape.
Print Assumptions C58_odd.

Definition tl : rat := 1 / 1000%:R.

(* a list with repeated real parts, repeated pairs and reals meets the hypotheses of C58_pairs *)
Definition exl : seq (rat * rat) :=
  [:: (1, 2%:R); (3%:R, 0); (1, 3%:R); (0, -1); (1, - 3%:R); (-1, 0); (1, - 2%:R); (0, 1); (1, 2%:R); (1, - 2%:R)].
Example C58_ex : [/\ all (fun x => (x.2 == 0) || (tl <= `|x.2|)) exl,
  forall x, count_mem (conj x) exl = count_mem x exl &
  (if pair_complex tl tl false true exl is Ok out then
     out == [:: (-1, 0); (3%:R, 0); (0, -1); (0, 1); (1, - 3%:R); (1, 3%:R); (1, - 2%:R); (1, 2%:R); (1, - 2%:R); (1, 2%:R)]
   else false)].
Proof.
split; [by vm_compute | | by vm_compute].
apply: perm_closed; by vm_compute.
Qed.

(* "raises ValueError if the numbers cannot be paired" is false: two copies of the same number end in IndexError *)
Theorem C58_unpaired_refuted (R : realFieldType) (tol rtol y : R) pf rf : 0 < rtol -> 0 <= tol -> rtol <= y ->
  pair_complex tol rtol pf rf [:: (0, y); (0, y)] = Err IndexError.
Proof.
move=> hr ht hy; have y0 : 0 < y by exact: lt_le_trans hr hy.
have yn : `|y| = y by rewrite ger0_norm // ltW.
have sn : (y < 0) = false by apply/negbTE; rewrite -leNgt ltW.
by rewrite /pair_complex /= yn ltNge hy /= yn hy /= /sort /= /cle /= ltxx eqxx lexx /= /far /= subrr normr0 ltNge ht /= sn andbF.
Qed.
Print Assumptions C58_unpaired_refuted.
