(* Lemmas on pair_complex_numbers. *)
From mathcomp Require Import all_ssreflect all_algebra zify.
From Verif Require Import Base ModelPair.

Set Implicit Arguments.
Unset Strict Implicit.
Unset Printing Implicit Defensive.

Import Order.TTheory GRing.Theory Num.Theory.
Local Open Scope ring_scope.

Section PairTheory.
Variable R : realFieldType.
Local Notation cpx := (cpx R).
Implicit Types (cs : seq cpx) (js ys : seq R).

Definition conjc (x : cpx) : cpx := (x.1, - x.2).
Lemma conjcK : involutive conjc. Proof. by case=> a b; rewrite /conjc /= opprK. Qed.

Lemma cle_refl : reflexive (@cle R). Proof. by move=> x; rewrite /cle eqxx lexx orbT. Qed.
Lemma cle_trans : transitive (@cle R).
Proof.
move=> y x z /orP[h1|/andP[/eqP h1 h2]] /orP[h3|/andP[/eqP h3 h4]]; rewrite /cle.
- by rewrite (lt_trans h1 h3).
- by rewrite -h3 h1.
- by rewrite h1 h3.
- by rewrite h1 h3 eqxx (le_trans h2 h4) orbT.
Qed.
Lemma cle_total : total (@cle R).
Proof. by move=> x y; rewrite /cle; case: ltgtP => //= _; exact: le_total. Qed.
Lemma cle_anti : antisymmetric (@cle R).
Proof.
move=> [a b] [c d] /=; rewrite /cle /=; case: (ltgtP a c) => //= -> h.
by congr pair; apply: le_anti.
Qed.

(* a sorted list splits along a downward closed predicate *)
Lemma sorted_split (T : eqType) (le : rel T) (P : pred T) s : transitive le -> sorted le s ->
  (forall x y, x \in s -> y \in s -> le x y -> P y -> P x) -> s = filter P s ++ filter (predC P) s.
Proof.
move=> tr; elim: s => //= x s IH hs h; have ss : sorted le s by apply: path_sorted hs.
have {}IH : s = filter P s ++ filter (predC P) s.
  by apply: IH => // y z hy hz; apply: h; rewrite in_cons ?hy ?hz orbT.
case: ifP => /= hx; first by rewrite -IH.
have /allP hall := order_path_min tr hs.
have e : [seq y <- s | P y] = [::].
  apply/eqP; rewrite -(negbK (_ == _)) -has_filter; apply/hasPn => y hy.
  by apply: contraFN hx; apply: h; rewrite ?mem_head ?in_cons ?hy ?orbT //; exact: hall.
by rewrite e /=; move: IH; rewrite e /= => <-.
Qed.

Definition closed cs := perm_eq [seq conjc x | x <- cs] cs.

Lemma group cs : sorted (@cle R) cs -> all (fun x => x.2 != 0) cs -> closed cs -> cs != [::] ->
  exists r ys rest, [/\ cs = [seq (r, y) | y <- ys] ++ [seq (r, - y) | y <- rev ys] ++ rest,
    ys != [::], all (fun y => y < 0) ys & [/\ sorted (@cle R) rest, all (fun x => x.2 != 0) rest & closed rest]].
Proof.
case: cs => // [[r y0] cs0]; set cs := _ :: _ => hs h0 hc _.
pose P (x : cpx) := x.1 == r.
have hmin x : x \in cs -> r <= x.1.
  rewrite inE => /orP[/eqP-> //|hx]; have /allP /(_ x hx) := order_path_min cle_trans hs.
  by rewrite /cle /= => /orP[/ltW|/andP[/eqP->]].
have e1 : cs = filter P cs ++ filter (predC P) cs.
  apply: (@sorted_split _ (@cle R)) => //; first exact: cle_trans.
  move=> x y hx hy; rewrite /cle /P => hxy /eqP ey; move: hxy; rewrite ey.
  by case/orP => [h|/andP[]//]; have := hmin x hx; rewrite leNgt h.
set g := filter P cs in e1; set rest := filter _ _ in e1.
pose Nn (x : cpx) := x.2 < 0.
have sg : sorted (@cle R) g by apply: sorted_filter => //; exact: cle_trans.
have gP x : x \in g -> x.1 = r /\ x \in cs by rewrite mem_filter => /andP[/eqP].
have e2 : g = filter Nn g ++ filter (predC Nn) g.
  apply: (@sorted_split _ (@cle R)) => //; first exact: cle_trans.
  move=> x y /gP[ex _] /gP[ey _]; rewrite /cle ex ey ltxx eqxx /= /Nn => h1 h2; exact: le_lt_trans h1 h2.
pose ys := [seq x.2 | x <- filter Nn g].
have eN : filter Nn g = [seq (r, y) | y <- ys].
  rewrite /ys -map_comp -[LHS]map_id; apply/eq_in_map => x; rewrite mem_filter => /andP[_ /gP[ex _]] /=.
  by rewrite -ex -surjective_pairing.
have perm_f (p : pred cpx) : (forall x, p (conjc x) = p x) -> perm_eq [seq conjc x | x <- filter p cs] (filter p cs).
  move=> hp; have -> : [seq conjc x | x <- filter p cs] = filter p [seq conjc x | x <- cs].
    by rewrite filter_map; congr map; apply: eq_filter => x /=.
  by apply: perm_filter.
have cg : perm_eq [seq conjc x | x <- g] g by apply: perm_f.
have crest : closed rest by apply: perm_f.
have srest : sorted (@cle R) rest by apply: sorted_filter => //; exact: cle_trans.
have zrest : all (fun x : cpx => x.2 != 0) rest by apply/allP => x; rewrite mem_filter => /andP[_]; exact: (allP h0).
have h0g x : x \in g -> x.2 != 0 by case/gP => _ hx; exact: (allP h0).
have eP : filter (predC Nn) g = [seq (r, - y) | y <- rev ys].
  apply: (@sorted_eq _ (@cle R)); [exact: cle_trans | exact: cle_anti | by apply: sorted_filter => //; exact: cle_trans | |].
  - rewrite map_rev rev_sorted /ys -map_comp; have : sorted (@cle R) (filter Nn g) by apply: sorted_filter => //; exact: cle_trans.
    rewrite sorted_map; apply: (@sub_in_sorted _ (mem (filter Nn g))); last exact/allP.
    move=> x y hx hy; have {}hx : x \in filter Nn g by []. 
    have {}hy : y \in filter Nn g by [].
    move: hx hy; rewrite mem_filter => /andP[_ /gP[ex _]]; rewrite mem_filter => /andP[_ /gP[ey _]] /=.
    by rewrite /cle ex ey /= ltxx eqxx /= ler_opp2.
  have -> : [seq (r, - y) | y <- rev ys] = rev [seq conjc x | x <- filter Nn g].
    rewrite map_rev /ys -map_comp; congr rev; apply/eq_in_map => x; rewrite mem_filter => /andP[_ /gP[ex _]] /=.
    by rewrite /conjc ex.
  rewrite perm_sym perm_rev.
  have -> : [seq conjc x | x <- filter Nn g] = filter (predC Nn) [seq conjc x | x <- g].
    rewrite filter_map; congr map; apply: eq_in_filter => x /h0g hx /=.
    by rewrite /Nn /= oppr_lt0 -leNgt le_eqVlt (negbTE hx).
  by apply: perm_filter.
exists r, ys, rest; split=> //.
- by rewrite -eN -eP catA -e2.
- have : (r, y0) \in g by rewrite mem_filter /P eqxx mem_head.
  rewrite e2 eN eP; case: (ys) => //.
- by rewrite all_map; apply/allP => x; rewrite mem_filter => /andP[].
Qed.

Definition dbl (A B : Type) (h k : A -> B) (s : seq A) : seq B := flatten [seq [:: h x; k x] | x <- s].

Lemma size_dbl (A B : Type) (h k : A -> B) s : size (dbl h k s) = (2 * size s)%N.
Proof. by elim: s => //= x s IH; rewrite -/(dbl h k s) IH; lia. Qed.

Lemma interleaveE ys t : interleave (ys ++ [seq - y | y <- rev ys] ++ t) (size ys) = dbl id (fun y => - y) ys.
Proof.
rewrite /interleave /dbl; have -> : [seq [:: id x; - x] | x <- ys] = [seq [:: nth 0 ys i; - nth 0 ys i] | i <- iota 0 (size ys)].
  by rewrite -{1}(mkseq_nth 0 ys) /mkseq -map_comp.
congr flatten; apply/eq_in_map => i.
rewrite mem_iota add0n => /= hi; congr [:: _; _]; first by rewrite nth_cat hi.
rewrite nth_cat; have -> : (2 * size ys - 1 - i < size ys)%N = false by apply/negbTE; rewrite -leqNgt; lia.
have hl : (2 * size ys - 1 - i - size ys < size (rev ys))%N by rewrite size_rev; lia.
rewrite nth_cat size_map hl (nth_map 0) // nth_rev; last by rewrite size_rev in hl.
have e (n i0 : nat) : (i0 < n)%N -> (n - (2 * n - 1 - i0 - n).+1 = i0)%N by lia.
by rewrite e.
Qed.

Lemma fix_signsS k (a b : R) t : let js := a :: b :: t in let l := first_pos js in
  fix_signs k.+1 js = if (a < 0) && (0 < b) then do t' <- fix_signs k t; Ok (a :: b :: t')
        else if (0 < a) && (b < 0) then do t' <- fix_signs k t; Ok (- a :: - b :: t')
        else if (size js <= l)%N || (size js < 2 * l)%N then Err IndexError
          else do t' <- fix_signs k (drop (2 * l) js); Ok (interleave js l ++ t').
Proof. by []. Qed.

Lemma fix_signsP n cs fuel : (size cs <= n)%N -> (size cs < fuel)%N ->
  sorted (@cle R) cs -> all (fun x => x.2 != 0) cs -> closed cs ->
  exists ps : seq cpx, [/\ fix_signs fuel [seq x.2 | x <- cs] = Ok (dbl (fun x => x.2) (fun x => - x.2) ps),
    [seq x.1 | x <- cs] = dbl (fun x => x.1) (fun x => x.1) ps, all (fun x => x.2 < 0) ps &
    perm_eq cs (dbl id conjc ps)].
Proof.
elim: n cs fuel => [|n IH] cs [|fuel] //.
  by rewrite leqn0 size_eq0 => /eqP-> _ _ _ _; exists [::].
move=> hn hf hs h0 hc; case: (eqVneq cs [::]) => [->|ne]; first by exists [::].
have [r [ys [rest [ecs yne yneg [srest zrest crest]]]]] := group hs h0 hc ne.
have szc : size cs = (2 * size ys + size rest)%N by rewrite ecs !size_cat !size_map size_rev mul2n -addnn addnA.
have y1 : (0 < size ys)%N by rewrite lt0n size_eq0.
have sr : (size rest <= n)%N /\ (size rest < fuel)%N.
  by move: hn hf y1; rewrite szc; move: (size ys) (size rest); clear; lia.
have [ps [E1 E2 E3 E4]] := IH rest fuel sr.1 sr.2 srest zrest crest.
pose ps' := [seq (r, y) | y <- ys] ++ ps.
have dcat (B : Type) (h k : cpx -> B) : dbl h k ps' = dbl h k [seq (r, y) | y <- ys] ++ dbl h k ps.
  by rewrite /dbl /ps' map_cat flatten_cat.
have ej : [seq x.2 | x <- cs] = ys ++ [seq - y | y <- rev ys] ++ [seq x.2 | x <- rest].
  by rewrite ecs !map_cat -!map_comp map_id_in.
exists ps'; split.
- have dj : dbl (fun x : cpx => x.2) (fun x => - x.2) [seq (r, y) | y <- ys] = dbl id (fun y => - y) ys.
    by rewrite /dbl -map_comp.
  rewrite dcat dj ej.
  have /allP yn := yneg; case eys: (ys) yne y1 yneg => [|y [|y' ys']] // _ _; set js := _ ++ _; cbn [all] => yneg.
    by rewrite /js /= oppr_gt0; move: yneg; rewrite andbT => ->; rewrite E1.
  have [n1 n2 n3] : [/\ y < 0, y' < 0 & all (fun z => z < 0) ys'] by case/and3P: yneg.
  have ejs : js = y :: y' :: ys' ++ [seq - z | z <- rev ys] ++ [seq x.2 | x <- rest] by rewrite /js eys.
  have fp : first_pos js = size ys.
    rewrite /first_pos ejs /= drop0 find_cat; have -> : has (fun z => 0 < z) ys' = false.
      by apply/negbTE/hasPn => z /(allP n3) hz; rewrite -leNgt ltW.
    rewrite find_cat; have -> : find (fun z => 0 < z) [seq - z | z <- rev ys] = 0%N.
      rewrite map_rev; have : all (fun z => 0 < z) (rev [seq - z | z <- ys]).
        rewrite all_rev all_map; by apply/allP => z /yn /=; rewrite oppr_gt0.
      by case: (rev _) => //= a l /andP[->].
    have -> : has (fun z => 0 < z) [seq - z | z <- rev ys].
      rewrite has_map; apply/hasP; exists y; first by rewrite mem_rev eys mem_head.
      by rewrite /= oppr_gt0.
    by rewrite addn0 eys.
  have szj : size js = (2 * size ys + size rest)%N by rewrite /js -eys !size_cat !size_map size_rev mul2n -addnn addnA.
  have -> : fix_signs fuel.+1 js = do t' <- fix_signs fuel (drop (2 * size ys) js); Ok (interleave js (size ys) ++ t').
    rewrite {1}ejs fix_signsS -ejs fp szj (negbTE (_ : ~~ (0 < y'))) -?leNgt ?ltW // andbF.
    rewrite (negbTE (_ : ~~ (0 < y))) -?leNgt ?ltW // andFb.
    have -> : (2 * size ys + size rest <= size ys)%N || (2 * size ys + size rest < 2 * size ys)%N = false.
      by rewrite eys /=; move: (size ys') (size rest); clear; lia.
    by [].
  have -> : drop (2 * size ys) js = [seq x.2 | x <- rest].
    by rewrite /js -eys catA drop_size_cat // size_cat size_map size_rev mul2n -addnn.
  by rewrite E1 /js -eys interleaveE.
- rewrite dcat ecs !map_cat -E2 catA; congr (_ ++ _).
  rewrite -!map_comp /dbl -map_comp; set c := [seq _ | _ <- ys]; set d := [seq _ | _ <- rev ys].
  have -> : c = nseq (size ys) r by rewrite /c; elim: (ys) => //= a l ->.
  have -> : d = nseq (size ys) r by rewrite /d -(size_rev ys); elim: (rev ys) => //= a l ->.
  clear; elim: (ys) => //= a l <-; rewrite -[nseq (size l) r ++ r :: _]cat_rcons; congr cons.
  by have -> : rcons (nseq (size l) r) r = r :: nseq (size l) r by elim: (size l) => //= n ->.
- rewrite /ps' all_cat E3 andbT all_map; exact: yneg.
- rewrite dcat ecs catA; apply: perm_cat => //.
  rewrite /dbl -map_comp map_rev; clear; elim: (ys) => //= a l IH.
  rewrite perm_cons rev_cons -cats1 catA perm_catC /= perm_cons; exact: IH.
Qed.
End PairTheory.
