(* Lemmas about the model in ModelMinT.v. *)
From mathcomp Require Import all_ssreflect all_algebra zify.
From Verif Require Import Base BaseTheory Spec ModelPoly PolyTheory PolyOps ModelState ModelTransfer DenoteT.
From Verif Require Import TransferTheory ConvertTf Cplx ModelMinT SpecMinT.

Set Implicit Arguments.
Unset Strict Implicit.
Unset Printing Implicit Defensive.

Import Order.TTheory GRing.Theory Num.Theory.
Local Open Scope ring_scope.

(* a product of linear factors determines its roots *)
Lemma prodX_perm (F : fieldType) (s t : seq F) :
  \prod_(x <- s) ('X - x%:P) = \prod_(x <- t) ('X - x%:P) -> perm_eq s t.
Proof.
elim: s t => [|x s IH] t.
  rewrite big_nil => /(congr1 (fun p : {poly F} => size p)); rewrite size_poly1 size_prod_XsubC => -[].
  by case: t.
move=> e; have xt : x \in t.
  by rewrite -(root_prod_XsubC t) -e root_prod_XsubC mem_head.
rewrite perm_sym (perm_trans (perm_to_rem xt)) // perm_cons perm_sym; apply: IH.
move: e; rewrite big_cons (perm_big _ (perm_to_rem xt)) /= big_cons.
by apply: mulfI; rewrite polyXsubC_eq0.
Qed.

Section MinTTheory.
Variable R : realFieldType.
Variable rts : row R -> seq (cpl R).
Variable sq : R -> R.
Local Notation C := (cpl R).
Local Notation conj := (@conj R).
Local Notation cabs := (cabs sq).

Definition closed (s : seq C) := perm_eq s (map conj s).

Lemma conj_inj : injective conj. Proof. exact: (inv_inj (@conjK R)). Qed.

Lemma closed_mem s x : closed s -> (conj x \in s) = (x \in s).
Proof. by move=> /perm_mem ->; rewrite (mem_map conj_inj) ?conjK. Qed.

Lemma closed_catr a b : closed a -> closed (a ++ b) -> closed b.
Proof.
rewrite /closed map_cat => ha h; rewrite -(perm_cat2l a); apply: (perm_trans h).
by rewrite perm_cat2r perm_sym.
Qed.

Lemma closed_cat a b : closed a -> closed b -> closed (a ++ b).
Proof. by rewrite /closed map_cat => ha hb; apply: perm_cat. Qed.

Lemma closed_perm a b : perm_eq a b -> closed a -> closed b.
Proof.
move=> h; rewrite /closed => ha; rewrite perm_sym in h; apply: (perm_trans h); apply: (perm_trans ha).
by apply: perm_map; rewrite perm_sym.
Qed.

Lemma map_conj_prod (s : seq C) :
  map_poly conj (\prod_(x <- s) ('X - x%:P)) = \prod_(x <- map conj s) ('X - x%:P).
Proof.
rewrite rmorph_prod big_map; apply: eq_bigr => x _.
by rewrite rmorphB /= map_polyX map_polyC.
Qed.

Lemma map_conj_of (p : {poly R}) : map_poly conj (map_poly (@c_of R) p) = map_poly (@c_of R) p.
Proof. by apply/polyP => k; rewrite !coef_map /= conj_of. Qed.

Lemma c_of_eq0 x : (c_of x == 0 :> C) = (x == 0).
Proof. exact: fmorph_eq0. Qed.

Lemma rts_closed p : head 0 p != 0 -> rts_ok rts p -> closed (rts p).
Proof.
move=> h0 e; apply: prodX_perm; rewrite -map_conj_prod.
have e2 := congr1 (map_poly conj) e; rewrite map_conj_of e map_polyZ /= conj_of in e2.
move/eqP: e2; rewrite -subr_eq0 -scalerBr scaler_eq0 c_of_eq0 (negPf h0) /= subr_eq0 => /eqP //.
Qed.

Lemma rts_size p : head 0 p != 0 -> rts_ok rts p -> size p = (size (rts p)).+1.
Proof.
case: p => [|c p] /=; first by rewrite eqxx.
move=> h0 /(congr1 (fun p : {poly _} => size p)).
rewrite size_map_poly_id0 ?size_scale ?c_of_eq0 ?size_prod_XsubC ?lead_coef_polyhi //=.
by rewrite size_polyhi_trim.
Qed.

Lemma np_polyP s : closed s ->
  exists2 r, np_poly s = Ok r &
    [/\ size r = (size s).+1, head 0 r = 1 & map_poly (@c_of R) (polyhi r) = \prod_(x <- s) ('X - x%:P)].
Proof.
move=> hc; rewrite /np_poly -/(closed s) hc /=; eexists; first by [].
have [h1 h2 h3] := haroldpoly_full s; split.
- by rewrite size_map h1.
- by case: (haroldpoly s) h1 h2 => //= a l _ ->.
rewrite -(polyhi_map (c_of_rmorphism R)) -h3; congr polyhi; rewrite -map_comp; apply: map_id_in => x hx /=.
apply: esym; apply: cim0; apply/eqP; rewrite -conj_fix.
have e : map conj (haroldpoly s) = haroldpoly s.
  apply: polyhi_inj; first by rewrite size_map.
  rewrite (polyhi_map (conj_rmorphism R)) h3 map_conj_prod.
  by apply: perm_big; rewrite perm_sym.
have hi : (seq.index x (haroldpoly s) < size (haroldpoly s))%N by rewrite index_mem.
by rewrite -{1}(nth_index 0 hx) -(nth_map 0 0 conj) // e nth_index.
Qed.

(* the minimum *)
Lemma foldl_min x (s : seq R) t : (foldl Num.min x s < t) = has (fun y => y < t) (x :: s).
Proof.
elim: s x => [|y s IH] x /=; first by rewrite orbF.
by rewrite IH /= lt_minl orbA.
Qed.

Lemma foldl_min_mem x (s : seq R) : foldl Num.min x s \in x :: s.
Proof.
elim: s x => [|y s IH] x /=; first by rewrite mem_head.
have := IH (Num.min x y); rewrite !inE => /orP[/eqP ->|->]; last by rewrite !orbT.
by case: leP; rewrite eqxx ?orbT.
Qed.

Definition E (z : C) := z :: (if 0 < cim z then [:: conj z] else [::]).

Lemma closedE z : 0 <= cim z -> closed (E z).
Proof.
rewrite /E /closed le_eqVlt => /orP[/eqP h|h].
  have hz : conj z = z by apply/eqP; rewrite conj_fix -h.
  by rewrite -h ltxx /= hz.
rewrite h /= conjK; apply/permP => a /=; rewrite !addn0; exact: addnC.
Qed.

Lemma del_perm i (s : seq C) : (i < size s)%N -> perm_eq s (nth 0 s i :: del i s).
Proof.
move=> hi; rewrite /del -{1}(cat_take_drop i s) (drop_nth 0 hi).
by rewrite perm_catC cat_cons perm_cons perm_catC.
Qed.

Lemma mt_stepP tol z plz safe :
  0 <= cim z -> closed plz -> plz != [::] ->
  (forall p, p \in plz -> (cabs (p - z) < tol + tol * cabs z) = (p == z)) ->
  exists plz' safe', mt_step sq tol z (plz, safe) = Ok (plz', safe') /\
    if z \in plz then perm_eq plz (E z ++ plz') /\ safe' = safe else plz' = plz /\ safe' = safe ++ E z.
Proof.
move=> hz hc hn hs; rewrite /mt_step hn /=.
set l := [seq _ | p <- plz]; set t := tol + _.
have hl : (lmin l < t) = (z \in plz).
  have -> : (lmin l < t) = has (fun y => y < t) l by rewrite /l; case: (plz) hn => //= a s _; exact: foldl_min.
  rewrite /l has_map; apply/hasP/idP => [[p hp /=]|h]; first by rewrite hs // => /eqP <-.
  by exists z => //=; rewrite hs.
have hm : lmin l \in l by rewrite /l; case: (plz) hn => //= a s _; exact: foldl_min_mem.
rewrite hl; case: ifP => hz2; last by exists plz, (safe ++ E z).
have hi : (argmin l < size plz)%N by rewrite /argmin -(size_map (fun p => cabs (p - z))) index_mem.
have e : nth 0 plz (argmin l) = z.
  apply/eqP; rewrite -hs ?mem_nth // -(nth_map 0 0 (fun p => cabs (p - z))) // nth_index // hl //.
have hp := del_perm hi; rewrite e in hp; rewrite e.
case: (boolP (0 < cim z)) => [hcz|/negbTE hcz] /=.
  have hcm : conj z \in del (argmin l) plz.
    have := closed_mem z hc; rewrite hz2 (perm_mem hp) inE conj_fix => /orP[/eqP h|//].
    by rewrite h ltxx in hcz.
  rewrite hcm /=; exists (rem (conj z) (del (argmin l) plz)), safe; split=> //; split=> //.
  apply: (perm_trans hp); rewrite /= perm_cons; exact: perm_to_rem.
by exists (del (argmin l) plz), safe.
Qed.

Lemma mt_walkP tol zs plz safe :
  {in zs, forall z, 0 <= cim z} -> closed plz -> closed safe ->
  (forall z p, z \in zs -> p \in plz -> (cabs (p - z) < tol + tol * cabs z) = (p == z)) ->
  (size (flatten (map E zs)) <= size plz)%N ->
  {in safe, forall x, x \notin plz} ->
  exists M plz' safe', mt_walk sq tol zs (plz, safe) = Ok (plz', safe') /\
    [/\ perm_eq plz (M ++ plz'), perm_eq (safe ++ flatten (map E zs)) (M ++ safe'), closed plz', closed safe' &
        {in safe', forall x, x \notin plz'}].
Proof.
elim: zs plz safe => [|z zs IH] plz safe hz hc hsf hs hsz hd.
  by exists [::], plz, safe; split=> //=; split=> //; rewrite cats0.
have hn : plz != [::] by move: hsz; rewrite /= /E; case: (plz).
have ef : flatten (map E (z :: zs)) = E z ++ flatten (map E zs) by [].
have z0 : 0 <= cim z by apply: hz; rewrite mem_head.
have hzs : {in zs, forall z, 0 <= cim z} by move=> x hx; apply: hz; rewrite inE hx orbT.
have [|plz1 [safe1 [e1]]] := @mt_stepP tol z plz safe z0 hc hn; first by move=> p hp; apply: hs; rewrite ?mem_head.
have -> : mt_walk sq tol (z :: zs) (plz, safe) = mt_walk sq tol zs (plz1, safe1).
  have -> : mt_walk sq tol (z :: zs) (plz, safe) = bind (mt_step sq tol z (plz, safe)) (mt_walk sq tol zs) by [].
  by rewrite e1.
case: ifP => hzp [h1 h2].
  subst safe1.
  have [|||M [plz2 [safe2 [e2 [k1 k2 k3 k4 k5]]]]] := IH plz1 safe hzs (closed_catr (closedE z0) (closed_perm h1 hc)) hsf.
  - by move=> x p hx hp; apply: hs; rewrite ?inE ?hx ?orbT // (perm_mem h1) mem_cat hp orbT.
  - by move: hsz; rewrite ef size_cat (perm_size h1) size_cat leq_add2l.
  - by move=> x hx; apply/negP => h; move: (hd x hx); rewrite (perm_mem h1) mem_cat h orbT.
  exists (E z ++ M), plz2, safe2; split=> //; split=> //.
  - by rewrite -catA; apply: (perm_trans h1); rewrite perm_cat2l.
  - by rewrite ef -catA perm_catCA perm_cat2l.
subst plz1 safe1.
have [|||M [plz2 [safe2 [e2 [k1 k2 k3 k4 k5]]]]] := IH plz (safe ++ E z) hzs hc (closed_cat hsf (closedE z0)).
- by move=> x p hx hp; apply: hs; rewrite ?inE ?hx ?orbT.
- by apply: leq_trans hsz; rewrite ef size_cat leq_addl.
- move=> x; rewrite mem_cat => /orP[/hd //|]; rewrite inE => /orP[/eqP ->|]; first by rewrite hzp.
  by case: ifP => // _; rewrite inE => /eqP ->; rewrite closed_mem // hzp.
exists M, plz2, safe2; split=> //; split=> //.
by move: k2; rewrite ef -catA.
Qed.

Lemma flattenE s : closed s ->
  perm_eq s (flatten (map E ([seq z <- s | cim z == 0] ++ [seq z <- s | 0 < cim z]))).
Proof.
move=> hc; rewrite map_cat flatten_cat.
have -> : flatten (map E [seq z <- s | cim z == 0]) = [seq z <- s | cim z == 0].
  elim: (s) => //= z s' IH; case: ifP => //= /eqP h; by rewrite h ltxx IH.
have hp : perm_eq (flatten (map E [seq z <- s | 0 < cim z])) ([seq z <- s | 0 < cim z] ++ map conj [seq z <- s | 0 < cim z]).
  elim: (s) => //= z s' IH; case: ifP => //= h; rewrite h /= perm_cons;
  by rewrite -[conj z :: flatten _]cat1s -[conj z :: map _ _]cat1s perm_sym perm_catCA perm_cat2l perm_sym.
have hm : perm_eq [seq z <- s | cim z < 0] (map conj [seq z <- s | 0 < cim z]).
  apply: (perm_trans (perm_filter _ hc)); rewrite filter_map.
  by rewrite (eq_filter (a2 := fun z => 0 < cim z)) // => z /=; rewrite oppr_lt0.
apply: (@perm_trans _ ([seq z <- s | cim z == 0] ++ [seq z <- s | 0 < cim z] ++ [seq z <- s | cim z < 0])); last first.
  rewrite perm_cat2l perm_sym; apply: (perm_trans hp); by rewrite perm_cat2l perm_sym.
apply/permP => a; rewrite !count_cat !count_filter; elim: (s) => //= z s' ->.
case: ltgtP; case: (a z); lia.
Qed.

(* one entry *)
Lemma mt_simplifyP tol num den :
  head 0 den != 0 -> tidy num -> (size num <= size den)%N ->
  (size num != 1%N -> rts_ok rts num /\ rts_ok rts den /\ sep rts sq tol num den) ->
  exists num' den', mt_simplify rts sq tol num den = Ok (num', den') /\ reduced num den num' den' /\ tidy num'.
Proof.
move=> hd ht hsz hr; rewrite /mt_simplify.
have n0 : num != [::] by case: (num) ht => //=; rewrite /tidy /= eqxx.
have d0 : den != [::] by move: hd; case: (den) => //=; rewrite eqxx.
rewrite n0 d0 hd [_ && _]/=; case: eqP => [s1|/eqP s1].
  exists [seq x / head 0 den | x <- num], [seq x / head 0 den | x <- den]; split=> //.
  split; last by case: (num) s1 => [|c []] //= _; rewrite /tidy /= eqseq_cons eqxx andbT orbN.
  have sc p : polyhi [seq x / head 0 den | x <- p] = (head 0 den)^-1 *: polyhi p.
    by rewrite -polyhi_scale; congr polyhi; apply: eq_map => x; rewrite mulrC.
  split.
  - by rewrite !sc -scalerAl -scalerAr.
  - by rewrite sc dvdpZl ?invr_eq0 ?dvdpp.
  - by case: (den) hd => [|a l] /=; rewrite ?eqxx // => ha; rewrite divff.
  - by rewrite !size_map addnC.
  rewrite !sc; case: (num) s1 => [|c [|? ?]] //= _; rewrite polyhi1 polyC_eq0 => c0.
  by rewrite coprimepZl ?invr_eq0 // coprimepZr ?invr_eq0 // -alg_polyC coprimepZl // coprime1p.
have hn0 : head 0 num != 0 by case/orP: ht => // /eqP h; rewrite h in s1.
have [rn [rd hs]] := hr s1.
have cn := rts_closed hn0 rn; have cd := rts_closed hd rd.
set zs := _ ++ _; have pe := flattenE cn; rewrite -/zs in pe.
have [||||M [plz [safe [e [k1 k2 k3 k4 k5]]]]] := @mt_walkP tol zs (rts den) [::] _ cd (perm_refl _).
- by move=> z; rewrite mem_cat !mem_filter => /orP[/andP[/eqP ->]|/andP[/ltW]].
- move=> z p hz hp; apply: hs => //; move: hz; rewrite mem_cat !mem_filter.
  by move=> /orP[/andP[]|/andP[]].
- by rewrite -(perm_size pe) -ltnS -(rts_size hn0 rn) -(rts_size hd rd).
- by [].
rewrite e /=; have [n' -> [a1 a2 a3]] := np_polyP k4; have [d' -> [b1 b2 b3]] := np_polyP k3.
cbn [bind]; eexists _, _; split; first by [].
set k := head 0 num / head 0 den.
have inj := map_poly_inj (c_of_rmorphism R).
have pn : \prod_(x <- rts num) ('X - x%:P) = \prod_(x <- M) ('X - x%:P) * \prod_(x <- safe) ('X - x%:P).
  by rewrite -big_cat; apply: perm_big; apply: (perm_trans pe).
have pd : \prod_(x <- rts den) ('X - x%:P) = \prod_(x <- M) ('X - x%:P) * \prod_(x <- plz) ('X - x%:P).
  by rewrite -big_cat; exact: perm_big.
have k0 : k != 0 by rewrite /k mulf_neq0 ?invr_eq0.
split; last first.
  case: (n') a2 => [/esym/eqP|x l /= ->]; first by rewrite oner_eq0.
  by rewrite /tidy /= mulr1 k0 orbT.
split.
- rewrite polyhi_scale; apply: inj; rewrite !rmorphM /= map_polyZ /= a3 b3 rn rd pn pd.
  rewrite -!scalerAl -!scalerAr scalerA /k -rmorphM /= divfK //; congr (_ *: _).
  by rewrite mulrCA mulrA.
- by rewrite -(dvdp_map (c_of_rmorphism R)) /= b3 rd pd dvdpZr ?c_of_eq0 // dvdp_mull.
- exact: b2.
- rewrite size_map a1 b1 (rts_size hn0 rn) (rts_size hd rd) (perm_size k1) (perm_size pe).
  by have := perm_size k2; rewrite /= !size_cat; clear; lia.
move=> _; rewrite polyhi_scale coprimepZl // -(coprimep_map (c_of_rmorphism R)) /= a3 b3.
elim: (plz) k5 => [|x l IH] h; first by rewrite big_nil coprimep1.
rewrite big_cons coprimepMr coprimep_XsubC root_prod_XsubC IH ?andbT.
  by apply/negP => hx; have := h x hx; rewrite mem_head.
by move=> y hy; have := h y hy; rewrite inE negb_or => /andP[].
Qed.
End MinTTheory.
