(* Correctness of the Transfer operators. *)
From mathcomp Require Import all_ssreflect all_algebra zify.
From Verif Require Import Base BaseTheory Spec ModelPoly PolyTheory PolyOps LcmTheory ModelState ModelTransfer
  StateTheory DenoteT TransferTheory.

Set Implicit Arguments.
Unset Strict Implicit.
Unset Printing Implicit Defensive.

Import Order.TTheory GRing.Theory Num.Theory.
Local Open Scope ring_scope.

Section Pev.
Variables (R : realFieldType) (L : fieldType) (f : {rmorphism R -> L}).
Implicit Types (p q : seq R).

Lemma pev1 (c : R) s : pev f [:: c] s = f c.
Proof. by rewrite /pev polyhi1 map_polyC hornerC. Qed.
Lemma pev_scale (c : R) p s : pev f [seq c * x | x <- p] s = f c * pev f p s.
Proof. by rewrite /pev polyhi_scale map_polyZ hornerZ. Qed.
Lemma pev_scaler (c : R) p s : pev f [seq x * c | x <- p] s = pev f p s * f c.
Proof. by rewrite mulrC -pev_scale; congr (pev f _ s); apply: eq_map => x; rewrite mulrC. Qed.
Lemma pev_neg p s : pev f [seq - x | x <- p] s = - pev f p s.
Proof.
have -> : [seq - x | x <- p] = [seq -1 * x | x <- p] by apply: eq_map => x; rewrite mulN1r.
by rewrite pev_scale rmorphN rmorph1 mulN1r.
Qed.
Lemma pev_mul p q r s : polyhi r = polyhi p * polyhi q -> pev f r s = pev f p s * pev f q s.
Proof. by rewrite /pev => ->; rewrite rmorphM hornerM. Qed.
Lemma pev_eq p q s : polyhi p = polyhi q -> pev f p s = pev f q s.
Proof. by rewrite /pev => ->. Qed.
Lemma pev_add p q r s : polyhi r = polyhi p + polyhi q -> pev f r s = pev f p s + pev f q s.
Proof. by rewrite /pev => ->; rewrite rmorphD hornerD. Qed.
Lemma pev0 p s : polyhi p = 0 -> pev f p s = 0.
Proof. by rewrite /pev => ->; rewrite rmorph0 horner0. Qed.
Lemma pev_dvd p q s : polyhi p %| polyhi q -> pev f q s != 0 -> pev f p s != 0.
Proof.
rewrite /pev => /dvdpP[u ->]; rewrite rmorphM hornerM; apply: contraNneq => ->; by rewrite mulr0.
Qed.
Lemma pev_monp p q r (c := head 1 q) s : c != 0 -> polyhi p * monp q = polyhi r ->
  pev f p s * pev f q s = f c * pev f r s.
Proof.
move=> c0 E; rewrite -[pev f q s]mul1r -(rmorph1 f) -(divff c0) rmorphM /=.
have -> : pev f r s = pev f p s * (f c^-1 * pev f q s).
  by rewrite /pev -E rmorphM hornerM /= /monp map_polyZ hornerZ.
by rewrite -!mulrA [RHS]mulrCA.
Qed.
End Pev.

Lemma frac_add (L : fieldType) (a A D c c' l : L) : D != 0 -> c != 0 -> c' != 0 -> l != 0 ->
  A * D = c * l -> a * (A * c') / (l * (c * c')) = a / D.
Proof.
move=> hD hc hc' hl E; apply/eqP; rewrite eqr_div ?mulf_neq0 //; apply/eqP.
by rewrite -!mulrA; congr (a * _); rewrite mulrA mulrAC E [c * l]mulrC -mulrA.
Qed.

Lemma bidxE n i : (i < n)%N -> bidx n i = i.
Proof. by rewrite /bidx; case: eqP => // ->; case: i. Qed.

Section Ops.
Variable R : realFieldType.
Variable lcmf : seq (row R) -> res (row R * seq (row R)).
Variable eps : R.
Implicit Types (M N D : pmat R) (G H K : tf R).
Local Notation mk_tf := (mk_tf lcmf eps).

(* what is used of haroldlcm *)
Definition lcm_okf : Prop := forall args, args != [::] -> all (@good R) args ->
  exists l ms, [/\ lcmf args = Ok (l, ms), head 0 l = 1, is_lcm args (polyhi l),
    size ms = size args &
    forall i, (i < size args)%N ->
      head 0 (nth [::] ms i) != 0 /\ polyhi (nth [::] ms i) * monp (nth [::] args i) = polyhi l].

Lemma head01 (d : row R) : head 0 d != 0 -> good d /\ head 1 d = head 0 d.
Proof. by case: d => [|x d] //=; rewrite ?eqxx // /good => ->. Qed.

Lemma add_entryP n0 d0 n1 d1 n d : lcm_okf -> head 0 d0 != 0 -> head 0 d1 != 0 ->
  add_entry lcmf n0 d0 n1 d1 = Ok (n, d) ->
  head 0 d != 0 /\ forall (L : fieldType) (f : {rmorphism R -> L}) (s : L),
    pev f d0 s != 0 -> pev f d1 s != 0 ->
    pev f d s != 0 /\ pev f n s / pev f d s = pev f n0 s / pev f d0 s + pev f n1 s / pev f d1 s.
Proof.
move=> hl h0 h1; have [g0 e0] := head01 h0; have [g1 e1] := head01 h1.
have [|l [ms [E hl1 hlcm sm hm]]] := hl [:: d0; d1] isT; first by rewrite /= g0 g1.
rewrite /add_entry; case: ifP => // _; rewrite E => h; have [[l' ms'] [<- <-] {}h] := bindOk h.
have [x Ex {}h] := bindOk h; have [y Ey {}h] := bindOk h; have [u Eu [eu ed]] := bindOk h.
rewrite {}eu in Eu => {h}.
have [m0 M0] := hm 0%N isT; have [m1 M1] := hm 1%N isT; rewrite /= in m0 M0 m1 M1.
move: Ex Ey; rewrite /np_convolve; case: ifP => //= _ [ex]; case: ifP => //= _ [ey].
have f0 (L : fieldType) (f : {rmorphism R -> L}) : f (head 0 d0) != 0 by rewrite fmorph_eq0.
have f1 (L : fieldType) (f : {rmorphism R -> L}) : f (head 0 d1) != 0 by rewrite fmorph_eq0.
have edd : d = [seq c * (head 0 d0 * head 0 d1) | c <- l] by rewrite -ed; apply: eq_map => c; rewrite mulrA.
split=> [|L f s D0 D1].
  rewrite edd; move: hl1; case: (l) => [|c l2] /= => [/eqP|->]; first by rewrite eq_sym oner_eq0.
  by rewrite mul1r mulf_neq0.
have L0 : pev f l s != 0.
  have : polyhi l %| polyhi (convolve d0 d1).
    apply/hlcm => p; rewrite !inE => /orP[]/eqP->; rewrite polyhi_convolve; [exact: dvdp_mulr|exact: dvdp_mull].
  by move/pev_dvd; apply; rewrite (pev_mul f s (polyhi_convolve d0 d1)) mulf_neq0.
rewrite edd pev_scaler rmorphM /=; split; first by rewrite (mulf_neq0 L0 (mulf_neq0 (f0 L f) (f1 L f))).
have -> : pev f n s = pev f x s + pev f y s.
  by apply: pev_add; have [-> _] := polyaddP Eu; rewrite !big_cons big_nil addr0.
rewrite -ex -ey !(pev_mul f s (polyhi_convolve _ _)) !pev_scaler.
have := pev_monp f s _ M0; have := pev_monp f s _ M1; rewrite e0 e1 => /(_ h1) E1 /(_ h0) E0.
rewrite mulrDl; congr (_ + _).
- exact: (frac_add _ D0 (f0 L f) (f1 L f) L0).
rewrite [f _ * f (head 0 d1)]mulrC; exact: (frac_add _ D1 (f1 L f) (f0 L f) L0).
Qed.

(* ------------------------------------------------------------------ *)
(* constructor with a missing denominator *)
Lemma combine_none p m N : (0 < p)%N -> (0 < m)%N -> rect p m N ->
  forall x, tf_combine (if (p == 1%N) && (m == 1%N) then RSiso (ent N 0 0) else RMimo N) RNone = Ok x ->
  x = (N, grid p m (fun _ _ => [:: 1]), true) /\
  forall i j, (i < p)%N -> (j < m)%N -> (size (ent N i j) <= 1)%N.
Proof.
move=> hp hm rN x; case: ifP => [/andP[/eqP e1 /eqP e2]|e].
  rewrite e1 e2 in rN *; rewrite /tf_combine /=; case: ifP => //= h [<-]; rewrite -(rect11 rN); split=> //.
  by move=> [|i] [|j].
rewrite /tf_combine /=; case: ifP => //= hh.
case: (rect_pshape hp rN) => -> ->.
have r1 : rect p m (grid p m (fun _ _ => [:: 1 : R])) by exact: rect_grid.
rewrite (flatten_eq0 hp hm r1) => -[<-]; split.
  congr (_, _, _); rewrite maxsize1 ?(flatten_eq0 hp hm r1) //; last first.
    by rewrite (rect_flatten [::] _ r1); apply/all2P => i j hi hj; rewrite gnt_grid.
  by rewrite (rect_flatten [::] _ r1); apply/all2P => i j hi hj; rewrite gnt_grid.
move: hh; rewrite -all_predC => hh; move: (hh); rewrite (rect_flatten [::] _ rN) => /all2P h2 i j hi hj.
by have := h2 i j hi hj; rewrite /= negbK.
Qed.

Lemma mk_tf_none p m a N dt G : (0 < p)%N -> (0 < m)%N -> argis p m a N -> mk_tf a TNone dt = Ok G ->
  [/\ wfT G, tshape G = (p, m), tn G = N, td G = grid p m (fun _ _ => [:: 1]) & tdt G = dt].
Proof.
move=> hp hm [rN aN]; rewrite /mk_tf /tf_validate aN => h.
have [[[N' D'] g] E h1] := bindOk h; have [dt' E1 h2] := bindOk h1; have [u _ [<-]] := bindOk h2.
have [-> hdt] := check_dt_ok E1; have [[-> -> ->] hs] := combine_none hp hm rN E.
have sh : tshape (Tf N (grid p m (fun _ _ => [:: 1])) true dt) = (p, m) by rewrite /tshape /pshape /= (rect_pshape hp rN).
have r1 : rect p m (grid p m (fun _ _ => [:: 1 : R])) by exact: rect_grid.
split=> //; rewrite /wfT /tp /tm sh /= hp hm rN r1 /=; apply/and4P; split=> //.
- by rewrite (rect_flatten [::] _ r1); apply/all2P => i j hi hj; rewrite gnt_grid //= oner_neq0.
- apply/all2P => i j hi hj; rewrite ent_grid //=; exact: leq_trans (size_polyhi_le _) (hs i j hi hj).
- by rewrite eq_sym; apply/eqP; rewrite (rect_flatten [::] _ r1); apply/all2P => i j hi hj; rewrite gnt_grid.
Qed.

(* an ndarray as numerator *)
Lemma mk_tf_arr (A : arr R) dt G : (0 < nr A)%N -> (0 < nc A)%N -> mk_tf (TArr A) TNone dt = Ok G ->
  [/\ wfT G, tshape G = (nr A, nc A), tn G = grid (nr A) (nc A) (fun i j => [:: get A i j]),
      td G = grid (nr A) (nc A) (fun _ _ => [:: 1]) & tdt G = dt].
Proof.
move=> hr hc; case: (boolP ((1 < nr A)%N && (1 < nc A)%N)) => e.
  apply: mk_tf_none => //; split; first exact: rect_grid; rewrite /= e.
  by case/andP: e => e1 e2; rewrite gtn_eqF.
move=> h; have s1 : (size (flat_arr A) <= 1)%N.
  move: h; rewrite /mk_tf /tf_validate /= (negbTE e) => h.
  by have [x] := bindOk h; rewrite /tf_combine /=; case: ifP.
have ef : size (flat_arr A) = (nr A * nc A)%N.
  rewrite /flat_arr size_flatten /shape /grid -map_comp sumnE big_map.
  under eq_bigr do rewrite /= size_mkseq.
  by rewrite big_const_seq count_predT size_iota iter_addn_0 mulnC.
have [er ec] : nr A = 1%N /\ nc A = 1%N.
  move: s1; rewrite ef; move: hr hc; case: (nr A) (nc A) => [|[|n]] [|[|k]] //= _ _; rewrite ?mul1n ?muln1 //; nia.
rewrite er ec; apply: mk_tf_none h => //; split; first exact: rect_grid.
by rewrite /= er ec /= /flat_arr er ec.
Qed.

Lemma tolist_argis (A : arr R) : (0 < nr A)%N -> argis (nr A) (nc A) (tolist A) (grid (nr A) (nc A) (fun i j => [:: get A i j])).
Proof. by move=> h; exact: argis_grid_TLL. Qed.

(* ------------------------------------------------------------------ *)
(* static gains as arrays *)
Lemma tf_arrayP G A : wfT G -> tf_array G = Ok A ->
  [/\ nr A = tp G, nc A = tm G, wfa A &
   forall (L : fieldType) (f : {rmorphism R -> L}) s i j, (i < tp G)%N -> (j < tm G)%N ->
    evT f G s i j = f (get A i j)].
Proof.
move=> w; rewrite /tf_array; case: ifP => // g h.
have [M E [<-]] := bindOk h; have [r hM] := gridR_ok 0 E; split=> // L f s i j hi hj.
have := hM i j hi hj; rewrite /div11; case: ifP => // /andP[s1 s2]; case: ifP => // h0 [e].
rewrite /evT /get /= -/(gnt 0 M i j) -e.
case: (ent (tn G) i j) s1 => [|x [|]] // _; case: (ent (td G) i j) s2 h0 {e} => [|y [|]] // _ /= h0.
by rewrite !pev1 fmorph_div.
Qed.

Lemma gain_df G (L : fieldType) (f : {rmorphism R -> L}) s i j : wfT G -> tgain G -> (i < tp G)%N -> (j < tm G)%N ->
  dfT f G s i j.
Proof.
move=> w g hi hj; case: (wfTP w) => _ hd _ eg _; move: g; rewrite eg => /all2P /(_ i j hi hj).
rewrite /dfT; have := hd i j hi hj; case: (ent (td G) i j) => [|y [|]] //= h0 _.
by rewrite pev1 fmorph_eq0.
Qed.

(* ------------------------------------------------------------------ *)
Lemma tf_addTP G H K : lcm_okf -> wfT G -> wfT H -> tshape G = tshape H -> tf_addT lcmf eps G H = Ok K ->
  [/\ wfT K, tshape K = tshape G & tdt K = tdt G] /\
  forall (L : fieldType) (f : {rmorphism R -> L}) s i j, (i < tp G)%N -> (j < tm G)%N ->
    dfT f G s i j -> dfT f H s i j ->
    dfT f K s i j /\ evT f K s i j = evT f G s i j + evT f H s i j.
Proof.
move=> hl wG wH esh; rewrite /tf_addT; case: ifP => // /eqP edt.
have [etp etm] : tp H = tp G /\ tm H = tm G by rewrite /tp /tm esh.
case: (wfTP wG) => -[hp hm rN rD] hd _ _ _; case: (wfTP wH) => -[_ _ rNH rDH] hdH _ _ _.
have shE : (tp G, tm G) = tshape G by rewrite /tp /tm; case: (tshape G).
case: ifP => [/andP[gG gH] h|_].
  have [A EA {}h] := bindOk h; have [B EB {}h] := bindOk h; have [S ES {}h] := bindOk h.
  have [a1 a2 wA hA] := tf_arrayP wG EA; have [b1 b2 wB hB] := tf_arrayP wH EB.
  have EG : S = mk (tp G) (tm G) (fun i j => get A i j + get B i j).
    move: ES; rewrite /np_add /np_op2 a1 a2 b1 b2 etp etm /bdim !eqxx => -[<-].
    apply: mk_ext => i j hi hj; by rewrite !bidxE.
  move: h; case: ifP => // _ h.
  have [w1 w2 w3 w4 w5] := mk_tf_none hp hm (argis_grid_TLL _ _ hp) h; rewrite w2; split=> // L f s i j hi hj _ _.
  have gK : tgain K.
    by case: (wfTP w1) => _ _ _ -> _; rewrite /tp /tm w2 /= w4; apply/all2P => i' j' hi' hj'; rewrite ent_grid.
  have [hi' hj'] : (i < tp K)%N /\ (j < tm K)%N by rewrite /tp /tm w2.
  split; first exact: gain_df.
  rewrite (hA L f s) // (hB L f s) ?etp ?etm // /evT w3 w4 !ent_grid // !pev1 rmorph1 divr1 EG get_mk //.
  by rewrite rmorphD.
case: ifP => // esiso h; have [es E {}h] := bindOk h; have [re hes] := gridR_ok ([::], [::]) E.
set N := [seq [seq e.1 | e <- r] | r <- es] in h; set D := [seq [seq e.2 | e <- r] | r <- es] in h.
have rN' : rect (tp G) (tm G) N by exact: rect_map.
have rD' : rect (tp G) (tm G) D by exact: rect_map.
have ee i j : (i < tp G)%N -> (j < tm G)%N ->
  add_entry lcmf (ent (tn G) i j) (ent (td G) i j) (ent (tn H) i j) (ent (td H) i j) = Ok (ent N i j, ent D i j).
  move=> hi hj; have := hes i j hi hj; case: ifP => // _ ->; rewrite !entE /N /D.
  by rewrite !(gnt_map ([::], [::]) [::] _ re hi hj); case: (gnt _ es i j).
have hee i j hi hj := add_entryP hl (hd i j hi hj) (hdH i j (etrans (congr1 _ etp) hi) (etrans (congr1 _ etm) hj)) (ee i j hi hj).
move: h; case: ifP => hz h.
  have aN : argis (tp G) (tm G) (pm_arg (tSISO G) N) N by rewrite (wfT_siso wG); exact: argis_pm.
  have aD : argis (tp G) (tm G) (pm_arg (tSISO G) D) D by rewrite (wfT_siso wG); exact: argis_pm.
  have [w1 w2 w3 w4 w5] := mk_tf_wf hp hm aN aD (fun i j hi hj => (hee i j hi hj).1) h.
  rewrite w2 shE; split=> // L f s i j hi hj dG dH.
  by have [_ /(_ L f s dG dH)] := hee i j hi hj; rewrite /dfT /evT w3 w4.
have [w1 w2 w3 w4 w5] := mk_tf_none hp hm (argis_grid_TLL _ _ hp) h; rewrite w2 shE; split=> // L f s i j hi hj dG dH.
have [_ /(_ L f s dG dH) [_ <-]] := hee i j hi hj.
have z : polyhi (ent N i j) = 0.
  move: hz => /negbT; rewrite -all_predC (rect_flatten [::] _ rN') => /all2P /(_ i j hi hj) /=.
  by rewrite -entE has_polyhi negbK => /eqP.
rewrite /dfT /evT w3 w4 !ent_grid // !pev1 rmorph1 rmorph0 !mul0r (pev0 f s z) mul0r; split=> //; exact: oner_neq0.
Qed.

(* ------------------------------------------------------------------ *)
Lemma tf_negP G K : wfT G -> tf_neg lcmf eps G = Ok K ->
  [/\ wfT K, tshape K = tshape G & tdt K = tdt G] /\
  forall (L : fieldType) (f : {rmorphism R -> L}) s i j, (i < tp G)%N -> (j < tm G)%N ->
    dfT f K s i j = dfT f G s i j /\ evT f K s i j = - evT f G s i j.
Proof.
move=> w; rewrite /tf_neg => h; case: (wfTP w) => -[hp hm rN rD] hd _ _ _.
have shE : tshape G = (tp G, tm G) by rewrite /tp /tm; case: (tshape G).
have [w1 w2 w3 w4 w5] := mk_tf_wf hp hm (argis_grid _ w shE) (argis_td w) hd h; rewrite w2 shE; split=> // L f s i j hi hj.
by rewrite /dfT /evT w3 w4 ent_grid // pev_neg mulNr.
Qed.

Lemma tf_scaleP G x K : wfT G -> tf_scale lcmf eps G x = Ok K ->
  [/\ wfT K, tshape K = tshape G & tdt K = tdt G] /\
  forall (L : fieldType) (f : {rmorphism R -> L}) s i j, (i < tp G)%N -> (j < tm G)%N -> dfT f G s i j ->
    dfT f K s i j /\ evT f K s i j = f x * evT f G s i j.
Proof.
move=> w; case: (wfTP w) => -[hp hm rN rD] hd _ _ _.
have shE : tshape G = (tp G, tm G) by rewrite /tp /tm; case: (tshape G).
rewrite /tf_scale; case: ifP => e.
  move: e; rewrite (wfT_siso w) => /andP[/eqP e1 /eqP e2].
  rewrite shE e1 e2; case: eqP => [->|/eqP x0] h.
    have [|w1 w2 w3 w4 w5] := mk_tf_wf (ltn0Sn 0) (ltn0Sn 0) (argis_num 0) (argis_num 1) _ h => //.
      by move=> [|i] [|j] //; rewrite oner_neq0.
    rewrite w2; split=> // L f s [|i] [|j] // _ _ _; rewrite /dfT /evT w3 w4 /ent /= !pev1 rmorph1 rmorph0 !mul0r.
    by split=> //; exact: oner_neq0.
  have [|w1 w2 w3 w4 w5] := mk_tf_wf (ltn0Sn 0) (ltn0Sn 0) (argis_trow _) (argis_trow _) _ h => //.
    by move=> [|i] [|j] // _ _; apply: hd; rewrite ?e1 ?e2.
  rewrite w2; split=> // L f s [|i] [|j] // _ _; rewrite /dfT /evT w3 w4 [ent [:: _] 0 0]/ent /= => d.
  by rewrite {1}/ent /= pev_scale mulrA.
move=> h; have [|w1 w2 w3 w4 w5] := mk_tf_wf hp hm (argis_grid_TLL _ _ hp) (argis_grid_TLL _ _ hp) _ h.
  by move=> i j hi hj; rewrite ent_grid //; case: ifP => _; [rewrite oner_neq0|exact: hd].
rewrite w2 shE; split=> // L f s i j hi hj dG; rewrite /dfT /evT w3 w4 !ent_grid //.
case: (x =P 0) => [->|_] /=; first by rewrite !pev1 rmorph1 rmorph0 !mul0r; split=> //; exact: oner_neq0.
by rewrite pev_scale mulrA.
Qed.

(* G * A, entrywise; a SISO model broadcasts over the array *)
Definition bsiso G (i : nat) := if tSISO G then 0%N else i.

Lemma tf_mul_arrP G A K : wfT G -> (0 < nr A)%N -> (0 < nc A)%N -> tf_mul_arr lcmf eps G A = Ok K ->
  asize A != 1%N \/ tSISO G ->
  [/\ wfT K, tshape K = shp A & tdt K = tdt G] /\
  forall (L : fieldType) (f : {rmorphism R -> L}) s i j, (i < nr A)%N -> (j < nc A)%N ->
    dfT f G s (bsiso G i) (bsiso G j) ->
    dfT f K s i j /\ evT f K s i j = evT f G s (bsiso G i) (bsiso G j) * f (get A i j).
Proof.
move=> w ha hb; case: (wfTP w) => -[hp hm rN rD] hd _ _ _.
have shE : tshape G = (tp G, tm G) by rewrite /tp /tm; case: (tshape G).
rewrite /tf_mul_arr; case: ifP => [/eqP a1 h [//|si]|a1 h _].
  have [e1 e2] : nr A = 1%N /\ nc A = 1%N.
    by move: a1; rewrite /asize; case: (nr A) (nc A) => [|[|n]] [|[|k]] //=; rewrite ?mul1n ?muln1 ?muln0.
  have [[w1 w2 w3] hv] := tf_scaleP w h.
  move: (si); rewrite (wfT_siso w) => /andP[/eqP p1 /eqP m1].
  rewrite w2 shE p1 m1 /shp e1 e2; split=> // L f s [|i] [|j] // _ _; rewrite /bsiso si => d.
  by have [] := hv L f s 0%N 0%N _ _ d; rewrite ?p1 ?m1 // [f _ * _]mulrC.
move: h; case: ifP => // hs h.
have hd' i j : (i < nr A)%N -> (j < nc A)%N -> head 0 (ent (td G) (bsiso G i) (bsiso G j)) != 0.
  move=> hi hj; rewrite /bsiso; case: ifP hs => [_ _|_ /= hs]; first exact: hd.
  by move: hs; rewrite shE => /eqP[e1 e2]; apply: hd; rewrite ?e1 ?e2.
have [|w1 w2 w3 w4 w5] := mk_tf_wf ha hb (argis_grid_TLL _ _ ha) (argis_grid_TLL _ _ ha) _ h.
  move=> i j hi hj; rewrite ent_grid //; case: ifP => _; first by rewrite oner_neq0.
  by have := hd' i j hi hj; rewrite /bsiso; case: ifP.
rewrite w2; split=> // L f s i j hi hj; rewrite /dfT /evT w3 w4 !ent_grid //.
have bE M : (if tSISO G then ent M 0 0 else ent M i j) = ent M (bsiso G i) (bsiso G j) by rewrite /bsiso; case: ifP.
rewrite !bE.
case: (get A i j =P 0) => [->|_] d /=; first by rewrite !pev1 rmorph1 rmorph0 !mul0r mulr0; split=> //; exact: oner_neq0.
by rewrite pev_scale; split=> //; rewrite [RHS]mulrAC [_ * f _]mulrC.
Qed.

(* ------------------------------------------------------------------ *)
Lemma head_convolve (p q : seq R) : p != [::] -> q != [::] -> head 0 (convolve p q) = head 0 p * head 0 q.
Proof.
move=> p0 q0; rewrite -!nth0 /convolve (negbTE p0) (negbTE q0) /= nth_mkseq.
  by rewrite /sumN /= addr0.
by move: p0 q0; rewrite -!size_eq0; case: (size p) (size q) => [|n] [|k] // _ _; rewrite addSn addnS.
Qed.

Lemma polymul2 (p q : seq R) : polyhi p != 0 -> polyhi q != 0 ->
  exists2 r, haroldpolymul [:: p; q] true = Ok r & polyhi r = polyhi p * polyhi q /\ head 0 r != 0.
Proof.
move=> p0 q0; have tp0 : trimf p != [::] by rewrite trimf_nil.
have tq0 : trimf q != [::] by rewrite trimf_nil.
rewrite /haroldpolymul /= size_eq0 (negbTE tq0) /np_convolve (negbTE tp0) (negbTE tq0) /=.
rewrite has_polyhi polyhi_convolve !polyhi_trimf mulf_neq0 //; eexists; first by [].
rewrite polyhi_convolve !polyhi_trimf; split=> //; rewrite head_convolve // mulf_neq0 //.
  by have := lead_trimf p; case: (trimf p) tp0.
by have := lead_trimf q; case: (trimf q) tq0.
Qed.

Lemma head_polyhi (p : seq R) : head 0 p != 0 -> polyhi p != 0.
Proof. by case: p => [|c p] /=; rewrite ?eqxx // => c0; rewrite -has_polyhi /= c0. Qed.

Lemma mul_entryP n0 d0 n1 d1 : head 0 d0 != 0 -> head 0 d1 != 0 ->
  exists n d, [/\ mul_entry n0 d0 n1 d1 = Ok (n, d), head 0 d != 0 & forall (L : fieldType) (f : {rmorphism R -> L}) (s : L),
    pev f d0 s != 0 -> pev f d1 s != 0 ->
    pev f d s != 0 /\ pev f n s / pev f d s = (pev f n0 s / pev f d0 s) * (pev f n1 s / pev f d1 s)].
Proof.
move=> h0 h1; rewrite /mul_entry !has_polyhi !negbK; case: ifP => [hz|/negbT].
  exists [:: 0], [:: 1]; split; rewrite /= ?oner_neq0 // => L f s _ _; rewrite !pev1 rmorph1 rmorph0 oner_neq0 mul0r; split=> //.
  by case/orP: hz => /eqP z; rewrite (pev0 f s z) ?mul0r ?mulr0.
rewrite negb_or => /andP[z0 z1]; have [n -> [en hn]] := polymul2 z0 z1.
have [d -> [ed hd]] := polymul2 (head_polyhi h0) (head_polyhi h1).
exists n, d; split=> // L f s D0 D1; rewrite (pev_mul f s en) (pev_mul f s ed); split; first by rewrite mulf_neq0.
by rewrite mulf_div.
Qed.

(* the product, entrywise, a SISO factor broadcasts *)
Definition bshape G H := if tSISO G then tshape H else tshape G.

Lemma tf_mulTP G H K : wfT G -> wfT H -> (tgain G -> tSISO G -> ent (td G) 0 0 = [:: 1]) ->
  tf_mulT lcmf eps G H = Ok K ->
  [/\ wfT K, tshape K = bshape G H & tdt K = tdt G] /\
  forall (L : fieldType) (f : {rmorphism R -> L}) s i j, (i < (bshape G H).1)%N -> (j < (bshape G H).2)%N ->
    dfT f G s (bsiso G i) (bsiso G j) -> dfT f H s (bsiso H i) (bsiso H j) ->
    dfT f K s i j /\ evT f K s i j = evT f G s (bsiso G i) (bsiso G j) * evT f H s (bsiso H i) (bsiso H j).
Proof.
move=> wG wH hg; rewrite /tf_mulT; case: ifP => // /eqP edt.
case: (wfTP wG) => -[hp hm rN rD] hd _ egG _; case: (wfTP wH) => -[hpH hmH rNH rDH] hdH _ _ _.
have shG : tshape G = (tp G, tm G) by rewrite /tp /tm; case: (tshape G).
have shH : tshape H = (tp H, tm H) by rewrite /tp /tm; case: (tshape H).
case: ifP => gG.
  case: ifP => sG h.
    move: h; case: ifP => // s1 h; have [[w1 w2 w3] hv] := tf_scaleP wH h.
    rewrite /bshape sG; split=> [|L f s i j hi hj]; first by rewrite w3 edt.
    rewrite /bsiso sG => dG dH; have hi0 : (bsiso H i < tp H)%N.
      by rewrite /bsiso; case: ifP.
    have hj0 : (bsiso H j < tm H)%N by rewrite /bsiso; case: ifP.
    have [] := hv L f s i j hi hj _; last move=> d1 ->.
      move: dH; case: ifP => // sH; move: hi hj; move: sH; rewrite (wfT_siso wH) /tp /tm => /andP[/eqP-> /eqP->].
      by case: i {hi0} => // _; case: j {hj0}.
    split=> //; have -> : evT f G s 0 0 = f (head 0 (ent (tn G) 0 0)).
      rewrite /evT hg // pev1 rmorph1 divr1; case: (ent (tn G) 0 0) s1 => [|x [|]] //= _; exact: pev1.
    congr (_ * _); case: ifP => // sH; move: hi hj; move: sH; rewrite (wfT_siso wH) /tp /tm => /andP[/eqP-> /eqP->].
    by case: i {hi0 d1 dH} => // _; case: j {hj0}.
  have [M EM {}h] := bindOk h; have EM' : tf_array G = Ok M by rewrite /tf_array gG.
  have [m1 m2 wM hM] := tf_arrayP wG EM'.
  have a1 : asize M != 1%N.
    move: sG; rewrite (wfT_siso wG) /asize m1 m2 => /negbT; rewrite negb_and muln_eq1.
    by case/orP => /negbTE->; rewrite ?andbF.
  have [|||[w1 w2 w3] hv] := tf_mul_arrP wH _ _ h; rewrite ?m1 ?m2 //; first by left.
  rewrite /bshape sG shG w2 /shp m1 m2; split=> [|L f s i j hi hj]; first by rewrite w3 edt.
  rewrite /bsiso sG => dG dH; have [] := hv L f s i j; rewrite ?m1 ?m2 // => d1 ->; split=> //.
  by rewrite mulrC (hM L f s i j hi hj).
case: ifP => [/andP[sG sH]|nb].
  have [p1 m1] : tp G = 1%N /\ tm G = 1%N by move: sG; rewrite (wfT_siso wG) => /andP[/eqP-> /eqP->].
  have [p2 m2] : tp H = 1%N /\ tm H = 1%N by move: sH; rewrite (wfT_siso wH) => /andP[/eqP-> /eqP->].
  have h00 : head 0 (ent (td G) 0 0) != 0 by apply: hd; rewrite ?p1 ?m1.
  have h01 : head 0 (ent (td H) 0 0) != 0 by apply: hdH; rewrite ?p2 ?m2.
  have [n [d [E hd0 hv]]] := mul_entryP (ent (tn G) 0 0) (ent (tn H) 0 0) h00 h01.
  move=> h; have {}h : mk_tf (trow n) (trow d) (tdt G) = Ok K.
    move: E h; rewrite /mul_entry; case: ifP => _; first by case=> <- <-.
    move=> E h; have [n' En {}E] := bindOk E; have [d' Ed [e1 e2]] := bindOk E.
    by move: h; rewrite En Ed /= e1 e2.
  have [|w1 w2 w3 w4 w5] := mk_tf_wf (ltn0Sn 0) (ltn0Sn 0) (argis_trow _) (argis_trow _) _ h; first by move=> [|i] [|j].
  rewrite /bshape sG shH p2 m2 w2; split=> // L f s [|i] [|j] // _ _; rewrite /bsiso sG sH => dG dH.
  by have := hv L f s dG dH; rewrite /dfT /evT w3 w4.
case: ifP => // hsh; case E: (if tSISO G then tshape H else tshape G) => [p m] h.
have eb : bshape G H = (p, m) by [].
have [es Ees {}h] := bindOk h; have [re hes] := gridR_ok ([::], [::]) Ees.
have hp0 : (0 < p)%N by move: E; case: ifP => _; rewrite ?shG ?shH => -[<- _].
have hm0 : (0 < m)%N by move: E; case: ifP => _; rewrite ?shG ?shH => -[_ <-].
have inG i j : (i < p)%N -> (j < m)%N -> (bsiso G i < tp G)%N /\ (bsiso G j < tm G)%N.
  by rewrite /bsiso; move: E; case: ifP => _ //; rewrite shG => -[-> ->].
have inH i j : (i < p)%N -> (j < m)%N -> (bsiso H i < tp H)%N /\ (bsiso H j < tm H)%N.
  rewrite /bsiso; move: E hsh; case: ifP => [sG|sG]; case: ifP => [sH|sH] //=; rewrite ?shG ?shH => -[e1 e2] //.
    by rewrite e1 e2.
  by case/eqP=> e3 e4; rewrite -e3 -e4 e1 e2.
have bG M i j : (if tSISO G then ent M 0 0 else ent M i j) = ent M (bsiso G i) (bsiso G j) by rewrite /bsiso; case: ifP.
have bH M i j : (if tSISO H then ent M 0 0 else ent M i j) = ent M (bsiso H i) (bsiso H j) by rewrite /bsiso; case: ifP.
set N := [seq [seq e.1 | e <- r] | r <- es] in h; set D := [seq [seq e.2 | e <- r] | r <- es] in h.
have rN' : rect p m N by exact: rect_map.
have rD' : rect p m D by exact: rect_map.
have hee i j : (i < p)%N -> (j < m)%N -> head 0 (ent D i j) != 0 /\ forall (L : fieldType) (f : {rmorphism R -> L}) (s : L),
   dfT f G s (bsiso G i) (bsiso G j) -> dfT f H s (bsiso H i) (bsiso H j) -> pev f (ent D i j) s != 0 /\
   pev f (ent N i j) s / pev f (ent D i j) s = evT f G s (bsiso G i) (bsiso G j) * evT f H s (bsiso H i) (bsiso H j).
  move=> hi hj; have [g1 g2] := inG i j hi hj; have [g3 g4] := inH i j hi hj.
  have hG0 := hd _ _ g1 g2; have hH0 := hdH _ _ g3 g4.
  have := hes i j hi hj; rewrite !bG !bH !entE /N /D !(gnt_map ([::], [::]) [::] _ re hi hj).
  case: ifP => _.
    have [n [d [-> hd0 hv]]] := mul_entryP (ent (tn H) (bsiso H i) (bsiso H j)) (ent (tn G) (bsiso G i) (bsiso G j)) hH0 hG0.
    by case=> <-; split=> // L f s d1 d2; rewrite [RHS]mulrC; exact: (hv L f s d2 d1).
  have [n [d [-> hd0 hv]]] := mul_entryP (ent (tn G) (bsiso G i) (bsiso G j)) (ent (tn H) (bsiso H i) (bsiso H j)) hG0 hH0.
  by case=> <-; split=> // L f s d1 d2; exact: (hv L f s d1 d2).
have [w1 w2 w3 w4 w5] := mk_tf_wf hp0 hm0 (argis_TLL hp0 rN') (argis_TLL hp0 rD') (fun i j hi hj => (hee i j hi hj).1) h.
rewrite eb w2; split=> // L f s i j hi hj d1 d2; have [_ /(_ L f s d1 d2)] := hee i j hi hj.
by rewrite /dfT /evT w3 w4.
Qed.

(* ------------------------------------------------------------------ *)
Lemma tf_getijP G i j K : wfT G -> tf_getij lcmf eps G i j = Ok K ->
  [/\ (i < tp G)%N, (j < tm G)%N, wfT K, tshape K = (1, 1)%N & tdt K = tdt G] /\
  ent (tn K) 0 0 = ent (tn G) i j /\ ent (td K) 0 0 = ent (td G) i j.
Proof.
move=> w; case: (wfTP w) => -[hp hm rN rD] hd _ _ _; rewrite /tf_getij; case: ifP => // /andP[hi hj].
have shG : tshape G = (tp G, tm G) by rewrite /tp /tm; case: (tshape G).
case: ifP => sG h.
  case: h => <-; move: sG hi hj; rewrite (wfT_siso w) => /andP[/eqP e1 /eqP e2].
  by rewrite shG e1 e2; case: i => // _; case: j.
have [|w1 w2 w3 w4 w5] := mk_tf_wf (ltn0Sn 0) (ltn0Sn 0) (argis_trow _) (argis_trow _) _ h.
  by move=> [|i'] [|j'] // _ _; exact: hd.
by rewrite w3 w4.
Qed.

Lemma tf_getitemP G rs cs K : wfT G -> tf_getitem lcmf eps G rs cs = Ok K ->
  (tSISO G -> size rs = 1%N /\ size cs = 1%N) ->
  [/\ wfT K, tshape K = (size rs, size cs) & tdt K = tdt G] /\
  forall (L : fieldType) (f : {rmorphism R -> L}) s i j, (i < size rs)%N -> (j < size cs)%N ->
    dfT f K s i j = dfT f G s (nth 0%N rs i) (nth 0%N cs j) /\
    evT f K s i j = evT f G s (nth 0%N rs i) (nth 0%N cs j).
Proof.
move=> w; case: (wfTP w) => -[hp hm rN rD] hd _ _ _; rewrite /tf_getitem; case: ifP => // /andP[/andP[/andP[hr hc] r0] c0].
have shG : tshape G = (tp G, tm G) by rewrite /tp /tm; case: (tshape G).
case: ifP => sG h hs.
  case: h => <-; have [e3 e4] := hs isT; clear hs; move: sG hr hc; rewrite (wfT_siso w) => /andP[/eqP e1 /eqP e2].
  rewrite shG e1 e2 e3 e4; case: rs r0 e3 => [|r [|]] // _ _ /= /andP[hr _]; case: cs c0 e4 => [|c [|]] // _ _ /= /andP[hc _].
  split=> // L f s [|i] [|j] // _ _ /=; by case: r hr => // _; case: c hc.
have hr1 : (0 < size rs)%N by rewrite lt0n size_eq0.
have hc1 : (0 < size cs)%N by rewrite lt0n size_eq0.
have [|w1 w2 w3 w4 w5] := mk_tf_wf hr1 hc1 (argis_grid_TLL _ _ hr1) (argis_grid_TLL _ _ hr1) _ h.
  move=> i j hi hj; rewrite ent_grid //; apply: hd; [exact: (all_nthP 0%N hr)|exact: (all_nthP 0%N hc)].
rewrite w2; split=> // L f s i j hi hj; by rewrite /dfT /evT w3 w4 !ent_grid.
Qed.

Lemma tf_rtruedivP G K : wfT G -> tSISO G -> head 0 (ent (tn G) 0 0) != 0 -> tf_rtruediv_siso lcmf eps G (PScal 1) = Ok K ->
  [/\ wfT K, tshape K = (1, 1)%N & tdt K = tdt G] /\
  forall (L : fieldType) (f : {rmorphism R -> L}) s, pev f (ent (tn G) 0 0) s != 0 ->
    dfT f K s 0 0 /\ evT f K s 0 0 = (evT f G s 0 0)^-1.
Proof.
move=> w sG h0; rewrite /tf_rtruediv_siso; case: ifP => // _ h; have [H EH {}h] := bindOk h.
have [|w1 w2 w3 w4 w5] := mk_tf_wf (ltn0Sn 0) (ltn0Sn 0) (argis_trow _) (argis_trow _) _ EH.
  by move=> [|i] [|j].
have [[v1 v2 v3] hv] := tf_scaleP w1 h; rewrite v2 w2; split=> [|L f s d]; first by rewrite v3.
have [|||a ->] := hv L f s 0%N 0%N; rewrite /tp /tm ?w2 //; first by rewrite /dfT w4.
by rewrite rmorph1 mul1r; split=> //; rewrite /evT w3 w4 /ent /= invf_div.
Qed.

(* ------------------------------------------------------------------ *)
Lemma in_range0 a c : (a <= a < a + c.+1)%N.
Proof. by rewrite leqnn addnS ltnS leq_addr. Qed.

Lemma tf_sumP (h : nat -> res (tf R)) cnt acc ind t : lcm_okf -> wfT acc -> tshape acc = (1, 1)%N ->
  (forall k x, (ind <= k < ind + cnt)%N -> h k = Ok x -> [/\ wfT x, tshape x = (1, 1)%N & tdt x = tdt acc]) ->
  tf_sum lcmf eps acc h ind cnt = Ok t ->
  [/\ wfT t, tshape t = (1, 1)%N & tdt t = tdt acc] /\
  forall (L : fieldType) (f : {rmorphism R -> L}) s (v : nat -> L), dfT f acc s 0 0 ->
    (forall k x, (ind <= k < ind + cnt)%N -> h k = Ok x -> dfT f x s 0 0 /\ evT f x s 0 0 = v k) ->
    dfT f t s 0 0 /\ evT f t s 0 0 = evT f acc s 0 0 + \sum_(k < cnt) v (ind + k)%N.
Proof.
move=> hl; elim: cnt acc ind => [|c IH] acc ind wa sa hx /=.
  by case=> <-; split=> // L f s v d _; rewrite big_ord0 addr0.
move=> E; have [x Ex {}E] := bindOk E; have [acc' Ea {}E] := bindOk E.
have [wx sx dx] : [/\ wfT x, tshape x = (1, 1)%N & tdt x = tdt acc] by apply: hx Ex; exact: in_range0.
have [|[w1 w2 w3] hv] := tf_addTP hl wa wx _ Ea; first by rewrite sa sx.
have hin k : (ind.+1 <= k < ind.+1 + c)%N -> (ind <= k < ind + c.+1)%N.
  by rewrite addnS addSn => /andP[/ltnW -> ->].
have [||[v1 v2 v3] hv'] := IH acc' ind.+1 w1 _ _ E; rewrite ?w2 //.
  by move=> k y hk Ey; rewrite w3; exact: (hx k y (hin k hk) Ey).
split=> [|L f s v da hk]; first by rewrite v3.
have [dx' ex] := hk ind x (in_range0 _ _) Ex.
have [||da' ea] := hv L f s 0%N 0%N _ _ da dx'; rewrite /tp /tm ?sa //.
have [|dt' ->] := hv' L f s v da' _; first by move=> k y hkk; exact: hk (hin k hkk).
split=> //; rewrite ea ex big_ord_recl addn0 -!addrA; congr (_ + (_ + _)).
by apply: eq_bigr => k _; rewrite /bump /= addnA addn1 addSn.
Qed.


Lemma mk_zero dt t0 : mk_tf (TNum 0) (TNum 1) dt = Ok t0 -> [/\ wfT t0, tshape t0 = (1, 1)%N, tdt t0 = dt &
  forall (L : fieldType) (f : {rmorphism R -> L}) s, dfT f t0 s 0 0 /\ evT f t0 s 0 0 = 0].
Proof.
move=> h; have [|w1 w2 w3 w4 w5] := mk_tf_wf (ltn0Sn 0) (ltn0Sn 0) (argis_num _) (argis_num _) _ h.
  by move=> [|i] [|j] // _ _; rewrite /ent /= oner_neq0.
by split=> // L f s; rewrite /dfT /evT w3 w4 /ent /= !pev1 rmorph1 rmorph0 mul0r oner_neq0.
Qed.

(* the loops of the matrix product *)
Lemma tf_mmP p m q (h : nat -> nat -> nat -> res (tf R)) dt K : lcm_okf -> (0 < p)%N -> (0 < m)%N ->
  (forall i j k x, (i < p)%N -> (j < m)%N -> (k < q)%N -> h i j k = Ok x -> [/\ wfT x, tshape x = (1, 1)%N & tdt x = dt]) ->
  tf_mm lcmf eps p m q h dt = Ok K ->
  [/\ wfT K, tshape K = (p, m) & tdt K = dt] /\
  forall (L : fieldType) (f : {rmorphism R -> L}) s i j (v : nat -> L), (i < p)%N -> (j < m)%N ->
    (forall k x, (k < q)%N -> h i j k = Ok x -> dfT f x s 0 0 /\ evT f x s 0 0 = v k) ->
    dfT f K s i j /\ evT f K s i j = \sum_(k < q) v k.
Proof.
move=> hl hp hm hx; rewrite /tf_mm => E; have [es Ees {}E] := bindOk E.
have [t0 Et0] : exists t0, mk_tf (TNum 0) (TNum 1) dt = Ok t0.
  have [_ /(_ 0%N 0%N hp hm)] := gridR_ok (Tf [::] [::] false None) Ees.
  by case: (mk_tf _ _ _) => [t0 _|] //; exists t0.
have [t1 t2 t3 t4] := mk_zero Et0.
have [re hes] := gridR_ok t0 Ees.
set N := [seq [seq ent (tn t) 0 0 | t <- r] | r <- es] in E; set D := [seq [seq ent (td t) 0 0 | t <- r] | r <- es] in E.
have rN' : rect p m N by exact: rect_map.
have rD' : rect p m D by exact: rect_map.
have hee i j : (i < p)%N -> (j < m)%N ->
    head 0 (ent D i j) != 0 /\ forall (L : fieldType) (f : {rmorphism R -> L}) (s : L) (v : nat -> L),
    (forall k x, (k < q)%N -> h i j k = Ok x -> dfT f x s 0 0 /\ evT f x s 0 0 = v k) ->
    pev f (ent D i j) s != 0 /\ pev f (ent N i j) s / pev f (ent D i j) s = \sum_(k < q) v k.
  move=> hi hj; have := hes i j hi hj; rewrite !entE /N /D !(gnt_map t0 [::] _ re hi hj) Et0 /= => Es.
  set t := gnt t0 es i j in Es *.
  have [|[w1 w2 w3] hv] := tf_sumP hl t1 t2 _ Es.
    by move=> k x hk Ex; rewrite t3; exact: (hx i j k x hi hj hk Ex).
  split=> [|L f s v hk].
    by case: (wfTP w1) => _ + _ _ _; apply; rewrite /tp /tm w2.
  have [|d1] := hv L f s v (t4 L f s).1; first by move=> k x; exact: hk.
  by rewrite (t4 L f s).2 add0r /evT => ->.
have [w1 w2 w3 w4 w5] := mk_tf_wf hp hm (argis_pm hp rN') (argis_pm hp rD') (fun i j hi hj => (hee i j hi hj).1) E.
split=> // L f s i j v hi hj hk; have [_ /(_ L f s v hk)] := hee i j hi hj.
by rewrite /dfT /evT w3 w4.
Qed.

(* constant denominators are one *)
Definition unitc (G : tf R) : Prop := forall i j, (i < tp G)%N -> (j < tm G)%N ->
  size (ent (td G) i j) = 1%N -> ent (td G) i j = [:: 1].

Lemma siso_gain_size G : wfT G -> tSISO G -> tgain G -> size (ent (td G) 0 0) = 1%N.
Proof.
move=> w; rewrite (wfT_siso w) => /andP[/eqP e1 /eqP e2]; case: (wfTP w) => _ _ _ -> _.
by move/all2P => /(_ 0%N 0%N); rewrite e1 e2 => /(_ isT isT) /eqP.
Qed.

Lemma siso_idx G : wfT G -> tSISO G -> tp G = 1%N /\ tm G = 1%N.
Proof. by move=> w; rewrite (wfT_siso w) => /andP[/eqP-> /eqP->]. Qed.

Lemma tf_matmulP G H K : lcm_okf -> wfT G -> wfT H -> tm G = tp H -> unitc G ->
  tf_matmul lcmf eps G (PTf H) = Ok K ->
  [/\ wfT K, tshape K = (tp G, tm H) & tdt K = tdt G] /\
  forall (L : fieldType) (f : {rmorphism R -> L}) s i j, (i < tp G)%N -> (j < tm H)%N ->
    (forall k, (k < tm G)%N -> dfT f G s i k /\ dfT f H s k j) ->
    dfT f K s i j /\ evT f K s i j = \sum_(k < tm G) evT f G s i k * evT f H s k j.
Proof.
move=> hl wG wH ec hu; rewrite /tf_matmul.
have shG : tshape G = (tp G, tm G) by rewrite /tp /tm; case: (tshape G).
have shH : tshape H = (tp H, tm H) by rewrite /tp /tm; case: (tshape H).
have main : tf_mulT lcmf eps G H = Ok K -> tSISO G || tSISO H ->
  [/\ wfT K, tshape K = (tp G, tm H) & tdt K = tdt G] /\
  forall (L : fieldType) (f : {rmorphism R -> L}) s i j, (i < tp G)%N -> (j < tm H)%N ->
    (forall k, (k < tm G)%N -> dfT f G s i k /\ dfT f H s k j) ->
    dfT f K s i j /\ evT f K s i j = \sum_(k < tm G) evT f G s i k * evT f H s k j.
  move=> h hs; have [gG sG|[w1 w2 w3] hv] := tf_mulTP wG wH _ h.
    by have [e1 e2] := siso_idx wG sG; apply: hu; rewrite ?e1 ?e2 //; exact: siso_gain_size.
  have k1 : tm G = 1%N by case/orP: hs => s1; [case: (siso_idx wG s1)|rewrite ec; case: (siso_idx wH s1)].
  have eb : bshape G H = (tp G, tm H).
    rewrite /bshape; case: ifP => s1; first by rewrite shH -ec k1 (siso_idx wG s1).1.
    by move: hs; rewrite s1 /= => s2; rewrite shG k1 (siso_idx wH s2).2.
  rewrite w2 eb; split=> // L f s i j hi hj hd; rewrite k1 big_ord1.
  have [d1 d2] : dfT f G s i 0 /\ dfT f H s 0 j by apply: hd; rewrite k1.
  have iG : bsiso G i = i /\ bsiso G j = 0%N.
    rewrite /bsiso; case: ifP hi hj => s1; first by rewrite (siso_idx wG s1).1; case: (i).
    by move: hs; rewrite s1 /= => s2; rewrite (siso_idx wH s2).2 => _; case: (j).
  have iH : bsiso H i = 0%N /\ bsiso H j = j.
    rewrite /bsiso; case: ifP hi hj => s1; first by rewrite (siso_idx wH s1).2; case: (j).
    by move: hs; rewrite s1 orbF => s2; rewrite (siso_idx wG s2).1; case: (i).
  case: iG iH => e1 e2 [e3 e4].
  by have := hv L f s i j; rewrite eb e1 e2 e3 e4; exact.
case: (boolP (tSISO G)) => [sG h|sG]; first by apply: main => //; rewrite sG.
case: ifP => // /eqP edt; case: (boolP (tSISO H)) => [sH h|sH]; first by apply: main => //; rewrite sH orbT.
rewrite ec eqxx; case: (wfTP wG) => -[hp hm _ _] _ _ _ _; case: (wfTP wH) => -[hpH hmH _ _] _ _ _ _.
pose h i j k := do g <- tf_getij lcmf eps G i k; do h <- tf_getij lcmf eps H k j; tf_mulT lcmf eps g h.
have hx i j k x : (i < tp G)%N -> (j < tm H)%N -> (k < tm G)%N -> h i j k = Ok x ->
    [/\ wfT x, tshape x = (1, 1)%N & tdt x = tdt G] /\ forall (L : fieldType) (f : {rmorphism R -> L}) s,
    dfT f G s i k -> dfT f H s k j -> dfT f x s 0 0 /\ evT f x s 0 0 = evT f G s i k * evT f H s k j.
  move=> hi hj hk E; have [g Eg {}E] := bindOk E; have [h' Eh {}E] := bindOk E.
  have [[_ _ g1 g2 g3] [g4 g5]] := tf_getijP wG Eg; have [[_ _ h1 h2 h3] [h4 h5]] := tf_getijP wH Eh.
  have sg : tSISO g by rewrite (wfT_siso g1) /tp /tm g2.
  have sh : tSISO h' by rewrite (wfT_siso h1) /tp /tm h2.
  have [|[w1 w2 w3] hv] := tf_mulTP g1 h1 _ E.
    by move=> gg _; have := siso_gain_size g1 sg gg; rewrite g5; exact: hu.
  have eb : bshape g h' = (1, 1)%N by rewrite /bshape sg h2.
  rewrite w2 eb w3; split=> // L f s dG dH.
  have := hv L f s 0%N 0%N; rewrite eb /bsiso sg sh /dfT /evT g4 g5 h4 h5; exact.
case: ifP => [/andP[/eqP e1 /eqP e2] E|_ E].
  have [t0 Et0 {}E] := bindOk E; have [t1 t2 t3 t4] := mk_zero Et0.
  have [|[w1 w2 w3] hv] := tf_sumP hl t1 t2 _ E.
    by move=> k x hk Ex; rewrite t3; case: (hx 0%N 0%N k x _ _ _ Ex); rewrite ?e1 ?e2 ?ec.
  rewrite w2 w3 e1 e2; split=> // L f s [|i] [|j] // _ _ hd.
  have [|d1 ->] := hv L f s (fun k => evT f G s 0 k * evT f H s k 0) (t4 L f s).1.
    move=> k x hk Ex; have [d1 d2] := hd k hk.
    by have [||| _ /(_ L f s d1 d2)] := hx 0%N 0%N k x _ _ _ Ex; rewrite ?e1 ?e2 ?ec.
  by rewrite (t4 L f s).2 add0r.
rewrite -ec in E; have [|[w1 w2 w3] hv] := tf_mmP hl hp hmH _ E.
  by move=> i j k x hi hj hk Ex; case: (hx i j k x hi hj hk Ex).
rewrite -ec; split=> // L f s i j hi hj hd; apply: (hv L f s i j (fun k => evT f G s i k * evT f H s k j) hi hj) => k x hk Ex.
by have [d1 d2] := hd k hk; have [_ /(_ L f s d1 d2)] := hx i j k x hi hj hk Ex.
Qed.

Lemma shp_asize1 (A : arr R) : asize A = 1%N -> nr A = 1%N /\ nc A = 1%N.
Proof. by rewrite /asize => /eqP; rewrite muln_eq1 => /andP[/eqP-> /eqP->]. Qed.

(* model @ array *)
Lemma tf_matmul_arrP G A K : lcm_okf -> wfT G -> tm G = nr A -> (0 < nc A)%N ->
  tf_matmul lcmf eps G (PArr2 A) = Ok K ->
  [/\ wfT K, tshape K = (tp G, nc A) & tdt K = tdt G] /\
  forall (L : fieldType) (f : {rmorphism R -> L}) s i j, (i < tp G)%N -> (j < nc A)%N ->
    (forall k, (k < tm G)%N -> dfT f G s i k) ->
    dfT f K s i j /\ evT f K s i j = \sum_(k < tm G) evT f G s i k * f (get A k j).
Proof.
move=> hl wG ec hc; case: (wfTP wG) => -[hp hm _ _] _ _ _ _.
have shG : tshape G = (tp G, tm G) by rewrite /tp /tm; case: (tshape G).
rewrite /tf_matmul; case: ifP => sG.
  have [e1 e2] := siso_idx wG sG; rewrite /tf_mul => h.
  have [|[w1 w2 w3] hv] := tf_mul_arrP wG _ hc h (or_intror sG); first by rewrite -ec e2.
  rewrite w2 /shp -ec e1 e2; split=> // L f s [|i] j // _ hj hd; rewrite big_ord1.
  by have := hv L f s 0%N j; rewrite -ec e2 /bsiso sG; apply=> //; apply: hd.
case: ifP => [/eqP a1 h|a1].
  have [r1 c1] := shp_asize1 a1; have [[w1 w2 w3] hv] := tf_scaleP wG h.
  rewrite w2 shG ec r1 c1; split=> // L f s i [|j] // hi _ hd; rewrite big_ord1 mulrC.
  by apply: hv => //; rewrite ?ec ?r1 //; apply: hd.
rewrite ec eqxx; case: ifP => gG h.
  have [a Ea {}h] := bindOk h; have [a1' a2 wa hv] := tf_arrayP wG Ea.
  have [||w1 w2 w3 w4 w5] := mk_tf_arr _ _ h; rewrite ?nr_mk ?nc_mk ?a1' //.
  rewrite w2 /amul nr_mk nc_mk a1'; split=> // L f s i j hi hj hd.
  have hg : tgain K.
    case: (wfTP w1) => _ _ _ -> _; apply/all2P => i' j'; rewrite /tp /tm w2 nr_mk nc_mk w4 => hi' hj'.
    by rewrite ent_grid // ?nr_mk ?nc_mk.
  split; first by apply: gain_df => //; rewrite /tp /tm w2 nr_mk nc_mk ?a1'.
  rewrite /evT w3 w4 !ent_grid ?nr_mk ?nc_mk ?a1' // !pev1 rmorph1 divr1 get_mk ?a1' // sumNE rmorph_sum a2 ec.
  by apply: eq_bigr => k _; rewrite rmorphM -[_ / _]/(evT f G s i k) (hv L f s i k hi) // ec.
rewrite -ec in h; have hx i j k x : (i < tp G)%N -> (k < tm G)%N -> (do g <- tf_getij lcmf eps G i k; tf_scale lcmf eps g (get A k j)) = Ok x ->
    [/\ wfT x, tshape x = (1, 1)%N & tdt x = tdt G] /\ forall (L : fieldType) (f : {rmorphism R -> L}) s,
    dfT f G s i k -> dfT f x s 0 0 /\ evT f x s 0 0 = evT f G s i k * f (get A k j).
  move=> hi hk E; have [g Eg {}E] := bindOk E.
  have [[_ _ g1 g2 g3] [g4 g5]] := tf_getijP wG Eg; have [[w1 w2 w3] hv] := tf_scaleP g1 E.
  rewrite w2 w3; split=> // L f s d; rewrite mulrC.
  by have := hv L f s 0%N 0%N; rewrite /tp /tm g2 /dfT /evT g4 g5; exact.
have [|[w1 w2 w3] hv] := tf_mmP hl hp hc _ h.
  by move=> i j k x hi hj hk Ex; case: (hx i j k x hi hk Ex).
rewrite -ec; split=> // L f s i j hi hj hd; apply: (hv L f s i j (fun k => evT f G s i k * f (get A k j)) hi hj) => k x hk Ex.
by have [_ /(_ L f s (hd k hk))] := hx i j k x hi hk Ex.
Qed.

(* ------------------------------------------------------------------ *)
(* model + number, model + array *)
Lemma mk_gain_ev (A : arr R) p m a dt H : (0 < p)%N -> (0 < m)%N -> nr A = p -> nc A = m ->
  a = TArr A \/ a = tolist A -> mk_tf a TNone dt = Ok H ->
  [/\ wfT H, tshape H = (p, m) & tdt H = dt] /\
  forall (L : fieldType) (f : {rmorphism R -> L}) s i j, (i < p)%N -> (j < m)%N ->
    dfT f H s i j /\ evT f H s i j = f (get A i j).
Proof.
move=> hp hm e1 e2 ha h; rewrite -e1 -e2 in hp hm *.
have [w1 w2 w3 w4 w5] : [/\ wfT H, tshape H = (nr A, nc A), tn H = grid (nr A) (nc A) (fun i j => [:: get A i j]),
      td H = grid (nr A) (nc A) (fun _ _ => [:: 1]) & tdt H = dt].
  case: ha h => -> h; first exact: mk_tf_arr.
  exact: (mk_tf_none hp hm (tolist_argis hp) h).
split=> // L f s i j hi hj; rewrite /dfT /evT w3 w4 !ent_grid // !pev1 rmorph1 divr1; split=> //.
exact: oner_neq0.
Qed.

Lemma tf_add_scalP G x K : lcm_okf -> wfT G -> tf_add lcmf eps G (PScal x) = Ok K ->
  [/\ wfT K, tshape K = tshape G & tdt K = tdt G] /\
  forall (L : fieldType) (f : {rmorphism R -> L}) s i j, (i < tp G)%N -> (j < tm G)%N -> dfT f G s i j ->
    dfT f K s i j /\ evT f K s i j = evT f G s i j + f x.
Proof.
move=> hl wG; case: (wfTP wG) => -[hp hm _ _] _ _ _ _.
have shG : tshape G = (tp G, tm G) by rewrite /tp /tm; case: (tshape G).
rewrite /tf_add /tf_add_num; case: ifP => gG h.
  have [a Ea {}h] := bindOk h; have [a1 a2 wa hv] := tf_arrayP wG Ea.
  have [||[w1 w2 w3] hv'] := mk_gain_ev hp hm _ _ (or_introl erefl) h; rewrite ?nr_mk ?nc_mk //.
  rewrite w2 shG; split=> // L f s i j hi hj d; have [d1 ->] := hv' L f s i j hi hj.
  by rewrite get_mk ?a1 ?a2 // rmorphD (hv L f s i j hi hj).
have fin H : mk_tf (if tSISO G then TNum x else TArr (mk (tp G) (tm G) (fun _ _ => x))) TNone (tdt G) = Ok H ->
   [/\ wfT H, tshape H = (tp G, tm G) & tdt H = tdt G] /\
  forall (L : fieldType) (f : {rmorphism R -> L}) s i j, (i < tp G)%N -> (j < tm G)%N ->
    dfT f H s i j /\ evT f H s i j = f x.
  case: ifP => sG E.
    have [e1 e2] := siso_idx wG sG; rewrite e1 e2.
    have [w1 w2 w3 w4 w5] := mk_tf_none (ltn0Sn 0) (ltn0Sn 0) (argis_num _) E.
    split=> // L f s [|i] [|j] // _ _; rewrite /dfT /evT w3 w4 /ent /= !pev1 rmorph1 divr1; split=> //; exact: oner_neq0.
  have [||[w1 w2 w3] hv'] := mk_gain_ev hp hm _ _ (or_introl erefl) E; rewrite ?nr_mk ?nc_mk //.
  by split=> // L f s i j hi hj; have [d1 ->] := hv' L f s i j hi hj; rewrite get_mk.
have [H EH {}h] : exists2 H, mk_tf (if tSISO G then TNum x else TArr (mk (tp G) (tm G) (fun _ _ => x))) TNone (tdt G) = Ok H & tf_addT lcmf eps G H = Ok K.
  by move: h; case: ifP => sG h; have [H EH {}h] := bindOk h; exists H.
have [[v1 v2 v3] hv] := fin H EH.
have [|[w1 w2 w3] hw] := tf_addTP hl wG v1 _ h; first by rewrite shG v2.
split=> // L f s i j hi hj d; have [d1 e1] := hv L f s i j hi hj; rewrite -e1; exact: hw.
Qed.

Lemma tf_add_arrP G A K : lcm_okf -> wfT G -> (0 < nr A)%N -> (0 < nc A)%N -> tSISO G || (tshape G == shp A) ->
  tf_add lcmf eps G (PArr2 A) = Ok K ->
  [/\ wfT K, tshape K = shp A & tdt K = tdt G] /\
  forall (L : fieldType) (f : {rmorphism R -> L}) s i j, (i < nr A)%N -> (j < nc A)%N ->
    dfT f G s (bsiso G i) (bsiso G j) ->
    dfT f K s i j /\ evT f K s i j = evT f G s (bsiso G i) (bsiso G j) + f (get A i j).
Proof.
move=> hl wG hr hc hsh; case: (wfTP wG) => -[hp hm _ _] _ _ _ _.
have shG : tshape G = (tp G, tm G) by rewrite /tp /tm; case: (tshape G).
have hin i j : (i < nr A)%N -> (j < nc A)%N -> (bsiso G i < tp G)%N /\ (bsiso G j < tm G)%N.
  rewrite /bsiso; case: ifP hsh => sG /=; first by have [-> ->] := siso_idx wG sG.
  by rewrite shG => /eqP[-> ->].
rewrite /tf_add /tf_add_num; case: ifP => gG h.
  have [a Ea {}h] := bindOk h; have [a1 a2 wa hv] := tf_arrayP wG Ea; have [M EM {}h] := bindOk h.
  have [_ b1 b2 gM] := np_op2_ok EM; rewrite a1 a2 in b1 b2 gM.
  have [e1 e2] : nr M = nr A /\ nc M = nc A.
    move: b1 b2; case/orP: hsh => [sG|]; last by rewrite shG => /eqP[<- <-]; rewrite /bdim !eqxx => -[->] [->].
    have [-> ->] := siso_idx wG sG; have b1 n : bdim 1 n = Some n by rewrite /bdim; case: eqP => // <-.
    by rewrite !b1 => -[->] [->].
  have [w1 w2] := mk_gain_ev hr hc e1 e2 (or_introl erefl) h; split=> // L f s i j hi hj d.
  have [d1 ->] := w2 L f s i j hi hj; split=> //; have [i1 i2] := hin i j hi hj.
  rewrite gM ?e1 ?e2 // rmorphD (hv L f s _ _ i1 i2) /bsiso; congr (f (get a _ _) + f (get A _ _)); rewrite /bidx.
  - by move: i1; rewrite /bsiso; case: (boolP (tSISO G)) => sG; [have [-> _] := siso_idx wG sG|case: eqP => // ->; case: (i)].
  - by move: i2; rewrite /bsiso; case: (boolP (tSISO G)) => sG; [have [_ ->] := siso_idx wG sG|case: eqP => // ->; case: (j)].
  - by case: eqP hi => // ->; case: (i).
  - by case: eqP hj => // ->; case: (j).
case: ifP h => sG h.
  have [G' EG {}h] := bindOk h; have [H EH {}h] := bindOk h.
  have [||[w1 w2 w3] hw] := tf_mul_arrP wG _ _ EG (or_intror sG); rewrite ?nr_mk ?nc_mk //.
  rewrite /shp nr_mk nc_mk in w2 hw; have [[v1 v2 v3] hv] := mk_gain_ev hr hc erefl erefl (or_intror erefl) EH.
  have [|[k1 k2 k3] hk] := tf_addTP hl w1 v1 _ h; first by rewrite w2 v2.
  rewrite k2 w2 k3 w3; split=> // L f s i j hi hj d.
  have [d1 e1] := hw L f s i j hi hj d; have [d2 e2] := hv L f s i j hi hj.
  have [||d3 ->] := hk L f s i j _ _ d1 d2; rewrite /tp /tm ?w2 //.
  by rewrite e1 e2 get_mk // rmorph1 mulr1.
move: hsh h; rewrite sG /= => hsh; rewrite hsh => h; have [H EH {}h] := bindOk h.
have [[v1 v2 v3] hv] := mk_gain_ev hr hc erefl erefl (or_intror erefl) EH.
have [|[k1 k2 k3] hk] := tf_addTP hl wG v1 _ h; first by rewrite (eqP hsh) v2.
rewrite k2 (eqP hsh); split=> // L f s i j hi hj d.
have [d2 e2] := hv L f s i j hi hj; have [i1 i2] := hin i j hi hj; rewrite /bsiso sG in d i1 i2 *.
by rewrite -e2; exact: hk.
Qed.

End Ops.
