(* state_to_transfer, and when the Transfer constructor accepts what it builds. *)
From mathcomp Require Import all_ssreflect all_algebra zify.
From Verif Require Import Base BaseTheory Spec ModelPoly PolyTheory PolyOps LcmTheory ModelState Denote StateTheory
  ModelTransfer DenoteT TransferTheory TransferOps TransferProps ConvertTheory ConvertOps ConvertMimo ConvertState
  SpecConvert ModelConvert.

Set Implicit Arguments.
Unset Strict Implicit.
Unset Printing Implicit Defensive.

Import Order.TTheory GRing.Theory Num.Theory.
Local Open Scope ring_scope.

Section Accept.
Variable R : realFieldType.
Variable lcmf : seq (row R) -> res (row R * seq (row R)).
Variable eps : R.
Implicit Types (num den : seq R) (G : tf R) (N D : pmat R).

(* a list without superfluous leading zeros *)
Definition tidy num : bool := (num == [:: 0]) || (head 0 num != 0).

Lemma tidy_slim num den : tidy num -> head 0 den != 0 -> (size (polyhi num) <= size den)%N ->
  num != [::] /\ ((size num < size den) || (size (polyhi num) == size den) || (size den == 1))%N.
Proof.
case/orP=> [/eqP->|n0] d0 hs.
  split=> //; have : (0 < size den)%N by case: (den) d0 => //=; rewrite eqxx.
  by case: (size den) => [|[|k]] //; rewrite orbT.
have nn : num != [::] by apply: contraNneq n0 => ->.
have sn : size (polyhi num) = size num by rewrite size_polyhi_trim //; case: (num) n0 => //=; rewrite eqxx.
split=> //; apply/orP; left; rewrite sn orbC -leq_eqVlt -sn //.
Qed.

Lemma validate_ok p m a b N D : (0 < p)%N -> (0 < m)%N -> argis p m a N -> argis p m b D ->
  (p = 1%N -> m = 1%N -> (size (ent N 0 0) <= size (ent D 0 0))%N) -> causal p m N D ->
  tf_validate a b = Ok (N, D, maxsize (flatten D) == 1%N).
Proof.
move=> hp hm [rN aN] [rD aD] hs hc; rewrite /tf_validate aN aD /=.
case: ifP => [/andP[/eqP e1 /eqP e2]|e].
  rewrite /tf_combine /= hs //= e1 e2 in rN rD *.
  have := rect11 rD; have := rect11 rN; move: (ent N 0 0) (ent D 0 0) => x y -> -> //.
rewrite /tf_combine /= /pshape !(rect_pshape hp rN) (rect_pshape hp rD) eqxx.
rewrite (zip_flatten (fun x y => size (trimf y) < size (trimf x))%N rN rD).
case: ifP => [_|/negbFE h] /=; first by rewrite (negbTE (flatten_eq0 hp hm rD)).
case/hasP: h => i; rewrite mem_iota add0n => /= hi /hasP[j]; rewrite mem_iota add0n => /= hj.
by rewrite ltnNge hc.
Qed.

Lemma recalc_ok G : lcm_okf lcmf -> wfT G ->
  (forall i j, (i < tp G)%N -> (j < tm G)%N -> tidy (ent (tn G) i j)) -> is_ok (tf_recalc lcmf eps G).
Proof.
move=> hl w ht; case: (wfTP w) => -[hp hm rN rD] hd hc hgain hdt.
case hS: (tSISO G).
  rewrite recalc_siso //; case hg: (tgain G) => //=.
  have [p1 m1] : tp G = 1%N /\ tm G = 1%N by move: hS; rewrite wfT_siso // => /andP[/eqP ? /eqP].
  have h0 : head 0 (ent (td G) 0 0) != 0 by apply: hd; rewrite ?p1 ?m1.
  have h1 : (1 < size (ent (td G) 0 0))%N.
    by move: hgain; rewrite hg p1 m1 /= !andbT; case: (ent (td G) 0 0) h0 => [|c [|]] //=; rewrite eqxx.
  rewrite size_polyhi_trim ?h1 /=; last by case: (ent (td G) 0 0) h0 => //=; rewrite eqxx.
  have := ht 0%N 0%N; rewrite p1 m1 => /(_ isT isT)/orP[/eqP->//|n0].
  rewrite size_polyhi_trim; last by case: (ent (tn G) 0 0) n0 => //=; rewrite eqxx.
  by case: (ent (tn G) 0 0) n0 => [|c []] //=; rewrite eqxx.
rewrite /tf_recalc hS; case hg: (tgain G) => //.
have sN : pshape (tn G) = (tp G, tm G) by rewrite /tp /tm /tshape; case: (pshape _).
have pm1 : tp G = 1%N -> tm G = 1%N -> False by move: hS; rewrite wfT_siso // => + e1 e2; rewrite e1 e2.
have tdd i j : (i < tp G)%N -> (j < tm G)%N -> trimf (ent (td G) i j) = ent (td G) i j.
  by move=> hi hj; apply: trimf_id; have := hd i j hi hj; case: (ent (td G) i j) => //=; rewrite eqxx.
have gm : (maxsize (flatten (td G)) == 1%N) = false.
  rewrite -hg hgain -(rect_flatten [::] (fun d => size d == 1%N) rD); apply: maxsize1.
    exact: flatten_eq0 hp hm rD.
  by rewrite (rect_flatten [::] _ rD); apply/all2P => i j hi hj; move: (hd i j hi hj); rewrite /gnt -/(ent _ _ _); case: (ent _ _ _) => //=; rewrite eqxx.
rewrite (validate_ok hp hm (argis_TLL hp rN) (argis_TLL hp rD)); first last.
- by move=> i j hi hj; rewrite size_trimf tdd //; exact: hc.
- by move=> e1 /(pm1 e1).
rewrite [bind _ _]/= gm /tts_abcd -/(tSISO G) hS.
have [|y Em] := @tts_mimo_total _ lcmf eps _ _ _ _ sN hp hm hl hd hc; first by move=> i j hi hj; apply: tidy_slim; [exact: ht | exact: hd | exact: hc].
have [A [B [C [n [ey _ _ _ _]]]]] := tts_mimoP sN hp hm hl hd hc Em.
rewrite Em {}ey [bind _ _]/=; case: ifP => // _; rewrite -/(tm G) -/(tp G).
set N1 := grid _ _ _; have rN1 : rect (tp G) (tm G) N1 by exact: rect_grid.
have cN1 i j : (i < tp G)%N -> (j < tm G)%N -> (size (polyhi (ent N1 i j)) <= size (ent (td G) i j))%N.
  move=> hi hj; rewrite ent_grid // polyhi1 size_poly1; have := hd i j hi hj; case: (ent _ _ _) => //=; by rewrite eqxx.
rewrite (validate_ok hp hm (argis_TLL hp rN1) (argis_TLL hp rD)); first last.
- by move=> i j hi hj; rewrite size_trimf tdd //; exact: cN1.
- by move=> e1 /(pm1 e1).
have sN1 : pshape N1 = (tp G, tm G) by rewrite /pshape (rect_pshape hp rN1).
rewrite [bind _ _]/= gm /tts_abcd (_ : is11 N1 = false); last first.
  by rewrite /is11 sN1 -sN; exact: hS.
have [|z Ez] := @tts_mimo_total _ lcmf eps _ _ _ _ sN1 hp hm hl hd cN1; last by rewrite Ez.
move=> i j hi hj; apply: tidy_slim; [|exact: hd|exact: cN1].
by rewrite ent_grid // /tidy /= oner_neq0 orbT.
Qed.

(* the constructor accepts tidy causal data *)
Lemma accept_ok p m N D dt : lcm_okf lcmf -> (0 < p)%N -> (0 < m)%N -> rect p m N -> rect p m D -> posdt dt ->
  (forall i j, (i < p)%N -> (j < m)%N -> [/\ head 0 (ent D i j) != 0, tidy (ent N i j) & (size (polyhi (ent N i j)) <= size (ent D i j))%N]) ->
  exists G, [/\ mk_tf lcmf eps (pm_arg ((p, m) == (1, 1)%N) N) (pm_arg ((p, m) == (1, 1)%N) D) dt = Ok G,
    wfT G, tshape G = (p, m), tn G = N & td G = D /\ tdt G = dt].
Proof.
move=> hl hp hm rN rD hdt H; rewrite xpair_eqE.
have aN := argis_pm hp rN; have aD := argis_pm hp rD.
have tdd i j : (i < p)%N -> (j < m)%N -> trimf (ent D i j) = ent D i j.
  by move=> hi hj; apply: trimf_id; have [] := H i j hi hj; case: (ent D i j) => //=; rewrite eqxx.
have V : tf_validate (pm_arg ((p == 1%N) && (m == 1%N)) N) (pm_arg ((p == 1%N) && (m == 1%N)) D) = Ok (N, D, maxsize (flatten D) == 1%N).
  apply: validate_ok aN aD _ _ => //.
    move=> e1 e2; have [] := H 0%N 0%N hp hm => d0 /orP[/eqP->|n0] hs.
      by case: (ent D 0 0) d0 => //=; rewrite eqxx.
    by rewrite -(size_polyhi_trim (p := ent N 0 0)) //; case: (ent N 0 0) n0 => //=; rewrite eqxx.
  by move=> i j hi hj; rewrite tdd // size_trimf; case: (H i j hi hj).
have [g Eg] : exists G, mk_tf lcmf eps (pm_arg ((p == 1%N) && (m == 1%N)) N) (pm_arg ((p == 1%N) && (m == 1%N)) D) dt = Ok G; last first.
  have [|w1 w2 w3 w4 w5] := mk_tf_wf hp hm aN aD _ Eg; first by move=> i j hi hj; case: (H i j hi hj).
  by exists g; rewrite Eg.
rewrite /mk_tf V [bind _ _]/= check_dt_pos // [bind _ _]/=.
set G := Tf _ _ _ _.
suff : is_ok (tf_recalc lcmf eps G) by case: (tf_recalc _ _ _) => //= ? _; eexists.
have shG : tshape G = (p, m) by rewrite /tshape /pshape /= (rect_pshape hp rN).
have dall : all (fun d : row R => head 0 d != 0) (flatten D).
  by rewrite (rect_flatten [::] _ rD); apply/all2P => i j hi hj; case: (H i j hi hj).
apply: recalc_ok => //; last by rewrite /tp /tm shG => i j hi hj; case: (H i j hi hj).
rewrite /wfT /tp /tm shG /= hp hm rN rD dall hdt /= andbT; apply/andP; split.
  by apply/all2P => i j hi hj; case: (H i j hi hj).
apply/eqP; apply: maxsize1; first exact: flatten_eq0 hp hm rD.
by apply: sub_all dall => -[|x q] //=; rewrite eqxx.
Qed.

End Accept.

(* ------------------------------------------------------------------ *)
(* the numerator polynomial *)
Section Num.
Variables (F : fieldType) (n : nat).
Implicit Types (A : 'M[F]_n) (b : 'cV[F]_n) (c : 'rV[F]_n).

Lemma size_prod2 (I : finType) (P : I -> {poly F}) : (forall i, (size (P i) <= 2)%N) -> (size (\prod_i P i)%R <= #|I|.+1)%N.
Proof.
move=> h; apply: leq_trans (size_prod_leq _ _) _; rewrite leq_subLR.
have : (\sum_(i | true) size (P i) <= \sum_(i : I | true) 2)%N by apply: leq_sum => i _; exact: h.
by rewrite sum_nat_const cardT -?cardE; move: (\sum_(i | _) _)%N #|I|; lia.
Qed.

Lemma size_char_mx A i j : (size (char_poly_mx A i j) <= 2)%N.
Proof.
rewrite !mxE; apply: leq_trans (size_add _ _) _; rewrite size_opp geq_max (leq_trans (size_polyC_leq1 _)) // andbT.
by case: (i == j); rewrite ?mulr0n ?mulr1n ?size_poly0 ?size_polyX.
Qed.

Lemma size_sign (b : bool) (q : {poly F}) : size ((-1) ^+ b * q) = size q.
Proof. by case: b; rewrite ?expr0 ?expr1 ?mul1r ?mulN1r ?size_opp. Qed.

Lemma size_det m (M : 'M[{poly F}]_m) : (forall i j, (size (M i j) <= 2)%N) -> (size (\det M) <= m.+1)%N.
Proof.
move=> h; apply: leq_trans (size_sum _ _ _) _; apply/bigmax_leqP => s _.
rewrite size_sign; apply: leq_trans (size_prod2 _) _; last by rewrite card_ord.
by move=> i; exact: h.
Qed.

Lemma size_adj A i j : (size (\adj (char_poly_mx A) i j) <= n)%N.
Proof.
rewrite mxE /cofactor -signr_odd size_sign.
apply: leq_trans (size_det _) _; first by move=> x y; rewrite 2!mxE; exact: size_char_mx.
by case: (n) i {j} => [[]|].
Qed.

Lemma size_numpoly A b c : (size (numpoly A b c) <= n)%N.
Proof.
rewrite /numpoly mxE; apply: leq_trans (size_sum _ _ _) _; apply/bigmax_leqP => k _.
rewrite [in X in (size X <= _)%N]mxE mxE.
apply: leq_trans (size_mul_leq _ _) _.
have h1 : (size (\sum_j map_mx polyC c 0 j * \adj (char_poly_mx A) j k)%R <= n)%N.
  apply: leq_trans (size_sum _ _ _) _; apply/bigmax_leqP => l _; rewrite mxE.
  by rewrite mul_polyC; apply: leq_trans (size_scale_leq _ _) (size_adj _ _ _).
have h2 := size_polyC_leq1 (b k 0); move: h1 h2; move: (size _) (size _); clear; lia.
Qed.

Lemma numpoly_eval A b c s : (numpoly A b c).[s] = (c *m \adj (s%:M - A) *m b) 0 0.
Proof.
have e : map_mx (horner_eval s) (char_poly_mx A) = s%:M - A.
  apply/matrixP => i j; rewrite !mxE /= /horner_eval !hornerE hornerMn hornerX //.
have ec k (M : 'M[F]_(k, n)) : map_mx (horner_eval s) (map_mx polyC M) = M.
  by apply/matrixP => i j; rewrite !mxE /= /horner_eval hornerC.
have eb k (M : 'M[F]_(n, k)) : map_mx (horner_eval s) (map_mx polyC M) = M.
  by apply/matrixP => i j; rewrite !mxE /= /horner_eval hornerC.
rewrite -[_.[s]]/(horner_eval s _) /numpoly.
have -> (M : 'M[{poly F}]_1) : horner_eval s (M 0 0) = (map_mx (horner_eval s) M) 0 0 by rewrite mxE.
by rewrite !map_mxM /= map_mx_adj /= e ec eb.
Qed.

Lemma numpoly_tf A b c s : s%:M - A \in unitmx ->
  (c *m invmx (s%:M - A) *m b) 0 0 = (numpoly A b c).[s] / (char_poly A).[s].
Proof.
move=> u; rewrite numpoly_eval /invmx u -scalemxAr -scalemxAl mxE det_charF mulrC //.
Qed.

Lemma char_unit A s : (s%:M - A \in unitmx) = ((char_poly A).[s] != 0).
Proof. by rewrite unitmxE unitfE det_charF. Qed.
End Num.

Lemma numpoly_map (F K : fieldType) (g : {rmorphism F -> K}) n (A : 'M[F]_n) b c :
  map_poly g (numpoly A b c) = numpoly (map_mx g A) (map_mx g b) (map_mx g c).
Proof.
rewrite /numpoly -map_char_poly_mx -map_mx_adj.
have ep p q (M : 'M[F]_(p, q)) : map_mx polyC (map_mx g M) = map_mx (map_poly g) (map_mx polyC M).
  by apply/matrixP => i j; rewrite !mxE map_polyC.
by rewrite !ep -!map_mxM [RHS]mxE.
Qed.

Section Stt.
Variables (R : realFieldType) (L : fieldType) (f : {rmorphism R -> L}).
Variables (re : L -> R) (absL : L -> R) (eig : arr R -> seq L) (tz : arr R -> arr R -> arr R -> seq L).
Variable lsq : arr R -> arr R -> arr R.
Variable lcmf : seq (row R) -> res (row R * seq (row R)).
Variable eps : R.
Hypotheses (hre : re_ok f re) (habs : abs_ok f absL) (hlsq : lsq_ok lsq).

Local Notation mx := (mxof [rmorphism of @idfun R]).

Lemma polyhi_re (l : seq L) (Z : {poly R}) : polyhi l = map_poly f Z -> polyhi [seq re x | x <- l] = Z.
Proof.
move=> h; apply/polyP => k; have := congr1 (fun P : {poly L} => P`_k) h; rewrite /= coef_map !coef_polyhi size_map.
case: ltnP => hk; last by move=> e; apply/esym/eqP; rewrite -(fmorph_eq0 f) /= -e.
by rewrite (nth_map 0) => [->|]; [rewrite hre | move: hk; clear; case: (size l); lia].
Qed.

Lemma s0_above xs x : x \in xs -> f (stt_s0 absL xs) != x.
Proof.
move=> hx; apply/eqP => e.
have h1 : absL x <= foldr (fun x a => Num.max (absL x) a) 0 xs.
  elim: xs hx {e} => //= y ys IH; rewrite inE le_maxr => /orP[/eqP->|/IH->]; rewrite ?lexx ?orbT //.
have h2 : absL x <= Num.max (foldr (fun x a => Num.max (absL x) a) 0 xs) (1 / 2%:R) by rewrite le_maxr h1.
have h3 : 0 < Num.max (foldr (fun x a => Num.max (absL x) a) 0 xs) (1 / 2%:R).
  by rewrite lt_maxr divr_gt0 ?ltr01 ?ltr0n ?orbT.
have h4 : Num.max (foldr (fun x a => Num.max (absL x) a) 0 xs) (1 / 2%:R) < stt_s0 absL xs.
  by rewrite /stt_s0 mulr_natr mulr2n ltr_addl.
have : absL x = stt_s0 absL xs by rewrite -e habs ger0_norm // ltW // (lt_trans h3 h4).
by move=> e1; have := lt_le_trans h4; move: h2; rewrite e1 => h2 /(_ _ h2); rewrite ltxx.
Qed.

Lemma foldr_prod (x : L) zs : foldr (fun z a => (x - z) * a) 1 zs = (\prod_(z <- zs) ('X - z%:P)).[x].
Proof. by rewrite horner_prod; elim: zs => [|z zs IH]; rewrite ?big_nil ?big_cons //= IH !hornerE. Qed.

Lemma prod_nz (x : L) zs : (forall z, z \in zs -> x != z) -> (\prod_(z <- zs) ('X - z%:P)).[x] != 0.
Proof.
move=> h; rewrite -[_ == 0]/(root _ x) root_prod_XsubC; apply/negP => /h; by rewrite eqxx.
Qed.

Lemma stt_entryP n (A b c : arr R) d (den := [seq re x | x <- haroldpoly (eig A)]) :
  (0 < n)%N -> shp A = (n, n) -> shp b = (n, 1)%N -> shp c = (1, n)%N ->
  eig_ok f A (eig A) -> tz_ok f A b c (tz A b c) ->
  let P := numpoly (mx n n A) (mx n 1 b) (mx 1 n c) + d *: char_poly (mx n n A) in
  exists N D, [/\ stt_entry f re absL tz lsq A b c d (eig A) den = Ok (N, D), head 0 D = 1, tidy N,
     (size (polyhi N) <= size D)%N &
     if P == 0 then N = [:: 0] /\ D = [:: 1] else polyhi N = P /\ D = den /\ polyhi den = char_poly (mx n n A)].
Proof.
move=> n0 sA sb sc heig htz P; have [sA1 sA2] : nr A = n /\ nc A = n by case: sA.
rewrite /eig_ok sA1 in heig; rewrite /tz_ok sA1 in htz; have [e1 e2 e3] := haroldpoly_full (eig A).
have hden : polyhi den = char_poly (mx n n A) by apply: polyhi_re; rewrite e3 heig.
have seig : size (eig A) = n.
  have := congr1 (fun P : {poly L} => size P) heig; rewrite /= size_prod_XsubC size_map_poly size_char_poly.
  by case.
have sden : size den = n.+1 by rewrite size_map e1 seig.
have hd1 : head 0 den = 1.
  rewrite -nth0 (nth_map 0) ?e1 // e2 -[1 in LHS](rmorph1 f) hre //.
rewrite /stt_entry; set zz := tz A b c; have [k [Z [hZ hk]]] := htz; rewrite -/zz in hZ.
have -> : (eig A ++ zz) != [::] by rewrite -size_eq0 size_cat seig; case: (n) n0.
set s0 := stt_s0 _ _.
have p0 : (char_poly (mx n n A)).[s0] != 0.
  rewrite -(fmorph_eq0 f) -horner_map /= -heig; apply: prod_nz => z hz.
  by apply: s0_above; rewrite mem_cat hz.
have z0 : Z.[s0] != 0.
  rewrite -(fmorph_eq0 f) -horner_map /= -hZ; apply: prod_nz => z hz.
  by apply: s0_above; rewrite mem_cat hz orbT.
have -> : re (foldr (fun p a => (f s0 - p) * a) 1 (eig A)) = (char_poly (mx n n A)).[s0].
  by rewrite foldr_prod heig horner_map hre.
have -> : (if zz == [::] then 1 else re (foldr (fun z a => (f s0 - z) * a) 1 zz)) = Z.[s0].
  case: eqP => [zz0|_]; last by rewrite foldr_prod hZ horner_map hre.
  apply: (fmorph_inj f); rewrite -horner_map /= -hZ zz0 big_nil hornerC rmorph1 //.
have [sb1 sb2] : nr b = n /\ nc b = 1%N by case: sb.
have [sc1 sc2] : nr c = 1%N /\ nc c = n by case: sc.
set M := asub _ A.
have eM : mx n n M = s0%:M - mx n n A.
  by rewrite mxof_sub ?nr_mk ?nc_mk ?sA1 // mxof_scale ?nr_mk ?nc_mk ?sA1 // mxof_eye scalemx1.
have uM : mx n n M \in unitmx by rewrite eM char_unit.
have [|[ll1 ll2] el] := hlsq (_ : shp M = (n, n)) sb uM; first by rewrite /shp /= sA1.
have -> : get (amul c (lsq M b)) 0 0 = (numpoly (mx n n A) (mx n 1 b) (mx 1 n c)).[s0] / (char_poly (mx n n A)).[s0].
  rewrite -numpoly_tf -?eM // -mulmxA -el mulKmx // -(mxof_mul [rmorphism of @idfun R] (m := 1) (n := n) (p := 1)) //.
  by rewrite mxE.
rewrite divfK // hk hornerZ mulfK //.
set num0 := (if zz == [::] then _ else _).
have [l [-> hl]] : exists l, num0 = Ok l /\ polyhi l = k *: Z.
  rewrite /num0; case: eqP => [zz0|/eqP zz0].
    exists [:: k]; split=> //; rewrite polyhi1.
    have -> : Z = 1 by apply: (map_poly_inj f); rewrite -hZ zz0 big_nil rmorph1.
    by rewrite -mul_polyC mulr1.
  have [f1 f2 f3] := haroldpoly_full zz.
  rewrite /np_convolve /= (_ : [seq re x | x <- haroldpoly zz] == [::] = false); last by rewrite -size_eq0 size_map f1.
  eexists; split; first reflexivity.
  rewrite polyhi_convolve polyhi1 (polyhi_re (Z := Z)) ?mul_polyC // f3 hZ //.
have okE X Y (x : X) (g : X -> res Y) : bind (Ok x) g = g x by [].
rewrite okE; have [|l' E El'] := @polyadd_full _ [:: l; [seq d * x | x <- den]] true; first by [].
rewrite E okE; have [_ sl] := polyaddP E.
have PE : polyhi l' = P by rewrite El' !big_cons big_nil addr0 hl polyhi_scale hden -hk.
rewrite /maxsize /= maxn0 !size_trimf hl -hk polyhi_scale hden in sl.
have sn := size_numpoly (mx n n A) (mx n 1 b) (mx 1 n c).
have sP : size P = size l'.
  rewrite sl /P; have [->|d0] := eqVneq d 0; first by rewrite scale0r addr0 size_poly0 maxn0.
  rewrite size_scale // size_char_poly (maxn_idPr _) ?(leq_trans sn) // addrC size_addl size_scale ?size_char_poly //.
case: eqP => [l0|/eqP l0].
  have -> : P == 0 by rewrite -PE l0 polyhi_nil.
  exists [:: 0], [:: 1]; split=> //; [by rewrite /tidy eqxx | by rewrite polyhi1 size_poly0].
have P0 : P != 0 by rewrite -size_poly_eq0 sP size_eq0.
exists l', den; rewrite (negbTE P0); split=> //.
- apply/orP; right; apply: contraNneq P0 => h; have := sP; rewrite -PE.
  case: l' l0 h {E El' PE sl sP} => [|x t] //= _ ->; rewrite polyhi_cons scale0r add0r => e.
  by have := size_polyhi_le t; rewrite e ltnn.
- by rewrite PE sP sl sden geq_max (leq_trans sn) //= (leq_trans (size_scale_leq _ _)) // size_char_poly.
Qed.

(* a dynamic model *)
Lemma stt_dynP G : lcm_okf lcmf -> wfS G -> sgain G = false -> (0 < snn G)%N -> (0 < spn G)%N -> (0 < smn G)%N ->
  eig_ok f (sa G) (eig (sa G)) ->
  (forall i j, (i < spn G)%N -> (j < smn G)%N ->
    let b := asubm (sb G) 0 (snn G) j j.+1 in let c := asubm (sc G) i i.+1 0 (snn G) in tz_ok f (sa G) b c (tz (sa G) b c)) ->
  exists K, [/\ state_to_transfer f re absL eig tz lsq lcmf eps G = Ok K, wfT K, tshape K = sshape G, tdt K = sdt G &
   forall i j, (i < spn G)%N -> (j < smn G)%N ->
     let P := numpoly (mx (snn G) (snn G) (sa G)) (mx (snn G) 1 (asubm (sb G) 0 (snn G) j j.+1)) (mx 1 (snn G) (asubm (sc G) i i.+1 0 (snn G)))
              + get (sd G) i j *: char_poly (mx (snn G) (snn G) (sa G)) in
     (tidy (ent (tn K) i j) /\
      if P == 0 then ent (tn K) i j = [:: 0] /\ ent (td K) i j = [:: 1]
      else polyhi (ent (tn K) i j) = P /\ polyhi (ent (td K) i j) = char_poly (mx (snn G) (snn G) (sa G))) /\
     forall (K' : fieldType) (g : {rmorphism R -> K'}) (s : K'), regS g G s ->
       dfT g K s i j /\ evT g K s i j = ev g G s i j].
Proof.
move=> hl w hg n0 p0 m0 he ht; have [[wA wB wC wD] [a2 b1 c2 c1 b2]] := wfS_dyn w hg.
rewrite /state_to_transfer hg c1 b2.
set den := [seq re x | x <- haroldpoly (eig (sa G))].
pose b j := asubm (sb G) 0 (nr (sb G)) j j.+1; pose c i := asubm (sc G) i i.+1 0 (nc (sc G)).
pose P i j := numpoly (mx (snn G) (snn G) (sa G)) (mx (snn G) 1 (b j)) (mx 1 (snn G) (c i))
   + get (sd G) i j *: char_poly (mx (snn G) (snn G) (sa G)).
pose E i j := if stt_entry f re absL tz lsq (sa G) (b j) (c i) (get (sd G) i j) (eig (sa G)) den is Ok y then y else ([::], [::]).
have H i j : (i < spn G)%N -> (j < smn G)%N ->
  [/\ stt_entry f re absL tz lsq (sa G) (b j) (c i) (get (sd G) i j) (eig (sa G)) den = Ok (E i j), head 0 (E i j).2 = 1, tidy (E i j).1,
     (size (polyhi (E i j).1) <= size (E i j).2)%N &
     if P i j == 0 then (E i j).1 = [:: 0] /\ (E i j).2 = [:: 1]
     else polyhi (E i j).1 = P i j /\ (E i j).2 = den /\ polyhi den = char_poly (mx (snn G) (snn G) (sa G))].
  move=> hi hj; have [|||||N [D [e1 e2 e3 e4 e5]]] := @stt_entryP (snn G) (sa G) (b j) (c i) (get (sd G) i j) n0.
  - by rewrite /shp a2.
  - by rewrite /shp /= subn0 subSnn b1.
  - by rewrite /shp /= subn0 subSnn c2.
  - exact: he.
  - by rewrite /b /c b1 c2; exact: ht.
  by rewrite /E e1.
rewrite (gridR_tot (g := E)); last by move=> i j hi hj; case: (H i j hi hj).
rewrite [bind _ _]/=.
set N := grid _ _ _; set D := grid (spn G) (smn G) (fun i j => _.2).
have eN i j : (i < spn G)%N -> (j < smn G)%N -> ent N i j = (E i j).1.
  by move=> hi hj; rewrite ent_grid // -/(gnt _ _ i j) gnt_grid.
have eD i j : (i < spn G)%N -> (j < smn G)%N -> ent D i j = (E i j).2.
  by move=> hi hj; rewrite ent_grid // -/(gnt _ _ i j) gnt_grid.
have [||||K [E1 E2 E3 E4 [E5 E6]]] := @accept_ok R lcmf eps (spn G) (smn G) N D (sdt G) hl p0 m0.
- exact: rect_grid.
- exact: rect_grid.
- exact: wfS_dt w.
- move=> i j hi hj; rewrite eN // eD //; have [_ h1 h2 h3 _] := H i j hi hj; split=> //; by rewrite h1 oner_neq0.
exists K; split=> // i j hi hj; have [_ _ ti _ h] := H i j hi hj; rewrite E5 E4 eD // eN //; split.
  split=> //; move: h; rewrite /P /b /c b1 c2; case: ifP => _ [h1 h2] //; by rewrite h2.1 h2.2.
move=> K' g s u.
have ec : mxof g (snn G) (snn G) (sa G) = map_mx g (mx (snn G) (snn G) (sa G)) by apply/matrixP => x y; rewrite !mxE.
have hchi : (map_poly g (char_poly (mx (snn G) (snn G) (sa G)))).[s] != 0.
  by move: u; rewrite /regS /regular ec map_char_poly char_unit.
have ve : ev g G s i j = (map_poly g (P i j)).[s] / (map_poly g (char_poly (mx (snn G) (snn G) (sa G)))).[s].
  rewrite /P rmorphD hornerD /= map_polyZ hornerZ mulrDl mulfK // addrC /ev; congr (_ + _).
  rewrite numpoly_map map_char_poly ec -numpoly_tf; last by rewrite char_unit -map_char_poly.
  congr ((_ *m _ *m _) 0 0); apply/matrixP => x y; rewrite !mxE get_mk ?subSnn ?subn0 ?b1 ?c2 //.
    by rewrite ord1 addn0.
  by rewrite ord1 addn0.
rewrite /dfT /evT E5 E4 eD // eN //; move: h; case: ifP => [/eqP P0 [-> ->]|_ [h1 [h2 h3]]].
  by rewrite !pev1 rmorph1 oner_neq0 rmorph0 mul0r ve P0 rmorph0 horner0 mul0r.
by rewrite ve /pev h1 h2 h3.
Qed.

End Stt.

Section Gain.
Variable R : realFieldType.
Variable lcmf : seq (row R) -> res (row R * seq (row R)).
Variable eps : R.

Lemma mk_arr_ok (A : arr R) dt : posdt dt -> (0 < nr A)%N -> (0 < nc A)%N ->
  mk_tf lcmf eps (TArr A) TNone dt =
  if ((nr A == 1%N) && (nc A == 1%N)) || ((1 < nr A)%N && (1 < nc A)%N)
  then Ok (Tf (grid (nr A) (nc A) (fun i j => [:: get A i j])) (grid (nr A) (nc A) (fun _ _ => [:: 1])) true dt)
  else Err ValueError.
Proof.
move=> hdt hr hc; have r1 : rect (nr A) (nc A) (grid (nr A) (nc A) (fun _ _ => [:: 1 : R])) by exact: rect_grid.
have g1 : maxsize (flatten (grid (nr A) (nc A) (fun _ _ => [:: 1 : R]))) == 1%N.
  rewrite maxsize1 ?(rect_flatten [::] _ r1); try (by apply/all2P => i j hi hj; rewrite gnt_grid).
  exact: flatten_eq0 hr hc r1.
rewrite /mk_tf /tf_validate [reg_arg _]/=; case: (boolP ((1 < nr A)%N && (1 < nc A)%N)) => e; last first.
  have ef : size (flat_arr A) = (nr A * nc A)%N.
    rewrite /flat_arr size_flatten /shape /grid -map_comp sumnE big_map.
    under eq_bigr do rewrite /= size_mkseq.
    by rewrite big_const_seq count_predT size_iota iter_addn_0 mulnC.
  rewrite orbF /tf_combine [bind _ _]/= ef; case: ifP => h1; last first.
    rewrite (_ : (nr A == 1%N) && (nc A == 1%N) = false) //; apply: contraFF h1 => /andP[/eqP-> /eqP->] //.
  have [er ec] : nr A = 1%N /\ nc A = 1%N.
    by move: h1 hr hc; clear; case: (nr A) (nc A) => [|[|n]] [|[|k]] //=; lia.
  by rewrite er ec /= /maxsize /= check_dt_pos // /tf_recalc /flat_arr /= er ec.
rewrite orbT [bind _ _]/=.
set N := grid _ _ _; have rN : rect (nr A) (nc A) N by exact: rect_grid.
rewrite /tf_combine (_ : has _ (flatten N) = false); last first.
  apply/negbTE; rewrite -all_predC (rect_flatten [::] _ rN); apply/all2P => i j hi hj.
  by rewrite /= negbK gnt_grid.
have := rect_pshape hr rN; rewrite -/(pshape N) => ->; rewrite /=.
rewrite (negbTE (flatten_eq0 hr hc r1)) /= g1 check_dt_pos //.
Qed.

End Gain.
