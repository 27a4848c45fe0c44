(* Property C81: what bode_plot and nyquist_plot draw.
   A curve is (system, row of axes, column of axes, abscissae, ordinates); None among the ordinates is nan.  own and fauto
   stand for the automatic grid and the response on it, nsty is the number of entries of the style (10 by default).
   shown_mag, shown_phase, pval and the contract of np.unwrap are in SpecPlots.v. *)
From mathcomp Require Import all_ssreflect all_algebra zify.
From Coq Require Import String.
From Verif Require Import Base BaseTheory Spec ModelPoly PolyTheory ModelState Denote StateTheory StateProps ModelTransfer DenoteT
  TransferProps ModelFreq SpecFreq PropsFreq SpecHorizon Cplx ModelGrid SpecGrid GridTheory PropsGrid ModelPlots SpecPlots PlotsTheory.

Set Implicit Arguments.
Unset Strict Implicit.
Unset Printing Implicit Defensive.

Import Order.TTheory GRing.Theory Num.Theory.
Local Open Scope ring_scope.

Section C81.
Variables (R : realFieldType) (L : fieldType) (f : {rmorphism R -> L}).
Variables (qr hess : arr R -> arr R * arr R) (ii : L) (expL : L -> L) (pi : R).
Variables (own : psys R -> res (seq R)) (fauto : psys R -> string -> res (fr_result R L)).
Variables (log10 exp10 : R -> R) (flr : R -> int) (scale unit_ : R) (cmod angle : L -> R).
Variables (unwrap : seq R -> seq R) (junk : nat -> R) (re im : L -> R).
Let twopi := 2%:R * pi.
Local Notation grid := (plot_grid twopi own log10 exp10 flr).
Local Notation respond := (respond f qr hess ii expL twopi fauto).
Local Notation bode := (bode_plot f qr hess ii expL twopi own fauto log10 exp10 flr scale unit_ cmod angle unwrap junk).
Local Notation nyquist := (nyquist_plot f qr hess ii expL twopi own fauto log10 exp10 flr re im).
Implicit Types (Gs : seq (psys R)) (G : psys R) (fre : seq (seq (seq (option L)))).
Let G0 : psys R := PT (Tf [::] [::] false None).

(* the curve of the magnitude and the curve of the phase that belong to the response fre *)
Definition mag_curve fre (ww : seq R) row col (y : seq (option R)) : Prop :=
  size y = size ww /\ forall k, (k < size ww)%N -> shown_mag scale log10 cmod (sample fre row col k) (nth None y k).
Definition phase_curve fre (ww : seq R) row col (y : seq (option R)) : Prop :=
  [/\ size y = size ww, forall k, (k < size ww)%N -> shown_phase pi unit_ angle (sample fre row col k) (nth None y k) &
   clean fre -> (forall x, sample fre row col 0 = Some x -> nth None y 0 = Some (unit_ * angle x)) /\
     forall k, (k.+1 < size ww)%N -> exists a b, [/\ nth None y k = Some (unit_ * a), nth None y k.+1 = Some (unit_ * b) &
       `|b - a| <= pi]].

Lemma bode_curvesP ind G fre ww : unwrap_like pi unwrap ->
  (forall row col, (row < prows G)%N -> (col < pcols G)%N -> size (samples fre row col) = size ww) ->
  exists C, [/\ bode_curves log10 scale unit_ cmod angle unwrap junk ind G (fre, ww) = Ok C,
    size C = (2 * (prows G * pcols G))%N,
    forall c, c \in C -> exists row col y, [/\ (row < prows G)%N, (col < pcols G)%N &
      (c = (ind, (2 * row)%N, col, ww, y) /\ mag_curve fre ww row col y) \/
      (c = (ind, (2 * row).+1, col, ww, y) /\ phase_curve fre ww row col y)] &
    forall row col, (row < prows G)%N -> (col < pcols G)%N -> exists y y',
      [/\ (ind, (2 * row)%N, col, ww, y) \in C, mag_curve fre ww row col y,
          (ind, (2 * row).+1, col, ww, y') \in C & phase_curve fre ww row col y']].
Proof.
move=> hu hs; rewrite /bode_curves.
set F := fun rc : nat * nat => _; set S := [seq (row, col) | col <- iota 0 (pcols G), row <- iota 0 (prows G)].
have memS rc : (rc \in S) = (rc.1 < prows G)%N && (rc.2 < pcols G)%N.
  case: rc => row col; apply/allpairsP/andP => [[[c r] /= [h1 h2 [-> ->]]]|[/= h1 h2]].
    by move: h1 h2; rewrite !mem_iota.
  by exists (col, row); rewrite !mem_iota.
have FP rc : rc \in S -> exists y y', [/\ F rc = Ok [:: (ind, (2 * rc.1)%N, rc.2, ww, y); (ind, (2 * rc.1).+1, rc.2, ww, y')],
    mag_curve fre ww rc.1 rc.2 y & phase_curve fre ww rc.1 rc.2 y'].
  rewrite memS; case: rc => row col /= /andP[h1 h2]; have e := hs row col h1 h2.
  have [p1 [p2 p3]] := phasesP unit_ angle junk hu fre row col.
  rewrite /F size_map -[chan fre row col]/(samples fre row col) p1 e eqxx /=.
  eexists _, _; split; first reflexivity; last by split; rewrite ?p1 -?e.
  split; first by rewrite size_map.
  by move=> k hk; rewrite (nth_map None) ?e //; exact: magnP.
have [|cs Ecs] := @collect_ok _ _ F S (0, 0)%N.
  by move=> k hk; have [y [y' [-> _ _]]] := FP _ (mem_nth (0, 0)%N hk); eexists.
rewrite Ecs [bind _ _]/=; have [z1 z2] := collectP (0, 0)%N [::] Ecs.
exists (flatten cs); split=> //.
- have -> : size (flatten cs) = (2 * size S)%N.
    rewrite size_flatten -z1; have : forall c, c \in cs -> size c = 2%N.
      move=> c /(nthP [::])[k hk <-]; rewrite z1 in hk; have := z2 k hk.
      by have [y [y' [-> _ _]]] := FP _ (mem_nth (0, 0)%N hk); case=> <-.
    elim: (cs) => //= c s IH h; rewrite IH ?h ?inE ?eqxx //; first by rewrite mulnS.
    by move=> x hx; apply: h; rewrite inE hx orbT.
  by rewrite size_allpairs !size_iota [(pcols G * _)%N]mulnC.
- move=> c /flattenP[d /(nthP [::])[k hk <-]]; rewrite z1 in hk; have hm := mem_nth (0, 0)%N hk.
  have := z2 k hk; have [y [y' [-> m1 m2]]] := FP _ hm; case=> <-; rewrite !inE.
  move: hm; rewrite memS; case: (nth _ S k) m1 m2 => row col /= m1 m2 /andP[h1 h2] /orP[]/eqP ->.
    by exists row, col, y; split=> //; left.
  by exists row, col, y'; split=> //; right.
move=> row col h1 h2; have hm : (row, col) \in S by rewrite memS /= h1.
have [y [y' [e m1 m2]]] := FP _ hm; exists y, y'.
move: hm => /(nthP (0, 0)%N)[k hk ek]; have := z2 _ hk; rewrite ek e => -[e2].
by split=> //; apply/flattenP; exists (nth [::] cs k); rewrite ?mem_nth ?z1 // -e2 !inE eqxx ?orbT.
Qed.

(* ---- Bode ---- *)
(* Full statement: every system of the list is drawn, on a grid that covers its modes, all samples being defined.  Proved:
   when the style has as many entries as there are systems, and every response has as many samples as frequencies, the
   curves drawn are one magnitude and one phase curve for every system and channel, in the axes of the channel, with the
   values of the response on the grid the loop uses *)
Theorem C81_bode_partial Gs w u nsty w' : unwrap_like pi unwrap -> (0 < size Gs <= nsty)%N -> grid Gs w u = Ok w' ->
  (forall i, (i < size Gs)%N -> exists fre ww, respond w' u (nth G0 Gs i) = Ok (fre, ww) /\
    forall row col, (row < prows (nth G0 Gs i))%N -> (col < pcols (nth G0 Gs i))%N -> size (samples fre row col) = size ww) ->
  exists C, [/\ bode Gs w u nsty = Ok C, size C = sumn [seq (2 * (prows G * pcols G))%N | G <- Gs],
    forall c, c \in C -> exists i row col y, [/\ (i < size Gs)%N, (row < prows (nth G0 Gs i))%N, (col < pcols (nth G0 Gs i))%N &
      exists fre ww, respond w' u (nth G0 Gs i) = Ok (fre, ww) /\
      ((c = (i, (2 * row)%N, col, ww, y) /\ mag_curve fre ww row col y) \/
       (c = (i, (2 * row).+1, col, ww, y) /\ phase_curve fre ww row col y))] &
    forall i row col, (i < size Gs)%N -> (row < prows (nth G0 Gs i))%N -> (col < pcols (nth G0 Gs i))%N ->
      exists fre ww y y', respond w' u (nth G0 Gs i) = Ok (fre, ww) /\
      [/\ (i, (2 * row)%N, col, ww, y) \in C, mag_curve fre ww row col y,
          (i, (2 * row).+1, col, ww, y') \in C & phase_curve fre ww row col y']].
Proof.
move=> hu /andP[n0 hn] hg hr; rewrite /bode_plot n0 hg [bind _ _]/= take_oversize ?size_zip ?size_iota ?minnn //.
set F := fun x : nat * psys R => _; set S := zip _ _.
have sS : size S = size Gs by rewrite size_zip size_iota minnn.
have nS i : (i < size Gs)%N -> nth (0%N, G0) S i = (i, nth G0 Gs i).
  by move=> hi; rewrite nth_zip ?size_iota // nth_iota.
have FP i (hi : (i < size Gs)%N) : exists fre ww, respond w' u (nth G0 Gs i) = Ok (fre, ww) /\
   exists C, F (i, nth G0 Gs i) = Ok C /\
    [/\ size C = (2 * (prows (nth G0 Gs i) * pcols (nth G0 Gs i)))%N,
    forall c, c \in C -> exists row col y, [/\ (row < prows (nth G0 Gs i))%N, (col < pcols (nth G0 Gs i))%N &
      (c = (i, (2 * row)%N, col, ww, y) /\ mag_curve fre ww row col y) \/
      (c = (i, (2 * row).+1, col, ww, y) /\ phase_curve fre ww row col y)] &
    forall row col, (row < prows (nth G0 Gs i))%N -> (col < pcols (nth G0 Gs i))%N -> exists y y',
      [/\ (i, (2 * row)%N, col, ww, y) \in C, mag_curve fre ww row col y,
          (i, (2 * row).+1, col, ww, y') \in C & phase_curve fre ww row col y']].
  have [fre [ww [e1 e2]]] := hr i hi; exists fre, ww; split=> //.
  have [C [c1 c2 c3 c4]] := bode_curvesP i hu e2; exists C; split=> //.
  by rewrite /F e1; exact: c1.
have [|cs Ecs] := @collect_ok _ _ F S (0%N, G0).
  move=> k; rewrite sS => hk; rewrite nS //; have [fre [ww [_ [C [-> _]]]]] := FP k hk; by exists C.
rewrite Ecs [bind _ _]/=; have [z1 z2] := collectP (0%N, G0) [::] Ecs; rewrite sS in z1 z2.
exists (flatten cs); split=> //.
- rewrite size_flatten; congr sumn; apply: (@eq_from_nth _ 0%N); rewrite !size_map ?z1 // => k hk.
  rewrite (nth_map [::]) ?z1 // (nth_map G0) //; have := z2 k hk; rewrite nS //.
  by have [fre [ww [_ [C [-> [? _ _]]]]]] := FP k hk; case=> <-.
- move=> c /flattenP[d /(nthP [::])[k hk <-]]; rewrite z1 in hk; have := z2 k hk; rewrite nS //.
  have [fre [ww [e1 [C [-> [_ c3 _]]]]]] := FP k hk; case=> <- /c3[row [col [y [h1 h2 h3]]]].
  by exists k, row, col, y; split=> //; exists fre, ww.
move=> i row col hi h1 h2; have [fre [ww [e1 [C [e2 [_ _ c4]]]]]] := FP i hi.
have [y [y' [m1 m2 m3 m4]]] := c4 row col h1 h2; exists fre, ww, y, y'; split=> //.
have := z2 i hi; rewrite nS // e2 => -[eC].
by split=> //; apply/flattenP; exists (nth [::] cs i); rewrite ?mem_nth ?z1 // -eC.
Qed.


Lemma dyn_resp G w u : pdyn qr hess G -> known_unit u -> let W := below_nyquist twopi (pdt G) (in_rad twopi u w) in
  pdt G = None \/ W != [::] ->
  exists fre, fresp f qr hess ii expL twopi G w u = Ok (fre, to_unit twopi u W) /\
    forall row col, (row < prows G)%N -> (col < pcols G)%N -> size (samples fre row col) = size W /\
      forall k, (k < size W)%N -> pval f qr hess G (jw f ii expL (pdt G) (nth 0 W k)) row col (sample fre row col k).
Proof.
case: G => [G [w0 hg n0 hr]|G hg] ku W hW.
  have [fre [E H]] := @fr_stateP R L f qr hess ii expL twopi G w u u w0 hg n0 ku ku hr hW.
  exists fre; split=> // row col h1 h2; have [h3 h4] := H row col h1 h2; split=> // k hk.
  by have := h4 k hk; rewrite /=; case: (sample _ _ _ _) => [v [r -> _]|//].
have [fre [E H]] := @fr_transferP R L f ii expL twopi G w u u hg ku ku hW.
exists fre; split=> // row col h1 h2; rewrite (H row col h1 h2) size_map; split=> // k hk.
by rewrite /sample -/(samples fre row col) (H row col h1 h2) (nth_map 0).
Qed.

(* the values, for models with dynamics and given frequencies: every curve of system i shows the transfer function of
   system i on the given frequencies, without those above the Nyquist frequency *)
Theorem C81_values_partial Gs w u nsty : unwrap_like pi unwrap -> (0 < size Gs <= nsty)%N -> known_unit u ->
  (forall i, (i < size Gs)%N -> let G := nth G0 Gs i in pdyn qr hess G /\
    (pdt G = None \/ below_nyquist twopi (pdt G) (in_rad twopi u w) != [::])) ->
  exists C, bode Gs (Some w) u nsty = Ok C /\
  forall i row col, (i < size Gs)%N -> let G := nth G0 Gs i in (row < prows G)%N -> (col < pcols G)%N ->
    let W := below_nyquist twopi (pdt G) (in_rad twopi u w) in
    exists y y', [/\ (i, (2 * row)%N, col, to_unit twopi u W, y) \in C, (i, (2 * row).+1, col, to_unit twopi u W, y') \in C &
      forall k, (k < size W)%N -> exists v, [/\ pval f qr hess G (jw f ii expL (pdt G) (nth 0 W k)) row col v,
        shown_mag scale log10 cmod v (nth None y k) & shown_phase pi unit_ angle v (nth None y' k)]].
Proof.
move=> hu hn ku hd.
have su W : size (to_unit twopi u W) = size W by rewrite /to_unit; case: ifP; rewrite ?size_map.
have hr i : (i < size Gs)%N -> exists fre ww, respond (Some w) u (nth G0 Gs i) = Ok (fre, ww) /\
    forall row col, (row < prows (nth G0 Gs i))%N -> (col < pcols (nth G0 Gs i))%N -> size (samples fre row col) = size ww.
  move=> hi; have [h1 h2] := hd i hi; have [fre [E H]] := dyn_resp h1 ku h2; eexists fre, _; split; first exact: E.
  by move=> row col h3 h4; have [-> _] := H row col h3 h4; rewrite su.
have [C [E _ _ H]] := C81_bode_partial (w := Some w) hu hn erefl hr.
exists C; split=> // i row col hi G h1 h2 W.
have [fre [ww [y [y' [er [m1 m2 m3 m4]]]]]] := H i row col hi h1 h2.
have [h3 h4] := hd i hi; have [fre' [E' H']] := dyn_resp h3 ku h4; move: er; rewrite /= E' => -[efre eww]; subst.
have [sz vk] := H' row col h1 h2; exists y, y'; split=> // k hk; exists (sample fre row col k).
split; first exact: vk.
  by case: m2 => _; apply; rewrite su.
by case: m4 => _ h _; apply: h; rewrite su.
Qed.

(* False of the code: the systems beyond the entries of the style are not drawn *)
Theorem C81_style_refuted Gs w u nsty C c : bode Gs w u nsty = Ok C -> c \in C -> (c.1.1.1.1 < nsty)%N.
Proof.
rewrite /bode_plot; case: ifP => // _; case: (grid _ _ _) => //= w'; set F := fun x : nat * psys R => _.
case E: (collect _ _) => [cs|] //= [<-] /flattenP[d /(nthP [::])[k hk <-]].
have [z1 z2] := collectP (0%N, G0) [::] E; rewrite z1 in hk; have := z2 k hk.
have hk' : (k < nsty)%N by move: hk; rewrite size_take; case: ifP => // h1 h2; apply: leq_trans h2 _; rewrite leqNgt h1.
have hk2 : (k < size Gs)%N.
  by move: hk; rewrite size_take size_zip size_iota minnn; case: ifP => // h1 h2; exact: ltn_trans h2 h1.
rewrite nth_take // nth_zip ?size_iota // nth_iota // add0n /F /=; case: (respond _ _ _) => //= -[fre ww].
rewrite /bode_curves; case E2: (collect _ _) => [ds|] //= [<-] /flattenP[e /(nthP [::])[l hl <-]].
have [y1 y2] := collectP (0, 0)%N [::] E2; rewrite y1 in hl; have := y2 l hl.
by case: (nth _ _ l) => row col; case: ifP => // _ [<-]; rewrite !inE => /orP[]/eqP->.
Qed.

(* False of the code: without frequencies, several systems are all drawn on the frequencies of the first; the grids
   computed for the others are not used *)
Theorem C81_common_grid_refuted Gs u nsty : (1 < size Gs)%N ->
  bode Gs None u nsty = (do W <- common_grid own log10 exp10 flr Gs;
                         bode Gs (Some (to_unit twopi u (head [::] W))) u nsty) /\
  nyquist Gs None u nsty = (do W <- common_grid own log10 exp10 flr Gs;
                         nyquist Gs (Some (to_unit twopi u (head [::] W))) u nsty).
Proof.
move=> h; rewrite /bode_plot /nyquist_plot (ltnW h) /plot_grid h.
by case: (common_grid _ _ _ _ _).
Qed.

(* False of the code: a static gain cannot be drawn on given frequencies unless there are two of them *)
Theorem C81_gain_refuted G w u nsty : pgain G -> pdt G = None -> known_unit u -> (0 < nsty)%N ->
  (0 < prows G)%N -> (0 < pcols G)%N -> size w != 2%N -> is_ok (bode [:: G] (Some w) u nsty) = false.
Proof.
move=> hg hd ku n0 r0 c0 hw; rewrite /bode_plot /=; case: nsty n0 => // n _ /=.
case E: (fresp _ _ _ _ _ _ G w u) => [[fre ww]|] //=.
have sz : size (samples fre 0 0) = 2%N /\ size ww = size w.
  case: G hg hd r0 c0 E => G /= hg hd r0 c0 E.
    have [h _] := C46_gain_refuted f qr hess ii expL twopi w u u; split; first by rewrite (h G fre ww hg E).
    move: E; rewrite /fr_state; case: ifP => // _; rewrite freq_gridE hd /= => -[_ <-].
    by rewrite out_gridE // /to_unit /in_rad; do 2?[case: ifP => _]; rewrite ?size_map.
  have [_ h] := C46_gain_refuted f qr hess ii expL twopi w u u; split; first by rewrite (h G fre ww hg E).
  move: E; rewrite /fr_transfer; case: ifP => // _; rewrite freq_gridE hd /=; case: (if tgain G then _ else _) => //= x [_ <-].
  by rewrite out_gridE // /to_unit /in_rad; do 2?[case: ifP => _]; rewrite ?size_map.
rewrite /bode_curves /=; case: (pcols G) c0 => // pc _; case: (prows G) r0 => // pr _ /=.
by rewrite size_map -[chan fre 0 0]/(samples fre 0 0); case: sz => -> ->; rewrite eq_sym (negbTE hw).
Qed.

(* False of the code: where a sample is zero or not a number, the magnitude is nan but the phase is what happens to be in
   the memory of the array *)
Theorem C81_phase_refuted fre row col k : (k < size (samples fre row col))%N ->
  sample fre row col k = None \/ sample fre row col k = Some 0 ->
  exists q, nth None (phases unit_ angle unwrap junk fre row col) k = Some (unit_ * junk q).
Proof.
move=> hk hv; rewrite /phases; have [h1 h2] := nth_flat2 None hk.
set pos := (_ + _ + _)%N in h1 h2; exists pos.
have e : nth None [seq denan v | v <- flatten (flatten fre)] pos = None.
  rewrite (nth_map None) // h1 -[nth None _ k]/(sample fre row col k).
  by case: hv => ->; rewrite /= ?eqxx.
have -> : has (fun v => ~~ isSome v) [seq denan v | v <- flatten (flatten fre)].
  by apply/hasP; exists None => //; rewrite -e mem_nth // size_map.
rewrite (nth_map 0) ?size_mkseq // nth_mkseq //; by rewrite e.
Qed.

(* ---- Nyquist ---- *)
(* one curve, its mirror image and the critical point for every system and channel *)
Theorem C81_nyquist_partial Gs w u nsty w' : (0 < size Gs <= nsty)%N -> grid Gs w u = Ok w' ->
  (forall i, (i < size Gs)%N -> is_ok (respond w' u (nth G0 Gs i))) ->
  exists C, nyquist Gs w u nsty = Ok C /\
  forall i row col, (i < size Gs)%N -> (row < prows (nth G0 Gs i))%N -> (col < pcols (nth G0 Gs i))%N ->
    exists fre ww, respond w' u (nth G0 Gs i) = Ok (fre, ww) /\
    [/\ (i, row, col, [seq omap (fun x => (re x, im x)) v | v <- samples fre row col]) \in C,
        (i, row, col, [seq omap (fun x => (re x, - im x)) v | v <- samples fre row col]) \in C &
        (i, row, col, [:: Some (-1, 0)]) \in C].
Proof.
move=> /andP[n0 hn] hg hr; rewrite /nyquist_plot n0 hg [bind _ _]/= take_oversize ?size_zip ?size_iota ?minnn //.
set F := fun x : nat * psys R => _; set S := zip _ _.
have sS : size S = size Gs by rewrite size_zip size_iota minnn.
have nS i : (i < size Gs)%N -> nth (0%N, G0) S i = (i, nth G0 Gs i).
  by move=> hi; rewrite nth_zip ?size_iota // nth_iota.
have [|cs Ecs] := @collect_ok _ _ F S (0%N, G0).
  move=> k; rewrite sS => hk; rewrite nS // /F /=; have := hr k hk; case: (respond _ _ _) => //= r _; by eexists.
rewrite Ecs [bind _ _]/=; have [z1 z2] := collectP (0%N, G0) [::] Ecs; rewrite sS in z1 z2.
exists (flatten cs); split=> // i row col hi h1 h2.
have := z2 i hi; rewrite nS // /F /=; have := hr i hi; case: (respond _ _ _) => //= -[fre ww] _ [eC].
exists fre, ww; split=> //.
have inC c : c \in nyquist_curves re im i (nth G0 Gs i) (fre, ww) -> c \in flatten cs.
  by move=> hc; apply/flattenP; exists (nth [::] cs i); rewrite ?mem_nth ?z1 // -eC.
have hm : (row, col) \in [seq (r, c) | c <- iota 0 (pcols (nth G0 Gs i)), r <- iota 0 (prows (nth G0 Gs i))].
  by apply/allpairsP; exists (col, row); rewrite !mem_iota.
by split; apply: inC; apply/flatten_mapP; exists (row, col) => //; rewrite !inE eqxx ?orbT.
Qed.

(* ---- the common grid ---- *)
Lemma nsampP g x n : floor_like flr -> 0 < x -> nsamp flr g x = Ok n -> (0 < n)%N /\ (g \/ 1 < x * 15%:R -> (1 < n)%N).
Proof.
rewrite /nsamp => fl x0; case: g => [[<-] //|]; case E: (- flr _) => [k|//] [<-]; have /andP[h _] := ceilP fl (x * 15%:R).
rewrite /rceil E -pmulrn in h; split; first by rewrite -(ltr0n R); apply: lt_le_trans h; rewrite mulr_gt0 // ltr0n.
by case=> // h2; rewrite -(ltr1n R); apply: lt_le_trans h.
Qed.

Lemma head_logsp a b n : (0 < n)%N -> head 0 (logsp exp10 a b n) = exp10 a.
Proof. by case: n => // n _; rewrite /= mul0r addr0. Qed.
Lemma last_logsp a b n : (1 < n)%N -> last 0 (logsp exp10 a b n) = exp10 b.
Proof.
move=> n1; rewrite -nth_last size_mkseq nth_mkseq; last by lia.
by rewrite mulrCA divff ?mulr1 1?addrC ?subrK // pnatr_eq0; lia.
Qed.

(* padding a grid on one side reaches the smallest and the largest frequency of all systems, the latter if there is room
   for two samples *)
Theorem C81_pad_partial minw maxw G w w' : pow10_like exp10 log10 -> floor_like flr -> w != [::] ->
  0 < minw <= head 0 w -> 0 < last 0 w <= maxw -> pad log10 exp10 flr minw maxw G w = Ok w' ->
  (last 0 w = maxw \/ pdt G <> None -> head 0 w' = minw /\ last 0 w' = last 0 w) /\
  (head 0 w = minw -> last 0 w < maxw -> pdt G = None -> head 0 w' = minw /\
    (pgain G \/ 1 < (log10 maxw - log10 (last 0 w)) * 15%:R -> last 0 w' = maxw)).
Proof.
move=> pw fl wn /andP[m0 hm] /andP[l0 hl]; rewrite /pad.
have h0 : 0 < head 0 w by apply: lt_le_trans hm.
have mx0 : 0 < maxw by apply: lt_le_trans hl.
have hw (t : seq R) : head 0 (w ++ t) = head 0 w by case: (w) wn.
have lw (t : seq R) : last 0 (t ++ w) = last 0 w by rewrite last_cat; case: (w) wn.
move=> H; split.
- move=> hc; move: H; have -> : (last 0 w < maxw) && (if pdt G is Some _ then false else true) = false.
    by case: hc => [->|]; [rewrite ltxx | case: (pdt G) => // ? _; rewrite andbF].
  case: ltP => h; last by move=> /= -[<-]; split=> //; apply/eqP; rewrite eq_le h hm.
  case E: (nsamp _ _ _) => [n|//] /= -[<-]; rewrite lw; split=> //.
  have [|n0 _] := nsampP fl _ E; first by rewrite subr_gt0 (l10_lt pw).
  by case: (n) n0 => // k _; rewrite /= mul0r addr0 (e10K pw).
move=> e h1 h2; move: H; rewrite e ltxx h1 h2 /=; case E: (nsamp _ _ _) => [n|//] /= -[<-]; rewrite hw; split=> // h3.
have [|n0 n1] := nsampP fl _ E; first by rewrite subr_gt0 (l10_lt pw).
have {}n1 := n1 h3; rewrite last_cat; have := last_logsp (log10 (last 0 w)) (log10 maxw) n1.
by case: (n) n1 => // k _ /= ->; rewrite (e10K pw).
Qed.

(* False of the code: when a grid must be padded on both sides, the padding below is lost *)
Theorem C81_pad_refuted minw maxw G w w' : w != [::] -> minw < head 0 w -> last 0 w < maxw -> pdt G = None ->
  pad log10 exp10 flr minw maxw G w = Ok w' -> head 0 w' = head 0 w /\ minw < head 0 w'.
Proof.
move=> wn h1 h2 h3; rewrite /pad h1 h2 h3 /=; case: (nsamp _ _ _) => //= n; case: (nsamp _ _ _) => //= m [<-].
by case: (w) wn h1.
Qed.
End C81.
Print Assumptions C81_pad_partial.
Print Assumptions C81_pad_refuted.
Print Assumptions C81_bode_partial.
Print Assumptions C81_values_partial.
Print Assumptions C81_style_refuted.
Print Assumptions C81_common_grid_refuted.
Print Assumptions C81_gain_refuted.
Print Assumptions C81_phase_refuted.
Print Assumptions C81_nyquist_partial.

(* ---- the hypotheses are met: a computable np.unwrap over the rationals, with 3 for pi ---- *)
Local Notation Q := rat_realFieldType.
Fixpoint unw_from (prev : Q) (s : seq Q) : seq Q :=
  if s is x :: s then
    let y := x + (gx_floor ((prev - x) / (2%:R * gx_pi) + 2%:R^-1))%:~R * (2%:R * gx_pi) in y :: unw_from y s
  else [::].
Definition unw (s : seq Q) : seq Q := if s is x :: s then x :: unw_from x s else [::].
Lemma unw_step (a x : Q) : `|x + (gx_floor ((a - x) / (2%:R * gx_pi) + 2%:R^-1))%:~R * (2%:R * gx_pi) - a| <= gx_pi.
Proof.
set z := gx_floor _; have /andP[h1 h2] := gx_floorP ((a - x) / (2%:R * gx_pi) + 2%:R^-1); rewrite -/z in h1 h2.
have p0 : (0 : Q) < 2%:R * gx_pi by [].
have e : (a - x) = (a - x) / (2%:R * gx_pi) * (2%:R * gx_pi) by rewrite divfK.
rewrite -addrA addrCA -[x - a]opprB e -mulrBl normrM (ger0_norm (ltW p0)).
have -> : gx_pi = 2%:R^-1 * (2%:R * gx_pi) by apply/eqP; vm_compute.
rewrite ler_pmul2r //; move: h1 h2; set t := _ / _; rewrite ler_norml => h1 h2.
have e2 : (2%:R : Q)^-1 + 2%:R^-1 = 1 by apply/eqP; vm_compute.
rewrite ler_subl_addl h1 andbT ler_subr_addl -(ler_add2r 1) -[X in _ + X <= _]e2 addrA addrK; exact: ltW.
Qed.
Lemma unw_fromP (s : seq Q) (prev : Q) : size (unw_from prev s) = size s /\
  forall k, (k < size s)%N -> (exists z : int, nth 0 (unw_from prev s) k = nth 0 s k + z%:~R * (2%:R * gx_pi)) /\
    `|nth 0 (unw_from prev s) k - nth 0 (prev :: unw_from prev s) k| <= gx_pi.
Proof.
elim: s prev => [|x s IH] prev //; have [h1 h2] := IH (x + (gx_floor ((prev - x) / (2%:R * gx_pi) + 2%:R^-1))%:~R * (2%:R * gx_pi)).
split; first by rewrite /= h1.
case=> [_|k hk]; last by have := h2 k hk.
by split; [eexists; reflexivity | exact: unw_step].
Qed.
Example C81_unwrap : unwrap_like gx_pi unw.
Proof.
case=> [|x s]; first by split.
have [h1 h2] := unw_fromP s x; split=> [|//||].
- by rewrite /= h1.
- case=> [_|k hk]; first by exists 0; rewrite mul0r addr0.
  by have [h _] := h2 k hk.
by move=> k hk; have [_ h] := h2 k hk.
Qed.

(* two systems, 1/(s+1) and [s/(s+2); 3/s], on the frequencies 1 and 2 rad/s *)
Definition px_G : psys Q := PT (Tf [:: [:: [:: 1]]] [:: [:: [:: 1; 1]]] false None).
Definition px_H : psys Q :=
  PT (Tf [:: [:: [:: 1; 0]]; [:: [:: 3%:R]]] [:: [:: [:: 1; 2%:R]]; [:: [:: 1; 0]]] false None).
Local Notation pxbode := (bode_plot (c_of_rmorphism Q) (fun a => (a, a)) (fun a => (a, a)) (Cpl 0 1) gx_expL (2%:R * gx_pi)
  (fun _ => Ok [:: 1; 2%:R]) (fun _ _ => Err ValueError) gx_log gx_exp gx_floor 20%:R 1
  (fun x : cpl Q => `|cre x| + `|cim x|) (fun x : cpl Q => cim x) unw (fun _ => 7%:R)).
Example C81_values_ex : exists C, pxbode [:: px_G; px_H] (Some [:: 1; 2%:R]) "rad/s"%string 10 = Ok C /\
  exists y y', [/\ (1%N, 2%N, 0%N, [:: 1; 2%:R], y) \in C, (1%N, 3%N, 0%N, [:: 1; 2%:R], y') \in C &
    forall k, (k < 2)%N -> exists v, [/\
      pval (c_of_rmorphism Q) (fun a => (a, a)) (fun a => (a, a)) px_H (Cpl 0 1 * c_of_rmorphism Q (nth 0 [:: 1; 2%:R] k)) 1 0 v,
      shown_mag 20%:R gx_log (fun x : cpl Q => `|cre x| + `|cim x|) v (nth None y k) &
      shown_phase gx_pi 1 (fun x : cpl Q => cim x) v (nth None y' k)]].
Proof.
have [||||C [E H]] := @C81_values_partial Q _ (c_of_rmorphism Q) (fun a => (a, a)) (fun a => (a, a)) (Cpl 0 1) gx_expL gx_pi
  (fun _ => Ok [:: 1; 2%:R]) (fun _ _ => Err ValueError) gx_log gx_exp gx_floor 20%:R 1
  (fun x : cpl Q => `|cre x| + `|cim x|) (fun x : cpl Q => cim x) unw (fun _ => 7%:R) [:: px_G; px_H] [:: 1; 2%:R] "rad/s" 10.
- exact: C81_unwrap.
- by [].
- by [].
- by case=> [|[|//]] _ /=; split=> //; left.
exists C; split; first exact: E.
have [y [y' [m1 m2 m3]]] := H 1%N 1%N 0%N isT isT isT; exists y, y'; split; [exact: m1 | exact: m2 |].
by move=> k hk; have [v [h1 h2 h3]] := m3 k hk; exists v; split; [exact: h1 | exact: h2 | exact: h3].
Qed.

Example C81_style_ex : is_ok (pxbode [:: px_G; px_H] (Some [:: 1; 2%:R]) "rad/s"%string 1) /\
  forall C c, pxbode [:: px_G; px_H] (Some [:: 1; 2%:R]) "rad/s"%string 1 = Ok C -> c \in C -> c.1.1.1.1 = 0%N.
Proof.
split; first by vm_compute.
by move=> C c E hc; have := C81_style_refuted E hc; case: (c.1.1.1.1).
Qed.

Example C81_gain_ex : is_ok (pxbode [:: PT (Tf [:: [:: [:: 5%:R]]] [:: [:: [:: 1]]] true None)] (Some [:: 1; 2%:R; 3%:R])
  "rad/s"%string 10) = false.
Proof. exact: C81_gain_refuted. Qed.

(* a grid that starts at 1 and ends at 10, among systems whose grids reach from 1/10 to 100 *)
Example C81_pad_ex : exists w', pad (fun x : Q => if x == 10%:R^-1 then -1 else if x == 1 then 0 else if x == 10%:R then 1 else 2%:R)
   (fun x => x) gx_floor 10%:R^-1 100%:R px_G [:: 1; 10%:R] = Ok w' /\ head 0 w' = 1.
Proof. by eexists; split; [vm_compute; reflexivity | vm_compute]. Qed.
