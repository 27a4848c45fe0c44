(* Property C61: the steady-state gain of Transfer models.  The meaning of the gain is steady in SpecDc.v;
   wfT, evT: consistent Transfer objects and their values (DenoteT.v). *)
From mathcomp Require Import all_ssreflect all_algebra.
From Verif Require Import Base BaseTheory Spec ModelPoly PolyTheory PolyOps ModelState StateProps ModelTransfer DenoteT TransferTheory
  TransferOps TransferProps RingTac ModelDc SpecDc.

Set Implicit Arguments.
Unset Strict Implicit.
Unset Printing Implicit Defensive.

Import Order.TTheory GRing.Theory Num.Theory.
Local Open Scope ring_scope.

Local Notation Q := rat_realFieldType.

Section DcTheory.
Variable R : realFieldType.
Implicit Types (p q num den : seq R).

Lemma polyhi_rcons p (x : R) : polyhi (rcons p x) = polyhi p * 'X + x%:P.
Proof. by rewrite -cats1 polyhi_cat polyhi1 expr1. Qed.

Lemma polyval0 p (x : R) : polyval (rcons p x) 0 = x.
Proof. by rewrite polyvalE polyhi_rcons hornerD hornerM hornerX mulr0 add0r hornerC. Qed.

Lemma take_rcons_pred p (x : R) : take (size (rcons p x)).-1 (rcons p x) = p.
Proof. by rewrite size_rcons /= -cats1 take_size_cat. Qed.

Lemma steady_lift x0 (n d : {poly R}) v : steady x0 n d v -> steady x0 (('X - x0%:P) * n) (('X - x0%:P) * d) v.
Proof.
rewrite /steady mulf_eq0 polyXsubC_eq0 /=; case: eqP => // _ [k [a [b [-> -> h ->]]]].
by exists k.+1, a, b; rewrite !exprS !mulrA.
Qed.

Lemma steady0 x0 (n d : {poly R}) : (n.[x0] != 0) || (d.[x0] != 0) ->
  steady x0 n d (if d.[x0] != 0 then Fin (n.[x0] / d.[x0]) else Inf R (0 < n.[x0])).
Proof.
move=> h; rewrite /steady; case: eqVneq => [e|ne]; last by exists 0%N, n, d; rewrite expr0 !mul1r.
by move: h; rewrite e horner0 eqxx /= => ->; rewrite mul0r.
Qed.

Lemma fdivE (a b : R) : (a != 0) || (b != 0) -> fdiv a b = Ok (if b != 0 then Fin (a / b) else Inf R (0 < a)).
Proof. by rewrite /fdiv; case: (eqVneq b 0) => //= _; rewrite orbF => /negbTE->. Qed.

Lemma dc_stripP cnt num den : size num = cnt -> head 0 den != 0 ->
  exists v, dc_strip cnt num den = Ok v /\ steady 0 (polyhi num) (polyhi den) v.
Proof.
elim: cnt num den => [|c IH] num den.
  by move/size0nil=> -> _; exists (Fin 0); rewrite /steady polyhi_nil eqxx.
case/lastP: num => // p x; rewrite size_rcons => -[sp].
case/lastP: den => [|q y]; first by rewrite eqxx.
move=> h /=; have -> : forall (T : Type) (a b : T), (if rcons p x is [::] then a else b) = b by case: (p).
have -> : forall (T : Type) (a b : T), (if rcons q y is [::] then a else b) = b by case: (q).
rewrite !last_rcons !take_rcons_pred !polyval0.
have ex (r : seq R) z : (polyhi (rcons r z)).[0] = z by rewrite -polyvalE polyval0.
have brk : (x != 0) || (y != 0) -> exists v, fdiv x y = Ok v /\ steady 0 (polyhi (rcons p x)) (polyhi (rcons q y)) v.
  move=> h0; exists (if y != 0 then Fin (x / y) else Inf R (0 < x)); split; first exact: fdivE.
  by have := @steady0 0 (polyhi (rcons p x)) (polyhi (rcons q y)); rewrite !ex; apply.
case: (eqVneq x 0) brk h => [-> brk h|ne brk _]; last by apply: brk.
case: (eqVneq y 0) brk h => [-> _ h|ne brk _]; last by apply: brk.
have hq : head 0 q != 0 by move: h; case: (q) => //=; rewrite eqxx.
have [v [E H]] := IH p q sp hq; exists v; split=> //.
have := steady_lift H; rewrite subr0 !polyhi_rcons !addr0 mulrC ['X * _]mulrC; exact.
Qed.

(* division by X - 1 *)
Lemma asum_rcons p (x : R) : asum (rcons p x) = asum p + x.
Proof. by elim: p => [|y p IH] /=; rewrite ?add0r ?addr0 // IH addrA. Qed.
Lemma cumsum_rcons p (x : R) : cumsum (rcons p x) = rcons (cumsum p) (asum p + x).
Proof.
have g a : scanl +%R a (rcons p x) = rcons (scanl +%R a p) (a + asum p + x).
  by elim: p a => [|y p IH] a /=; rewrite ?addr0 // IH addrA.
by rewrite /cumsum g add0r.
Qed.
Lemma deconv_rcons p (x : R) : deconv1 (rcons p x) = cumsum p.
Proof.
rewrite /deconv1 size_rcons; case: ltnP => h; first by case: (p) h.
by rewrite cumsum_rcons -cats1 -(size_scanl +%R 0 p) take_size_cat.
Qed.
Lemma cumsumP p : polyhi p * 'X = ('X - 1%:P) * polyhi (cumsum p) + (asum p)%:P.
Proof.
elim/last_ind: p => [|p x IH]; first by rewrite /= !polyhi_nil mul0r mulr0 addr0.
rewrite cumsum_rcons !polyhi_rcons asum_rcons !polyCD.
have {}IH : polyhi p * 'X = ('X - 1%:P) * polyhi (cumsum p) + (asum p)%:P by [].
rewrite mulrDl IH; move: (polyhi (cumsum p)) ((asum p)%:P) (x%:P) ('X : {poly R}) => c s y X; rewrite polyC1.
mc_ring (poly_comRingType R).
Qed.
Lemma deconvP p : polyhi p = ('X - 1%:P) * polyhi (deconv1 p) + (asum p)%:P.
Proof.
case/lastP: p => [|p x]; first by rewrite /deconv1 /= !polyhi_nil mulr0 addr0.
by rewrite deconv_rcons polyhi_rcons cumsumP asum_rcons polyCD addrA.
Qed.
Lemma asumE p : asum p = (polyhi p).[1].
Proof. by rewrite [in RHS]deconvP hornerD hornerM hornerXsubC subrr mul0r add0r hornerC. Qed.
Lemma size_deconv p : size (deconv1 p) = (size p).-1.
Proof. by case/lastP: p => // p x; rewrite deconv_rcons size_rcons /cumsum size_scanl. Qed.

Lemma dc_strip1_zero tol cnt num den : 0 < tol -> polyhi num = 0 -> dc_strip1 tol cnt num den = Ok (Fin 0).
Proof.
move=> t0; elim: cnt num den => //= c IH num den n0.
have a0 : asum num = 0 by rewrite asumE n0 horner0.
rewrite a0 normr0 t0 /=; case: ltP => h.
  apply: IH; move: (deconvP num); rewrite n0 a0 addr0 => /esym/eqP.
  by rewrite mulf_eq0 polyXsubC_eq0 => /eqP.
rewrite /fdiv mul0r; case: eqVneq => // e; move: h; rewrite e normr0 => h.
by have := lt_le_trans t0 h; rewrite ltxx.
Qed.

Lemma dc_strip1P tol k (a b : {poly R}) num den : 0 < tol -> polyhi num != 0 ->
  polyhi num = ('X - 1%:P) ^+ k * a -> polyhi den = ('X - 1%:P) ^+ k * b -> (tol <= `|a.[1]|) || (tol <= `|b.[1]|) ->
  dc_strip1 tol (size num) num den = Ok (if b.[1] != 0 then Fin (a.[1] / b.[1]) else Inf R (0 < a.[1])).
Proof.
move=> t0; elim: k num den => [|k IH] num den n0.
  rewrite !expr0 !mul1r => ea eb h; case sn: (size num) => [|c] /=.
    by move: n0; rewrite (size0nil sn) polyhi_nil eqxx.
  rewrite !asumE ea eb; have -> : (`|a.[1]| < tol) && (`|b.[1]| < tol) = false.
    by apply/negbTE; rewrite negb_and -!leNgt.
  rewrite fdivE //; case/orP: h => h; apply/orP; [left|right].
    by rewrite -normr_gt0; exact: lt_le_trans h.
  by rewrite -normr_gt0; exact: lt_le_trans h.
rewrite !exprS -!mulrA => ea eb h; case sn: (size num) => [|c] /=.
  by move: n0; rewrite (size0nil sn) polyhi_nil eqxx.
have zz p (q : {poly R}) : polyhi p = ('X - 1%:P) * q -> asum p = 0 /\ polyhi (deconv1 p) = q.
  move=> e; have a0 : asum p = 0 by rewrite asumE e hornerM hornerXsubC subrr mul0r.
  split=> //; move: (deconvP p); rewrite a0 addr0 e => /esym; apply: mulfI; by rewrite polyXsubC_eq0.
have [s1 e1] := zz _ _ ea; have [s2 e2] := zz _ _ eb.
rewrite s1 s2 normr0 t0 /=.
have -> : c = size (deconv1 num) by rewrite size_deconv sn.
apply: IH => //; rewrite e1; move: n0; rewrite ea; apply: contra => /eqP->; by rewrite mulr0.
Qed.
End DcTheory.

(* common factors of a nonzero num with den can be split off *)
Lemma common_root (R : realFieldType) (x : R) (n d : {poly R}) : n != 0 ->
  exists k a b, [/\ n = ('X - x%:P) ^+ k * a, d = ('X - x%:P) ^+ k * b & (a.[x] != 0) || (b.[x] != 0)].
Proof.
move=> n0; have [i [a ha en]] := multiplicity_XsubC n x; have [j [b hb ed]] := multiplicity_XsubC d x.
rewrite n0 /= in ha.
case: (eqVneq d 0) hb ed => [d0 _ _|d0 hb ed].
  by exists i, a, 0; rewrite mulr0 en mulrC /root in ha *; rewrite ha.
rewrite /= in hb; case: (leqP i j) => hij.
  exists i, a, (('X - x%:P) ^+ (j - i) * b); split; [by rewrite mulrC| | by rewrite /root in ha; rewrite ha].
  by rewrite mulrA -exprD subnKC // mulrC.
exists j, (('X - x%:P) ^+ (i - j) * a), b; split; [|by rewrite mulrC| by rewrite /root in hb; rewrite hb orbT].
by rewrite mulrA -exprD subnKC 1?ltnW // mulrC.
Qed.

Lemma gridR_all (A : Type) (a0 : A) p m (h : nat -> nat -> res A) (P : nat -> nat -> A -> Prop) :
  (forall i j, (i < p)%N -> (j < m)%N -> exists v, h i j = Ok v /\ P i j v) ->
  exists V, [/\ gridR p m h = Ok V, rect p m V & forall i j, (i < p)%N -> (j < m)%N -> P i j (gnt a0 V i j)].
Proof.
move=> H; have E : gridR p m h = Ok (grid p m (fun i j => if h i j is Ok v then v else a0)).
  by apply: gridR_tot => i j hi hj; have [v [-> _]] := H i j hi hj.
have [r e] := gridR_ok a0 E; eexists; split; [exact: E| exact: r|] => i j hi hj.
by have [v [e' hv]] := H i j hi hj; move: (e i j hi hj); rewrite e' => -[<-].
Qed.

(* ------------------------------------------------------------------ C61 *)
(* continuous models: the property is computed for every entry and it is the steady-state gain at s = 0, for
   common integrators of any multiplicity *)
Theorem C61_continuous (R : realFieldType) (tol : R) (G : tf R) : wfT G -> tgain G = false -> tdt G = None ->
  exists V, [/\ tf_dcgain tol G = Ok V, rect (tp G) (tm G) V &
    forall i j, (i < tp G)%N -> (j < tm G)%N ->
      steady 0 (polyhi (ent (tn G) i j)) (polyhi (ent (td G) i j)) (gnt (Fin 0) V i j)].
Proof.
move=> w hg hdt; rewrite /tf_dcgain hg hdt /=; apply: (@gridR_all _ (Fin 0) _ _ _ (fun i j => steady 0 (polyhi (ent (tn G) i j)) (polyhi (ent (td G) i j)))) => i j hi hj; apply: dc_stripP => //.
by case: (wfTP w) => _ h _ _ _; exact: h.
Qed.
Print Assumptions C61_continuous.

(* discrete models: the same at z = 1, provided the threshold tol does not exceed the values left after the
   cancellation (num and den of each entry after dividing out the common factors z - 1) *)
Theorem C61_discrete_partial (R : realFieldType) (tol : R) (G : tf R) : wfT G -> tgain G = false -> tdt G <> None -> 0 < tol ->
  (forall i j, (i < tp G)%N -> (j < tm G)%N -> polyhi (ent (tn G) i j) = 0 \/
     exists k a b, [/\ polyhi (ent (tn G) i j) = ('X - 1%:P) ^+ k * a, polyhi (ent (td G) i j) = ('X - 1%:P) ^+ k * b &
       (tol <= `|a.[1]|) || (tol <= `|b.[1]|)]) ->
  exists V, [/\ tf_dcgain tol G = Ok V, rect (tp G) (tm G) V &
    forall i j, (i < tp G)%N -> (j < tm G)%N ->
      steady 1 (polyhi (ent (tn G) i j)) (polyhi (ent (td G) i j)) (gnt (Fin 0) V i j)].
Proof.
move=> w hg hdt t0 H; rewrite /tf_dcgain hg; case: (tdt G) hdt => // dt _ /=; apply: (@gridR_all _ (Fin 0) _ _ _ (fun i j => steady 1 (polyhi (ent (tn G) i j)) (polyhi (ent (td G) i j)))) => i j hi hj.
have [n0|ne] := eqVneq (polyhi (ent (tn G) i j)) 0.
  by exists (Fin 0); rewrite dc_strip1_zero // n0 /steady eqxx.
case: (H i j hi hj) => [e|[k [a [b [ea eb h]]]]]; first by rewrite e eqxx in ne.
eexists; split; first exact: (dc_strip1P t0 ne ea eb h).
rewrite /steady (negbTE ne); exists k, a, b; split=> //.
by case/orP: h => h; apply/orP; [left|right]; rewrite -normr_gt0; exact: lt_le_trans h.
Qed.
Print Assumptions C61_discrete_partial.

(* so for every discrete model all small enough thresholds give the right answer *)
Theorem C61_discrete_small_tol (R : realFieldType) (G : tf R) : wfT G -> tgain G = false -> tdt G <> None ->
  exists tol0, 0 < tol0 /\ forall tol, 0 < tol -> tol <= tol0 ->
    exists V, [/\ tf_dcgain tol G = Ok V, rect (tp G) (tm G) V &
      forall i j, (i < tp G)%N -> (j < tm G)%N ->
        steady 1 (polyhi (ent (tn G) i j)) (polyhi (ent (td G) i j)) (gnt (Fin 0) V i j)].
Proof.
move=> w hg hdt.
have one i j : exists t, 0 < t /\ forall tol, 0 < tol -> tol <= t -> polyhi (ent (tn G) i j) = 0 \/
     exists k a b, [/\ polyhi (ent (tn G) i j) = ('X - 1%:P) ^+ k * a, polyhi (ent (td G) i j) = ('X - 1%:P) ^+ k * b &
       (tol <= `|a.[1]|) || (tol <= `|b.[1]|)].
  have [n0|ne] := eqVneq (polyhi (ent (tn G) i j)) 0; first by exists 1; split; [exact: ltr01 | left].
  have [k [a [b [ea eb h]]]] := @common_root R 1 _ (polyhi (ent (td G) i j)) ne.
  exists (if a.[1] != 0 then `|a.[1]| else `|b.[1]|); split.
    by case: eqVneq h => //= [_ h|h _]; rewrite normr_gt0.
  move=> tol t0 ht; right; exists k, a, b; split=> //.
  by move: ht; case: eqVneq => //= _ ->; rewrite ?orbT.
have row p (P : nat -> R -> Prop) : (forall i, exists t, 0 < t /\ forall tol, 0 < tol -> tol <= t -> P i tol) ->
    exists t, 0 < t /\ forall tol, 0 < tol -> tol <= t -> forall i, (i < p)%N -> P i tol.
  move=> h; elim: p => [|p [t [t0 IH]]]; first by exists 1; split; first exact: ltr01.
  have [t' [t0' h']] := h p; exists (Num.min t t'); split; first by rewrite lt_minr t0.
  move=> tol ht; rewrite le_minr => /andP[h1 h2] i; rewrite ltnS leq_eqVlt => /orP [/eqP->|hi]; [exact: h'|exact: IH].
have [t [t0 ht]] := row (tp G) _ (fun i => row (tm G) _ (one i)).
exists t; split=> // tol p0 hp; apply: C61_discrete_partial => // i j hi hj; exact: ht.
Qed.
Print Assumptions C61_discrete_small_tol.

(* static gains *)
Theorem C61_gain (R : realFieldType) (tol : R) (G : tf R) V : wfT G -> tgain G -> tf_dcgain tol G = Ok V ->
  forall i j, (i < tp G)%N -> (j < tm G)%N -> exists v, gnt (Fin 0) V i j = Fin v /\
    forall (L : fieldType) (f : {rmorphism R -> L}) s, evT f G s i j = f v.
Proof.
move=> w hg; rewrite /tf_dcgain hg => E i j hi hj; have [A EA {}E] := bindOk E; case: E => <-.
have [h1 h2 wA hA] := tf_arrayP w EA; exists (get A i j); split; first by rewrite /gnt nth_mkseq // nth_mkseq.
by move=> L f s; exact: hA.
Qed.
Print Assumptions C61_gain.

(* with a fixed threshold a small gain makes a discrete integrator look removable: the steady-state gain of c/(z - 1)
   is infinite, 0 is returned *)
Theorem C61_discrete_refuted (R : realFieldType) (tol c h : R) : c != 0 -> `|c| < tol -> 0 < h ->
  let G := Tf [:: [:: [:: c]]] [:: [:: [:: 1; -1]]] false (Some h) in
  [/\ wfT G, tf_dcgain tol G = Ok [:: [:: Fin 0]] & ~ steady 1 (polyhi (ent (tn G) 0 0)) (polyhi (ent (td G) 0 0)) (Fin 0)].
Proof.
move=> c0 hc h0 G; have t0 : 0 < tol by apply: le_lt_trans hc; exact: normr_ge0.
split.
- rewrite wfTE /wfTc /tp /tm /= ?eqxx oner_eq0 /= h0 ?andbT.
  by rewrite /trimf (negbTE c0) /=.
- rewrite /tf_dcgain /= /gridR /= !addr0 hc subrr normr0 t0 //.
rewrite /steady /= polyhi1 polyC_eq0 (negbTE c0) => -[k [a [b [ea eb h1]]]].
have ed : polyhi [:: 1; -1] = 'X - 1%:P :> {poly R} by rewrite polyhi_cons polyhi1 scale1r expr1 polyCN.
rewrite ed in eb.
have k0 : k = 0%N.
  case: k ea {eb} => // k /(congr1 (fun p : {poly R} => p.[1])); rewrite exprS -mulrA hornerM hornerXsubC subrr mul0r hornerC => /eqP.
  by rewrite (negbTE c0).
move: eb; rewrite k0 expr0 mul1r => /(congr1 (fun p : {poly R} => p.[1])); rewrite hornerXsubC subrr => <-.
by rewrite eqxx.
Qed.
Print Assumptions C61_discrete_refuted.

(* s(s+2)/(s(s+1)) and 1/s *)
Definition dG : tf Q := Tf [:: [:: [:: 1; 2%:Q; 0]; [:: 1]]] [:: [:: [:: 1; 1; 0]; [:: 1; 0]]] false None.
Example C61_ex : wfT dG /\ tgain dG = false /\ tdt dG = None /\
  (if tf_dcgain (1 : Q) dG is Ok [:: [:: Fin a; Inf b]] then (a == 2%:Q) && b else false).
Proof. by split; [rewrite wfTE; vm_compute | split; [|split]]. Qed.
Definition dGd : tf Q := Tf [:: [:: [:: 1; 1; -2%:Q]]] [:: [:: [:: 1; 2%:Q; -3%:Q]]] false (Some 1).
Example C61_discrete_ex : wfT dGd /\ tgain dGd = false /\
  (if tf_dcgain (10%:Q^-1 : Q) dGd is Ok [:: [:: Fin a]] then a == 3%:Q / 4%:Q else false).
Proof. by split; [rewrite wfTE; vm_compute | split]. Qed.
