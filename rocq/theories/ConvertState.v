(* transfer_to_state: the statement for several inputs or outputs, from the pieces of ConvertMimo. *)
From mathcomp Require Import all_ssreflect all_algebra zify.
From Verif Require Import Base BaseTheory Spec ModelPoly PolyTheory PolyOps LcmTheory ModelState Denote StateTheory
  ModelTransfer DenoteT TransferTheory TransferOps ConvertTheory ConvertOps ConvertMimo.

Set Implicit Arguments.
Unset Strict Implicit.
Unset Printing Implicit Defensive.

Import Order.TTheory GRing.Theory Num.Theory.
Local Open Scope ring_scope.

Section ConvertState.
Variable R : realFieldType.
Variable lcmf : seq (row R) -> res (row R * seq (row R)).
Variable eps : R.
Implicit Types (num den : seq R) (G : tf R) (N D : pmat R).

(* the remainders that the clean-up of small coefficients must not touch *)
Definition clean_ok G : Prop := forall i j, (i < tp G)%N -> (j < tm G)%N ->
  (1 < size (ent (td G) i j))%N -> size (polyhi (ent (tn G) i j)) = size (ent (td G) i j) ->
  above eps (polyhi (ent (tn G) i j) %% polyhi (ent (td G) i j)).

(* what the tall case delivers for the transposed data *)
Lemma tall_okT p m N D A B C : tall_ok m p (ptrans p m N) (ptrans p m D) (A, B, C) -> tall_ok p m N D (aT A, aT C, aT B).
Proof.
case=> n [[[a1 a2] [b1 b2]] [c1 c2] [wA wB wC] H]; exists n; split=> //.
  by split; exact: wfa_T.
move=> L f s hs; have [|u v] := H L f s.
  by move=> i j hi hj; rewrite ent_grid //; exact: hs.
have eA : s%:M - mxof f n n (aT A) = (s%:M - mxof f n n A)^T.
  by rewrite mxof_T // [RHS]raddfB /= tr_scalar_mx.
rewrite eA unitmx_tr; split=> // i j hi hj.
have := v j i hj hi; rewrite !ent_grid // => <-.
have key (r : 'rV[L]_n) (X : 'M[L]_n) (c : 'cV[L]_n) : (c^T *m X^T *m r^T) 0 0 = (r *m X *m c) 0 0.
  have -> : c^T *m X^T *m r^T = (r *m X *m c)^T by rewrite !trmx_mul mulmxA.
  by rewrite mxE.
have -> : \row_k f (get (aT B) i k) = (\col_(k < n) f (get B k i))^T by apply/rowP => k; rewrite !mxE get_mk ?b1 ?b2.
have -> : \col_k f (get (aT C) k j) = (\row_(k < n) f (get C j k))^T by apply/colP => k; rewrite !mxE get_mk ?c1 ?c2.
by rewrite -trmx_inv key.
Qed.

Lemma prepT p m N D : prep p m N D -> prep m p (ptrans p m N) (ptrans p m D).
Proof. by move=> H i j hi hj; rewrite !ent_grid //; exact: H. Qed.

Section Data.
Variables (N D : pmat R) (p m : nat).
Hypothesis sN : pshape N = (p, m).
Hypotheses (hp : (0 < p)%N) (hm : (0 < m)%N) (hl : lcm_okf lcmf).
Hypothesis hh : forall i j, (i < p)%N -> (j < m)%N -> head 0 (ent D i j) != 0.
Hypothesis hc : forall i j, (i < p)%N -> (j < m)%N -> (size (polyhi (ent N i j)) <= size (ent D i j))%N.
Let ha := forall i j, (i < p)%N -> (j < m)%N -> (1 < size (ent D i j))%N ->
  size (polyhi (ent N i j)) = size (ent D i j) -> above eps (polyhi (ent N i j) %% polyhi (ent D i j)).

Let e0 : R * row R * row R := (0, [::], [::]).
Let E i j := if tts_entry eps (ent N i j) (ent D i j) is Ok y then y else e0.
Let N1 := grid p m (fun i j => (nth e0 (nth [::] (grid p m E) i) j).1.2).
Let D1 := grid p m (fun i j => (nth e0 (nth [::] (grid p m E) i) j).2).
Let d := mk p m (fun i j => (nth e0 (nth [::] (grid p m E) i) j).1.1).

Let eE i j : (i < p)%N -> (j < m)%N -> nth e0 (nth [::] (grid p m E) i) j = E i j.
Proof. by move=> hi hj; exact: (gnt_grid e0). Qed.

Lemma entriesP i j : (i < p)%N -> (j < m)%N ->
  [/\ tts_entry eps (ent N i j) (ent D i j) = Ok (E i j), head 0 (ent D1 i j) = 1, (size (polyhi (ent N1 i j)) < size (ent D1 i j))%N,
    [/\ size (ent D1 i j) = 1%N -> ent N1 i j = [:: 0], ent N i j != [::] -> ent N1 i j != [::] &
        ((size (ent N i j) < size (ent D i j)) || (size (polyhi (ent N i j)) == size (ent D i j)) || (size (ent D i j) == 1))%N ->
        (size (ent N1 i j) <= (size (ent D1 i j)).-1)%N || (size (ent N1 i j) == 1%N)] &
    ha -> forall (L : fieldType) (f : {rmorphism R -> L}) s, pev f (ent D i j) s != 0 ->
      pev f (ent D1 i j) s != 0 /\ f (get d i j) + pev f (ent N1 i j) s / pev f (ent D1 i j) s = pev f (ent N i j) s / pev f (ent D i j) s].
Proof.
move=> hi hj; have [Q [n [d' [H1 H2 H3 H4 H5]]]] := tts_entryP eps (hh hi hj) (hc hi hj).
rewrite !ent_grid // get_mk // eE // /E H1; split=> // h; exact: H5 (h i j hi hj).
Qed.

Lemma prep1 : prep p m N1 D1.
Proof. by move=> i j hi hj; have [_ h1 h2 [h3 _ _] _] := entriesP hi hj. Qed.

Let small := all (fun r => r == [:: 0]) (flatten N1).
Let same := all (fun r => r == ent D1 0 0) (flatten D1).

Lemma tts_mimoE : tts_mimo lcmf eps N D =
  if small then Ok (Some (azeros 0 0), Some (azeros 0 0), Some (azeros 0 0), d)
  else if (m <= p)%N then
    (do (A, B, C) <- (if same then tts_common N1 (ent D1 0 0) p m else tts_lcm lcmf N1 D1 p m);
     Ok (Some A, Some B, Some C, d))
  else
    (do (A, B, C) <- (if same then tts_common (ptrans p m N1) (ent D1 0 0) m p else tts_lcm lcmf (ptrans p m N1) (ptrans p m D1) m p);
     Ok (Some (aT A), Some (aT C), Some (aT B), d)).
Proof.
rewrite /tts_mimo sN (gridR_tot (g := E)); last by move=> i j hi hj; case: (entriesP hi hj).
have okE A B (a : A) (g : A -> res B) : bind (Ok a) g = g a by [].
rewrite okE; cbv zeta; rewrite -/e0 -/N1 -/D1 -/d -/small; case: ifP => // _.
by case: (m <= p)%N; cbv beta iota; rewrite -/same; case: (if same then _ else _) => [[[A B] C]|].
Qed.

Let smallP : reflect (forall i j, (i < p)%N -> (j < m)%N -> ent N1 i j = [:: 0]) small.
Proof.
rewrite /small (rect_flatten [::] _ (rect_grid p m _)).
by apply: (iffP (all2P _ _ _)) => H i j hi hj; apply/eqP; exact: H.
Qed.

Let sameP : reflect (forall i j, (i < p)%N -> (j < m)%N -> ent D1 i j = ent D1 0 0) same.
Proof.
rewrite /same (rect_flatten [::] _ (rect_grid p m _)).
by apply: (iffP (all2P _ _ _)) => H i j hi hj; apply/eqP; exact: H.
Qed.

Lemma same_big : ~~ small -> same -> (1 < size (ent D1 0 0))%N.
Proof.
move=> ns /sameP hs; rewrite ltnNge; apply: contra ns => h1; apply/smallP => i j hi hj.
have [_ h2 _ [h3 _ _] _] := entriesP hi hj; apply: h3; rewrite hs //; apply/eqP.
rewrite eqn_leq h1 /=; move: h2; rewrite hs //; case: (ent D1 0 0) => //= /eqP.
by rewrite eq_sym oner_eq0.
Qed.

Lemma tts_mimoP y : tts_mimo lcmf eps N D = Ok y ->
  exists A B C n, [/\ y = (Some A, Some B, Some C, d), nr A = n /\ nc A = n,
     ([/\ nr B = n, nc B = m, nr C = p & nc C = n]) \/ (n = 0%N /\ nr B = 0%N), [/\ wfa A, wfa B & wfa C] &
   ha -> forall (L : fieldType) (f : {rmorphism R -> L}) (s : L),
      (forall i j, (i < p)%N -> (j < m)%N -> pev f (ent D i j) s != 0) ->
      s%:M - mxof f n n A \in unitmx /\
      forall i j, (i < p)%N -> (j < m)%N ->
        f (get d i j) + ((\row_(k < n) f (get C i k)) *m invmx (s%:M - mxof f n n A) *m (\col_(k < n) f (get B k j))) 0 0 =
        pev f (ent N i j) s / pev f (ent D i j) s].
Proof.
have tall A B C : tall_ok p m N1 D1 (A, B, C) -> Ok (Some A, Some B, Some C, d) = Ok y ->
  exists A B C n, [/\ y = (Some A, Some B, Some C, d), nr A = n /\ nc A = n,
     ([/\ nr B = n, nc B = m, nr C = p & nc C = n]) \/ (n = 0%N /\ nr B = 0%N), [/\ wfa A, wfa B & wfa C] &
   ha -> forall (L : fieldType) (f : {rmorphism R -> L}) (s : L),
      (forall i j, (i < p)%N -> (j < m)%N -> pev f (ent D i j) s != 0) ->
      s%:M - mxof f n n A \in unitmx /\
      forall i j, (i < p)%N -> (j < m)%N ->
        f (get d i j) + ((\row_(k < n) f (get C i k)) *m invmx (s%:M - mxof f n n A) *m (\col_(k < n) f (get B k j))) 0 0 =
        pev f (ent N i j) s / pev f (ent D i j) s].
  case=> n [[[a1 a2] [b1 b2]] [c1 c2] [wA wB wC] H] [<-]; exists A, B, C, n; split=> //; first by left.
  move=> a L f s hs; have hs1 i j : (i < p)%N -> (j < m)%N -> pev f (ent D1 i j) s != 0.
    by move=> hi hj; have [_ _ _ _ h] := entriesP hi hj; case: (h a L f s (hs i j hi hj)).
  have [u v] := H L f s hs1; split=> // i j hi hj; rewrite v //.
  by have [_ _ _ _ h] := entriesP hi hj; case: (h a L f s (hs i j hi hj)).
rewrite tts_mimoE; case: ifP => [/smallP sm|/negbT ns].
  case=> <-; exists (azeros 0 0), (azeros 0 0), (azeros 0 0), 0%N; split=> //; first by right.
  move=> a L f s hs; split; first by rewrite unitmxE det_mx00 unitr1.
  move=> i j hi hj; rewrite [X in X *m _ *m _]thinmx0 !mul0mx mxE.
  have [_ _ _ _ h] := entriesP hi hj; have [_ <-] := h a L f s (hs i j hi hj).
  by rewrite sm // pev1 rmorph0 mul0r.
have D11 : head 0 (ent D1 0 0) = 1 by case: (entriesP hp hm).
case: ifP => hpm.
  case: ifP => hs; last first.
    by case Ex: (tts_lcm _ _ _ _ _) => [[[A B] C]|] //=; apply: tall; exact: tts_lcmP prep1 Ex.
  case Ex: (tts_common _ _ _ _) => [[[A B] C]|] //=; apply: tall.
  by apply: (tts_commonP (d := ent D1 0 0)) Ex => //; [exact: same_big | exact: prep1 | exact/sameP].
case: ifP => hs; last first.
  case Ex: (tts_lcm _ _ _ _ _) => [[[A B] C]|] //=; apply: tall; apply: tall_okT.
  exact: tts_lcmP (prepT prep1) Ex.
case Ex: (tts_common _ _ _ _) => [[[A B] C]|] //=; apply: tall; apply: tall_okT.
apply: (tts_commonP (d := ent D1 0 0)) Ex => //; [exact: same_big | exact: prepT prep1 |].
by move=> i j hi hj; rewrite ent_grid //; move/sameP: hs; apply.
Qed.

Lemma tts_mimo_total :
  (forall i j, (i < p)%N -> (j < m)%N -> ent N i j != [::] /\
     ((size (ent N i j) < size (ent D i j)) || (size (polyhi (ent N i j)) == size (ent D i j)) || (size (ent D i j) == 1))%N) ->
  exists y, tts_mimo lcmf eps N D = Ok y.
Proof.
move=> ht; rewrite tts_mimoE; case: ifP => [_|/negbT ns]; first by eexists.
have t1 i j : (i < p)%N -> (j < m)%N -> ent N1 i j != [::].
  by move=> hi hj; have [_ _ _ [_ h _] _] := entriesP hi hj; apply: h; case: (ht i j hi hj).
have t2 i j : (i < p)%N -> (j < m)%N -> (size (ent N1 i j) <= (size (ent D1 i j)).-1)%N || (size (ent N1 i j) == 1%N).
  by move=> hi hj; have [_ _ _ [_ _ h] _] := entriesP hi hj; apply: h; case: (ht i j hi hj).
have D11 : head 0 (ent D1 0 0) = 1 by case: (entriesP hp hm).
case: ifP => _; case: ifP => [/[dup] hs /sameP eD|_].
- have [|//||[[A B] C] ->] := @tts_common_total R p m N1 (ent D1 0 0); [exact: same_big | | by eexists].
  by move=> i j hi hj; rewrite -(eD i j hi hj); exact: t2.
- by have [[[A B] C] ->] := tts_lcm_total hl hp prep1 t1; eexists.
- have [|//||[[A B] C] ->] := @tts_common_total R m p (ptrans p m N1) (ent D1 0 0); [exact: same_big | | by eexists].
  by move=> i j hi hj; rewrite ent_grid // -(eD j i hj hi); exact: t2.
have [|[[A B] C] ->] := tts_lcm_total hl hm (prepT prep1); last by eexists.
by move=> i j hi hj; rewrite ent_grid //; exact: t1.
Qed.

End Data.

(* conversion of a model with several inputs or outputs: what a result means *)
Lemma tts_mimo_value G K : lcm_okf lcmf -> wfT G -> ~~ tSISO G -> tgain G = false -> clean_ok G ->
  transfer_to_state lcmf eps G = Ok K ->
  [/\ wfS K, sshape K = tshape G, sdt K = tdt G &
    forall (L : fieldType) (f : {rmorphism R -> L}) (s : L),
      (forall i j, (i < tp G)%N -> (j < tm G)%N -> dfT f G s i j) ->
      regS f K s /\ forall i j, (i < tp G)%N -> (j < tm G)%N -> ev f K s i j = evT f G s i j].
Proof.
move=> hl w hS hg ha; case: (wfTP w) => -[hp hm rN rD] hd hc hgain hdt.
rewrite /transfer_to_state /tts_abcd hg -/(tSISO G) hS (negbTE hS).
have sN : pshape (tn G) = (tp G, tm G) by rewrite /tp /tm /tshape; case: (pshape _).
case Em: (tts_mimo _ _ _ _) => [y|] //.
have [A [B [C [n [-> [a1 a2] dims [wA wB wC] H]]]]] := tts_mimoP sN hp hm hl hd hc Em.
set d := mk _ _ _ in H *; have wd : wfa d by exact: wfa_mk.
rewrite /= /asize a1 a2 muln_eq0 orbb; case: ifP => [/andP[/eqP n0 _]|n0].
  rewrite mkGain_ok // => -[<-]; split=> //; first exact: wfS_mkgain.
  move=> L f s hs; split; first exact: regS_n0.
  move=> i j hi hj; rewrite ev_n0 //=; have [_ v] := H ha L f s hs; rewrite /evT -v //.
  by rewrite {}n0 in a1 a2 v *; rewrite [X in X *m _ *m _]thinmx0 !mul0mx mxE addr0.
case: dims => [[b1 b2 c1 c2]|[e1 e2]]; last by move: n0; rewrite e1 e2.
rewrite -/(mkS A B C d (tdt G)) mkS_ok ?a1 ?a2 ?b1 ?b2 ?c1 ?c2 // => -[<-]; split=> //.
  by apply: wfS_mk; rewrite ?a1 ?a2 ?b1 ?b2 ?c1 ?c2.
move=> L f s hs; have [u v] := H ha L f s hs; rewrite /regS /regular /snn /= a1; split=> //.
by move=> i j hi hj; rewrite /ev /snn /= a1 v.
Qed.

(* entries it always converts: proper rational functions whose numerators are listed without
   superfluous leading zeros *)
Definition slim G : Prop := forall i j, (i < tp G)%N -> (j < tm G)%N -> ent (tn G) i j != [::] /\
     ((size (ent (tn G) i j) < size (ent (td G) i j)) || (size (polyhi (ent (tn G) i j)) == size (ent (td G) i j))
      || (size (ent (td G) i j) == 1))%N.

Lemma tts_mimo_exists G : lcm_okf lcmf -> wfT G -> ~~ tSISO G -> tgain G = false -> slim G ->
  exists K, transfer_to_state lcmf eps G = Ok K.
Proof.
move=> hl w hS hg hs; case: (wfTP w) => -[hp hm rN rD] hd hc hgain hdt.
rewrite /transfer_to_state /tts_abcd hg -/(tSISO G) hS (negbTE hS).
have sN : pshape (tn G) = (tp G, tm G) by rewrite /tp /tm /tshape; case: (pshape _).
have [y Em] := tts_mimo_total sN hp hm hl hd hc hs; rewrite Em.
have [A [B [C [n [-> [a1 a2] dims [wA wB wC] H]]]]] := tts_mimoP sN hp hm hl hd hc Em.
set d := mk _ _ _ in H *; have wd : wfa d by exact: wfa_mk.
rewrite /= /asize a1 a2 muln_eq0 orbb; case: ifP => [/andP[/eqP n0 _]|n0].
  by rewrite mkGain_ok //; eexists.
case: dims => [[b1 b2 c1 c2]|[e1 e2]]; last by move: n0; rewrite e1 e2.
by rewrite -/(mkS A B C d (tdt G)) mkS_ok ?a1 ?a2 ?b1 ?b2 ?c1 ?c2 //; eexists.
Qed.

End ConvertState.
