(* Lemmas on the data of the time domain plots. *)
From mathcomp Require Import all_ssreflect all_algebra zify.
From Verif Require Import Base BaseTheory ModelState ModelTransfer ModelSim SpecSim ModelSimT ModelPlots PlotsTheory ModelTimePlots SpecTimePlots.

Set Implicit Arguments.
Unset Strict Implicit.
Unset Printing Implicit Defensive.

Import Order.TTheory GRing.Theory Num.Theory.
Local Open Scope ring_scope.

Lemma collect_map (A B : Type) (F : A -> res B) (g : A -> B) (P : A -> Prop) s : (forall x, P x -> F x = Ok (g x)) ->
  (forall k x0, (k < size s)%N -> P (nth x0 s k)) -> collect F s = Ok (map g s).
Proof.
move=> h; elim: s => [|x s IH] hs //=; rewrite h ?[bind _ _]/=; last exact: (hs 0%N x).
by rewrite IH // => k x0 hk; exact: (hs k.+1 x0).
Qed.

Section Theory.
Variable R : realFieldType.
Implicit Types (G : psys R).

(* what the simulation of G returns: one N-by-p array for every input *)
Definition shaped G (y : yout R) (ts : seq R) : Prop :=
  channels y = pcols G /\ forall j, (j < pcols G)%N -> shp (channel y j) = (size ts, prows G).

Arguments time_curves : simpl never.
Lemma time_curvesP ind sty G y ts : psiso G = (prows G == 1%N) && (pcols G == 1%N) -> (0 < pcols G)%N -> shaped G y ts ->
  time_curves ind sty G (y, ts) =
  Ok (curves_of ind sty G ts (fun row col => mkseq (fun k => get (channel y col) k row) (size ts))).
Proof.
move=> hS m0 [hc hs]; rewrite /time_curves hS.
have e j : (j < pcols G)%N -> nr (channel y j) = size ts /\ nc (channel y j) = prows G by move=> /hs[].
case: ifP => [/andP[/eqP p1 /eqP m1]|_].
  have [e1 _] := e 0%N m0; rewrite /curves_of p1 m1 /=.
  by case: y hc {hs e} e1 => [Y|[|Y s]] //=; rewrite ?m1 // => _ e1; rewrite /ycol e1 size_mkseq eqxx.
case: y hc hs e => [Y|s] /= hc hs e.
  have [e1 e2] := e 0%N m0; rewrite /curves_of -hc e2.
  rewrite (collect_map (g := fun row => TC ind sty (if pdt G is Some _ then true else false) row 0 ts (mkseq (fun k => get Y k row) (size ts))) (P := fun _ => True)) //.
    by congr Ok; elim: (iota 0 (prows G)) => //= a l ->.
  by move=> row _; rewrite /ycol e1 size_mkseq eqxx.
have [e1 e2] := e 0%N m0; have -> : nc (head (azeros 0 0) s) = prows G by rewrite -nth0.
rewrite hc; rewrite (collect_map (P := fun rc => (rc.2 < pcols G)%N) (g := fun rc => TC ind sty (if pdt G is Some _ then true else false) rc.1 rc.2 ts
   (mkseq (fun k => get (nth (azeros 0 0) s rc.2) k rc.1) (size ts)))); first by rewrite map_allpairs.
  by move=> [row col] /= h; have [f1 _] := e col h; rewrite /ycol f1 size_mkseq eqxx.
move=> k x0 hk; have /allpairsP[[a b] [_ h ->]] := mem_nth x0 hk.
by move: h; rewrite mem_iota.
Qed.

Lemma min_shortest (x : R) s : let m := foldr Num.min x (x :: s) in m \in x :: s /\ forall y, y \in x :: s -> m <= y.
Proof.
rewrite /=; set m := foldr _ _ s.
have : (m \in x :: s) /\ forall y, y \in x :: s -> m <= y.
  rewrite {}/m; elim: s => [|a s [h1 h2]] /=; first by rewrite inE eqxx; split=> // y; rewrite inE => /eqP ->.
  split; first by rewrite minElt; case: ifP => _; rewrite ?inE ?eqxx ?orbT //; move: h1; rewrite !inE => /orP[]->; rewrite ?orbT.
  move=> y; rewrite !inE => /or3P[/eqP->|/eqP->|h]; rewrite le_minl ?lexx // ?(h2 _ (mem_head _ _)) ?orbT //.
  by rewrite h2 ?orbT // inE h orbT.
case=> h1 h2; rewrite (min_idPr (h2 x (mem_head _ _))); split=> //.
Qed.

Variable resp : psys R -> option (nd R) -> res (yout R * seq R).
Let G0 : psys R := PT (Tf [::] [::] false None).
Lemma time_loopP (Gs : seq (psys R)) (sty : nat -> option nat) n t (ys : nat -> yout R) (tss : nat -> seq R) :
  (0 < n)%N ->
  (forall k, (k < n)%N -> let G := nth G0 Gs k in
    [/\ resp G t = Ok (ys k, tss k), (0 < size (tss k))%N, psiso G = (prows G == 1%N) && (pcols G == 1%N), (0 < pcols G)%N &
     shaped G (ys k) (tss k)]) ->
  exists x, time_loop resp [seq (i, sty i, nth G0 Gs i) | i <- iota 0 n] t =
    Ok (flatten [seq curves_of k (sty k) (nth G0 Gs k) (tss k)
          (fun row col => mkseq (fun i => get (channel (ys k) col) i row) (size (tss k))) | k <- iota 0 n], x) /\ shortest tss n x.
Proof.
move=> n0 h; rewrite /time_loop.
set c := fun k => curves_of k (sty k) (nth G0 Gs k) (tss k) _.
set F := fun x : nat * option nat * psys R => _.
have -> : collect F [seq (i, sty i, nth G0 Gs i) | i <- iota 0 n] = Ok [seq (c i, last 0 (tss i)) | i <- iota 0 n].
  have : forall k, k \in iota 0 n -> (k < n)%N by move=> k; rewrite mem_iota.
  elim: (iota 0 n) => //= a l IH hl; rewrite {1}/F /=.
  have [h1 h2 h3 h4 h5] := h a (hl a (mem_head _ _)); rewrite h1 [bind (Ok _) _]/= h2 (time_curvesP a (sty a) h3 h4 h5) [bind (Ok _) _]/= IH // => k hk.
  by apply: hl; rewrite inE hk orbT.
rewrite [bind _ _]/= size_map size_iota n0.
eexists; split; first by rewrite -!map_comp; reflexivity.
set s := map _ _.
have es : s = [seq last 0 (tss i) | i <- iota 0 n] by [].
have : exists x s', s = x :: s' by rewrite es; case: (n) n0 => // n' _; eexists _, _; reflexivity.
case=> x [s' e]; have [m1 m2] := min_shortest x s'; rewrite -e in m1 m2.
have -> : head 0 s = x by rewrite e.
rewrite es in m1 m2 *.
split=> [k hk|].
  by apply: m2; apply/mapP; exists k; rewrite ?mem_iota.
by case/mapP: m1 => k; rewrite mem_iota => /andP[_ hk] ->; exists k.
Qed.
End Theory.
