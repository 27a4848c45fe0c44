(* C71 for any number of inputs and outputs: no gain exceeds the returned H-infinity norm. *)
From mathcomp Require Import all_ssreflect all_algebra zify.
From Coq Require Import String.
From Verif Require Import Base BaseTheory Spec ModelPoly ModelState Denote StateTheory StateProps ModelTransfer TransferTheory SpecSim ModelFreq
  SpecFreq FreqTheory PropsFreq ModelCtrl CtrlTheory ModelLyap SpecLyap ModelNorm SpecNorm NormTheory NormInf AuxTheory RingTac
  SpecConvert ConvertTf PropsNormInf PdTheory NormMimo.

Set Implicit Arguments.
Unset Strict Implicit.
Unset Printing Implicit Defensive.

Import Order.Theory GRing.Theory Num.Theory.
Local Open Scope ring_scope.

Section Mimo.
Variables (R : rcfType) (L : fieldType) (f : {rmorphism R -> L}).
Variables (qr hess : arr R -> arr R * arr R) (ii : L) (expL : L -> L) (twopi : R).
Variables (tol : R) (schur : arr R -> arr R * arr R) (qz : arr R -> arr R -> arr R * arr R * arr R * arr R).
Variable X0 : nat -> arr R.
Variables (sq : R -> R) (atol sqeps : R).
Variable eigs : arr R -> seq (R * R).
Variable cabs : R * R -> R.
Variable norm2 : arr L -> R.
Variable poles : state R -> seq (R * R).
Variable stable : state R -> bool.
Variable conj : {rmorphism L -> L}.
Local Notation norm := (system_norm f qr hess ii expL twopi tol schur qz X0 sq atol sqeps eigs cabs norm2 poles stable).
Local Notation mx := (mxof [rmorphism of @idfun R]).
Implicit Types (G : state R).

Lemma ev_polys G (i : 'I_(spn G)) (j : 'I_(smn G)) (A := mx (snn G) (snn G) (sa G)) : wfS G -> sgain G = false ->
  exists N : {poly R}, forall s, regS f G s -> (map_poly f (char_poly A)).[s] != 0 /\
    (map_poly f N).[s] = (map_poly f (char_poly A)).[s] * evalS f (spn G) (smn G) G s i j.
Proof.
move=> wf hg; have [[wa wb wc wd] [x1 x2 x3 x4 x5]] := wfS_dyn wf hg.
pose b := \col_(k < snn G) get (sb G) k j; pose c := \row_(k < snn G) get (sc G) i k.
exists (get (sd G) i j *: char_poly A + numpoly A b c) => s rs.
have eA : mxof f (snn G) (snn G) (sa G) = map_mx f A by apply/matrixP => u v; rewrite !mxE.
have x0 : (map_poly f (char_poly A)).[s] != 0 by rewrite map_char_poly -char_unit -eA.
split=> //; rewrite evalSE /ev eA.
have -> : (\row_k f (get (sc G) i k)) = map_mx f c by apply/matrixP => u v; rewrite !mxE.
have -> : (\col_k f (get (sb G) k j)) = map_mx f b by apply/matrixP => u v; rewrite !mxE.
rewrite (numpoly_tf (A := map_mx f A)) -?eA // eA -numpoly_map -map_char_poly rmorphD /= linearZ /= hornerD hornerZ mulrDr.
by rewrite [_ * f _]mulrC mulrCA divff ?mulr1.
Qed.

(* For every model with dynamics: the result is  l (1 + sqrt(eps))  where l is the largest gain at some frequency or
   that of the feedthrough, and every gain at every frequency is below  l (1 + 2 sqrt(eps)). *)
Theorem C71_continuous G et v : complexes f ii conj -> cartesian f ii -> wfS G -> sgain G = false -> sdt G = None ->
  (0 < snn G)%N -> (0 < spn G)%N -> (0 < smn G)%N -> freq_req qr hess G -> 0 < sqeps -> 0 <= et -> eig_req f ii sqeps eigs G v ->
  (forall w, induced_norm f conj (evalS f (spn G) (smn G) G (ii * f w)) (norm2 (resp f G (ii * f w)))) ->
  0 <= norm2 (feed f G) -> (forall w, regS f G (ii * f w)) ->
  norm G PInf et = Ok (NVal v) -> v != 0 ->
  exists l, [/\ v = l * (1 + sqeps),
    l = norm2 (feed f G) \/ (exists w : R, l = norm2 (resp f G (ii * f w))) &
    forall w : R, norm2 (resp f G (ii * f w)) < l * (1 + 2%:R * sqeps)].
Proof.
move=> cx ct wf hg hd n0 p0 m0 fq se et0 he hm hf reg E v0.
have [l [vl hl [w0 hw0] hs]] := @hinf_core R L f qr hess ii expL twopi tol schur qz X0 sq atol sqeps eigs cabs norm2 poles stable conj
  G et v cx wf hg hd n0 p0 m0 fq (ltW se) et0 he E v0.
exists l; split=> //; first by case: hl => [|[w [_ e]]]; [left | right; exists w].
have l0 : 0 <= l by case: hl => [->|[w [_ ->]]] //; have [] := hm w.
have l1 : 0 < l by rewrite lt_def l0 andbT; apply: contra v0 => /eqP e; rewrite vl e mul0r.
have lg : l < l * (1 + 2%:R * sqeps) by rewrite ltr_pmulr // ltr_addl mulr_gt0 // ltr0n.
have [i2 ci cf _] := cx.
pose A := mx (snn G) (snn G) (sa G).
have [xa [xb hx]] := @reim R L f ii (char_poly A) i2.
have [NP hN] := @fin_all_exists _ _ _ (fun ij : 'I_(spn G) * 'I_(smn G) => ev_polys ij.1 ij.2 wf hg).
have [XP hX] := @fin_all_exists _ _ _ (fun ij => @reim R L f ii (NP ij) i2).
have [YP hY] := @fin_all_exists _ _ _ hX.
pose chi w := (map_poly f (char_poly A)).[ii * f w].
have chi0 w : chi w != 0 by have [] := hN (Ordinal p0, Ordinal m0) _ (reg w).
have hd' w : conj (chi w) * chi w = f (xa ^+ 2 + xb ^+ 2).[w].
  rewrite /chi hx rmorphD rmorphM ci !cf hornerD !horner_exp rmorphD !rmorphX.
  have -> : forall x y : L, (x + - ii * y) * (x + ii * y) = x ^+ 2 - (ii ^+ 2) * y ^+ 2 by move=> x y; mc_ring L.
  by rewrite i2 mulN1r opprK.
have dp w : 0 < (xa ^+ 2 + xb ^+ 2).[w].
  rewrite hornerD !horner_exp lt_def addr_ge0 ?sqr_ge0 // andbT; apply: contra (chi0 w); rewrite paddr_eq0 ?sqr_ge0 // !sqrf_eq0.
  by move=> /andP[/eqP h1 /eqP h2]; rewrite /chi hx h1 h2 rmorph0 mulr0 addr0.
apply: (@gain_below R L f ii conj cx ct _ _ (\matrix_(i, j) XP (i, j)) (\matrix_(i, j) YP (i, j)) _ chi _ chi0 hd' dp _
  (fun w => norm2 (resp f G (ii * f w))) _ w0 hm).
- move=> w; apply/matrixP => i j; have [_ h] := hN (i, j) _ (reg w).
  by rewrite [RHS]mxE -[RHS]h hY !mxE.
- exact: le_lt_trans hw0 lg.
by move=> w; apply: hs.
Qed.
End Mimo.
Print Assumptions C71_continuous.
