(* The polynomial identity behind a conversion that keeps the transfer function. *)
From mathcomp Require Import all_ssreflect all_algebra zify.
From Verif Require Import Base BaseTheory Spec ModelPoly PolyTheory PolyOps ModelState Denote StateTheory
  ModelTransfer DenoteT TransferTheory SpecSim SimTheory SpecDiff DiffTheory FeedbackTTheory.

Set Implicit Arguments.
Unset Strict Implicit.
Unset Printing Implicit Defensive.

Import GRing.Theory Num.Theory.
Local Open Scope ring_scope.

Section Frac.
Variable R : realFieldType.
Let F := [fieldType of {fraction {poly R}}].
Local Notation tofrac := (@FracField.tofrac [idomainType of {poly R}]).
Let f : {rmorphism R -> F} := [rmorphism of tofrac \o polyC].
Let s : F := tofrac 'X.

Lemma frac_pev (p : seq R) : pev f p s = tofrac (polyhi p).
Proof.
rewrite /pev map_poly_comp /= /s horner_map /=; congr tofrac.
by rewrite -[LHS]/(polyhi p \Po 'X) comp_polyXr.
Qed.

Lemma frac_id (G : tf R) (K : state R) i j : good_conv G K ->
  (forall i j, (i < tp G)%N -> (j < tm G)%N -> polyhi (ent (td G) i j) != 0) -> (i < tp G)%N -> (j < tm G)%N ->
  polyhi (ent (td G) i j) * statenum (Amx K) (\col_k get (sb K) k j) (\row_k get (sc K) i k) (get (sd K) i j) =
  polyhi (ent (tn G) i j) * char_poly (Amx K).
Proof.
case=> _ _ _ _ /(_ F f s) H hd hi hj; have tf0 (p : {poly R}) : (tofrac p == 0 :> F) = (p == 0) by rewrite tofrac_eq0.
have [|rg /(_ i j hi hj)] := H; first by move=> k l hk hl; rewrite /dfT frac_pev tf0 hd.
have e : s%:M - mxof f (snn K) (snn K) (sa K) = map_mx tofrac (char_poly_mx (Amx K)).
  by apply/matrixP => k l; rewrite !mxE rmorphB rmorphMn.
move: rg; rewrite /regS /regular e => rg.
rewrite /ev e /evT !frac_pev /invmx rg det_map_mx -map_mx_adj -/(char_poly (Amx K)).
have c0 : tofrac (char_poly (Amx K)) != 0 :> F by rewrite tf0 monic_neq0 ?char_poly_monic.
have d0 : tofrac (polyhi (ent (td G) i j)) != 0 :> F by rewrite tf0 hd.
have -> : \row_k f (get (sc K) i k) = map_mx tofrac (map_mx polyC (\row_(k < snn K) get (sc K) i k)).
  by apply/matrixP => k l; rewrite !mxE.
have -> : \col_k f (get (sb K) k j) = map_mx tofrac (map_mx polyC (\col_(k < snn K) get (sb K) k j)).
  by apply/matrixP => k l; rewrite !mxE.
have ent00 (k : F) (X : 'M[{poly R}]_1) : (k *: map_mx tofrac X) 0 0 = k * tofrac (X 0 0) by rewrite !mxE.
rewrite -scalemxAr -scalemxAl -!map_mxM ent00 => /eqP.
rewrite -(inj_eq (mulIf c0)) mulrDl mulrAC mulVf // mul1r mulrAC eq_sym.
rewrite -(inj_eq (mulIf d0)) divfK // => /eqP h; apply/eqP.
rewrite -(@tofrac_eq [idomainType of {poly R}]) !rmorphM /= h mulrC; apply/eqP; congr (_ * _).
by rewrite /statenum rmorphD rmorphM /= addrC.
Qed.
End Frac.
