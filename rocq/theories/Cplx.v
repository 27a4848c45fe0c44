(* Complex numbers over a real field, for the models that compute with roots of polynomials. *)
From mathcomp Require Import all_ssreflect all_algebra.
From Verif Require Import RingTac.

Set Implicit Arguments.
Unset Strict Implicit.
Unset Printing Implicit Defensive.

Import Order.TTheory GRing.Theory Num.Theory.
Local Open Scope ring_scope.

Section Cplx.
Variable R : realFieldType.

Record cpl := Cpl { cre : R; cim : R }.
Definition p_of (x : cpl) : R * R := (cre x, cim x).
Definition of_p (x : R * R) : cpl := Cpl x.1 x.2.
Lemma p_ofK : cancel p_of of_p. Proof. by case. Qed.
Definition cpl_eqMixin := CanEqMixin p_ofK.
Canonical cpl_eqType := Eval hnf in EqType cpl cpl_eqMixin.
Definition cpl_choiceMixin := CanChoiceMixin p_ofK.
Canonical cpl_choiceType := Eval hnf in ChoiceType cpl cpl_choiceMixin.

Definition cadd x y := Cpl (cre x + cre y) (cim x + cim y).
Definition copp x := Cpl (- cre x) (- cim x).
Definition cmul x y := Cpl (cre x * cre y - cim x * cim y) (cre x * cim y + cim x * cre y).
(* x^2 + y^2 *)
Definition cnorm2 x := cre x ^+ 2 + cim x ^+ 2.
Definition cinv x := Cpl (cre x / cnorm2 x) (- cim x / cnorm2 x).

Lemma caddA : associative cadd. Proof. by move=> [a b] [c d] [e g]; rewrite /cadd /= !addrA. Qed.
Lemma caddC : commutative cadd. Proof. by move=> [a b] [c d]; rewrite /cadd /= [a + c]addrC [b + d]addrC. Qed.
Lemma cadd0 : left_id (Cpl 0 0) cadd. Proof. by move=> [a b]; rewrite /cadd /= !add0r. Qed.
Lemma caddN : left_inverse (Cpl 0 0) copp cadd. Proof. by move=> [a b]; rewrite /cadd /= !addNr. Qed.
Definition cpl_zmodMixin := ZmodMixin caddA caddC cadd0 caddN.
Canonical cpl_zmodType := Eval hnf in ZmodType cpl cpl_zmodMixin.

Lemma cmulA : associative cmul.
Proof. by move=> [a b] [c d] [e g]; rewrite /cmul /=; congr Cpl; mc_ring R. Qed.
Lemma cmulC : commutative cmul.
Proof. by move=> [a b] [c d]; rewrite /cmul /=; congr Cpl; mc_ring R. Qed.
Lemma cmul1 : left_id (Cpl 1 0) cmul.
Proof. by move=> [a b]; rewrite /cmul /=; congr Cpl; mc_ring R. Qed.
Lemma cmulD : left_distributive cmul cadd.
Proof. by move=> [a b] [c d] [e g]; rewrite /cmul /cadd /=; congr Cpl; mc_ring R. Qed.
Lemma c1n0 : Cpl 1 0 != Cpl 0 0.
Proof. by apply/eqP => -[] /eqP; rewrite oner_eq0. Qed.
Definition cpl_ringMixin := ComRingMixin cmulA cmulC cmul1 cmulD c1n0.
Canonical cpl_ringType := Eval hnf in RingType cpl cpl_ringMixin.
Canonical cpl_comRingType := Eval hnf in ComRingType cpl cmulC.

Lemma cnorm2_eq0 x : (cnorm2 x == 0) = (x == 0).
Proof.
rewrite /cnorm2 paddr_eq0 ?sqr_ge0 // !sqrf_eq0; case: x => a b /=.
by apply/andP/eqP => [[/eqP-> /eqP->]|[-> ->]].
Qed.
Lemma cmulV x : x != 0 -> cmul (cinv x) x = Cpl 1 0.
Proof.
rewrite -cnorm2_eq0 => h; case: x h => a b; rewrite /cnorm2 /cmul /cinv /cnorm2 /= => h; congr Cpl.
  by rewrite mulNr mulNr opprK -!mulrA ![_^-1 * _]mulrC !mulrA -mulrDl -!expr2 divff.
by rewrite !mulNr -!mulrA ![_^-1 * _]mulrC !mulrA [b * a]mulrC subrr.
Qed.
Lemma cinv0 : cinv 0 = 0.
Proof. by rewrite /cinv /= oppr0 !mul0r. Qed.
Definition cpl_unitMixin := FieldUnitMixin cmulV cinv0.
Canonical cpl_unitRingType := Eval hnf in UnitRingType cpl cpl_unitMixin.
Canonical cpl_comUnitRingType := Eval hnf in [comUnitRingType of cpl].
Lemma cpl_fieldMixin : GRing.Field.mixin_of cpl_unitRingType. Proof. by move=> x nz; rewrite unfold_in /= nz. Qed.
Definition cpl_idomainMixin := FieldIdomainMixin cpl_fieldMixin.
Canonical cpl_idomainType := Eval hnf in IdomainType cpl cpl_idomainMixin.
Canonical cpl_fieldType := Eval hnf in FieldType cpl cpl_fieldMixin.

(* the reals in the complex numbers, and the conjugate *)
Definition c_of (x : R) : cpl := Cpl x 0.
Definition conj (x : cpl) : cpl := Cpl (cre x) (- cim x).
Lemma c_of_is_rmorphism : rmorphism c_of.
Proof.
split=> [x y|]; first by rewrite /c_of; congr Cpl; rewrite /= subr0.
by split=> [x y|] //; rewrite /c_of; congr Cpl; rewrite /= ?mulr0 ?mul0r ?subr0 ?addr0.
Qed.
Canonical c_of_additive := Additive c_of_is_rmorphism.
Canonical c_of_rmorphism := RMorphism c_of_is_rmorphism.
Lemma conj_is_rmorphism : rmorphism conj.
Proof.
split=> [x y|]; first by rewrite /conj; congr Cpl; rewrite /= opprD.
split=> [x y|]; rewrite /conj; last by congr Cpl; rewrite /= oppr0.
by congr Cpl; rewrite /= ?mulrN ?mulNr ?opprK // opprD.
Qed.
Canonical conj_additive := Additive conj_is_rmorphism.
Canonical conj_rmorphism := RMorphism conj_is_rmorphism.
Lemma conjK : involutive conj. Proof. by case=> a b; rewrite /conj /= opprK. Qed.
Lemma conj_of x : conj (c_of x) = c_of x. Proof. by rewrite /conj /c_of /= oppr0. Qed.
Lemma cim0 x : cim x = 0 -> x = c_of (cre x). Proof. by case: x => a b /= ->. Qed.
Lemma conj_fix x : (conj x == x) = (cim x == 0).
Proof.
case: x => a b /=; apply/eqP/eqP => [[] /eqP|->]; last by rewrite /conj /= oppr0.
by rewrite eq_sym -addr_eq0 -mulr2n mulrn_eq0 => /eqP.
Qed.
End Cplx.
