(* Property C80: pole_properties.
   Notation: complex numbers are pairs.  The contracts of the modulus, the exponential and the logarithm, the location of
   a discrete pole in the s-plane, and the meaning of frequency and damping are in SpecPoleProps.v. *)
From mathcomp Require Import all_ssreflect all_algebra.
From Verif Require Import Base BaseTheory StateProps ModelPoleProps SpecPoleProps.

Set Implicit Arguments.
Unset Strict Implicit.
Unset Printing Implicit Defensive.

Import Order.TTheory GRing.Theory Num.Theory.
Local Open Scope ring_scope.

Section C80.
Variables (R : realFieldType) (pi : R) (cabs : R * R -> R) (ex : R -> R) (cexp clog : R * R -> R * R).
Local Notation props := (pole_properties cabs clog).
Implicit Types (dt : option R) (x s : R * R).

Lemma abs_gt0 x : abs_at cabs x -> x != (0, 0) -> 0 < cabs x.
Proof.
case=> h1 h2 h3; rewrite lt_neqAle h1 andbT eq_sym; apply: contra h3 => /eqP e; move: h2; rewrite e expr0n /=.
move/esym/eqP; rewrite paddr_eq0 ?sqr_ge0 // !sqrf_eq0 => /andP[/eqP a /eqP b]; by rewrite [x]surjective_pairing a b.
Qed.

Lemma scale0 h s : 0 < h -> (h * s.1, h * s.2) = (0, 0) -> s = (0, 0).
Proof.
move=> h0 [/eqP a /eqP b]; move: a b; rewrite !mulf_eq0 gt_eqF //= => /eqP a /eqP b.
by rewrite [s]surjective_pairing a b.
Qed.

Lemma row_located dt x s : period_ok pi cabs ex cexp clog dt -> located pi cexp dt x s -> s != (0, 0) ->
  pole_row cabs clog dt x = (x, Num (cabs s), Num (- s.1 / cabs s)).
Proof.
rewrite /pole_row /located; case: dt => [h|_ -> /negbTE->] // [h0 [[e0 en] ec el el' _]] [<- /andP[r1 r2]] sn.
have elx := el (h * s.1, h * s.2) r1 r2.
have pi0 : 0 < pi by have := lt_le_trans r1 r2; rewrite -subr_gt0 opprK -mulr2n pmulrn_lgt0.
have -> : (cexp (h * s.1, h * s.2) == (1, 0)) = false.
  apply/eqP => e; move: elx; rewrite e -e0 el /= ?oppr_lt0 ?ltW //.
  by move/esym/(scale0 h0) => e'; rewrite e' eqxx in sn.
rewrite (negbTE (en _)) elx /= ![h * _ / h]mulrAC divff ?gt_eqF // !mul1r.
by rewrite -surjective_pairing.
Qed.

(* one row per pole, in the order of the poles, the pole first; None for models without poles *)
Theorem C80_rows dt poles :
  (props poles dt = None <-> poles = [::]) /\ forall T, props poles dt = Some T -> [seq r.1.1 | r <- T] = poles.
Proof.
rewrite /pole_properties size_eq0; case: eqP => [->|h]; split=> //.
move=> T [<-]; rewrite -map_comp -[RHS]map_id; apply: eq_map => x /=; rewrite /pole_row.
by case: dt => [h'|]; case: ifP => // _; case: ifP.
Qed.

(* every pole but 0 of a discrete model has a location, and only one *)
Theorem C80_location dt x : period_ok pi cabs ex cexp clog dt -> dt = None \/ x != (0, 0) ->
  exists2 s, located pi cexp dt x s & forall s', located pi cexp dt x s' -> s' = s.
Proof.
rewrite /located; case: dt => [h [h0 [_ _ el el' _]]|_] hx; last by exists x.
case: hx => // /el'[e1 e2]; exists ((clog x).1 / h, (clog x).2 / h) => [|s' [e r]].
  by rewrite /= ![h * (_ / h)]mulrCA divff ?gt_eqF // !mulr1 -surjective_pairing.
case/andP: r => r1 r2; have := el (h * s'.1, h * s'.2) r1 r2; rewrite e => -> /=.
by rewrite ![h * _ / h]mulrAC divff ?gt_eqF // !mul1r -surjective_pairing.
Qed.

(* the row of a pole gives the natural frequency and the damping ratio, between -1 and 1, of its mode, ... *)
Theorem C80_mode dt poles x s T : period_ok pi cabs ex cexp clog dt -> x \in poles ->
  located pi cexp dt x s -> s != (0, 0) -> abs_at cabs s -> props poles dt = Some T ->
  exists w d, [/\ (x, Num w, Num d) = nth (x, NaN, NaN) T (index x poles), mode_of s w d, -1 <= d <= 1 &
    s.2 ^+ 2 = w ^+ 2 * (1 - d ^+ 2)].
Proof.
move=> hl hx hs sn hab; rewrite /pole_properties; case: ifP => // _ [<-].
have w0 := abs_gt0 hab sn; case: hab => _ e2; exists (cabs s), (- s.1 / cabs s); split.
- by rewrite (nth_map x) ?index_mem // nth_index // (row_located hl hs sn).
- by split=> //; rewrite divfK ?gt_eqF // opprK.
- have h : `|s.1| <= cabs s.
    by rewrite -ler_sqr ?nnegrE ?normr_ge0 ?(ltW w0) // real_normK ?num_real // e2 ler_addl sqr_ge0.
  by rewrite -ler_norml normrM normfV normrN (gtr0_norm w0) ler_pdivr_mulr // mul1r.
rewrite mulrBr mulr1 -exprMn mulrC divfK ?gt_eqF // sqrrN e2 addrC addKr //.
Qed.

(* ... positive exactly for the stable poles; *)
Theorem C80_stable dt x s : period_ok pi cabs ex cexp clog dt ->
  located pi cexp dt x s -> s != (0, 0) -> abs_at cabs s ->
  exists w d, pole_row cabs clog dt x = (x, Num w, Num d) /\ (0 < d) = stable_pole cabs dt x.
Proof.
move=> hl hs sn hab; have w0 := abs_gt0 hab sn; exists (cabs s), (- s.1 / cabs s).
split; first exact: row_located hs sn; rewrite pmulr_lgt0 ?invr_gt0 // oppr_gt0.
move: hs hl; rewrite /located /stable_pole; case: dt => [h|-> //] [<- _] [h0 [_ _ _ _ [ce [ex0 exm]]]].
by rewrite ce -ex0 exm /= pmulr_rlt0.
Qed.

(* a complex pair has one frequency and one damping ratio *)
Theorem C80_pair dt x s : period_ok pi cabs ex cexp clog dt ->
  (forall s, cabs (cj s) = cabs s) -> x.2 != 0 -> located pi cexp dt x s ->
  exists w d : flt R, pole_row cabs clog dt x = (x, w, d) /\ pole_row cabs clog dt (cj x) = (cj x, w, d).
Proof.
move=> hl hc x2 hs; have hl' := hl.
have sn : s.2 != 0.
  move: hs hl'; rewrite /located; case: dt {hl} => [h|]; last by move=> <-.
  case=> e _ [h0 [_ [ec _] _ _ _]]; apply: contra x2 => /eqP s0; have := ec (h * s.1, h * s.2); rewrite /cj /= s0 mulr0 oppr0.
  rewrite s0 mulr0 in e; rewrite e => /(congr1 snd) /= /eqP; rewrite -subr_eq0 opprK -mulr2n mulrn_eq0 /=; by [].
exists (Num (cabs s)), (Num (- s.1 / cabs s)); split; first by apply: row_located => //; apply: contra sn => /eqP->.
rewrite -[s.1]/((cj s).1) -(hc s); apply: row_located => //; last by apply: contra sn => /eqP[_ /eqP]; rewrite oppr_eq0.
have hs' := hs; move: hs hs' hl'; rewrite /located; case: dt {hl} => [h|]; first move=> + hs' [h0 [_ [ec ep] _ _ _]]; last by move->.
case=> <- /andP[r1 r2]; rewrite -ec /cj /= mulrN; split=> //; rewrite ltr_oppl opprK ler_oppl (ltW r1) andbT.
rewrite lt_neqAle r2 andbT; apply: contra x2 => /eqP e; move: hs' => [<- _]; by rewrite e ep.
Qed.

(* integrators have frequency 0 and no damping ratio *)
Theorem C80_integrator dt : pole_row cabs clog dt (if dt is Some _ then 1 else 0, 0) =
  ((if dt is Some _ then 1 else 0, 0), Num 0, NaN).
Proof. by rewrite /pole_row; case: dt => [h|]; rewrite eqxx. Qed.

(* False of the code: they are not the only rows without damping ratio; the poles at 0 of a discrete model (delays) have
   an infinite frequency and no damping ratio either, although they are stable *)
Theorem C80_delay_refuted (h : R) : abs_at cabs (0, 0) ->
  pole_row cabs clog (Some h) (0, 0) = ((0, 0), Inf, NaN) /\ stable_pole cabs (Some h) (0, 0).
Proof.
case=> _; rewrite /= expr0n /= addr0 => /eqP; rewrite sqrf_eq0 => /eqP a0.
by rewrite /stable_pole a0 ltr01 /pole_row eqxx; split=> //; case: eqP => // -[/eqP]; rewrite eq_sym oner_eq0.
Qed.
End C80.
Print Assumptions C80_rows.
Print Assumptions C80_location.
Print Assumptions C80_mode.
Print Assumptions C80_stable.
Print Assumptions C80_pair.
Print Assumptions C80_integrator.
Print Assumptions C80_delay_refuted.

(* Concrete cases: -3 +- 4i has natural frequency 5 and damping ratio 3/5; the contract of the modulus is met there.
   (The contracts of exp and log are those of the real and complex functions; no field of rationals has them.) *)
Definition pcabs (x : Q * Q) : Q := if `|x.1| == 3%:Q then 5%:Q else `|x.1|.
Definition plog (x : Q * Q) : Q * Q := x.
Example C80_ex : [/\ abs_at pcabs (-3%:Q, 4%:Q), located (22%:Q / 7%:Q) plog None (-3%:Q, 4%:Q) (-3%:Q, 4%:Q),
  (-3%:Q, 4%:Q) != (0, 0) :> Q * Q &
  (if pole_properties pcabs plog [:: (-3%:Q, 4%:Q); (0, 0); (-3%:Q, -4%:Q)] None is
     Some [:: (x, Num w, Num d); (_, Num z, NaN); (y, Num w', Num d')]
   then [&& w == 5%:Q, d == 3%:Q / 5%:Q, z == 0, w' == w & d' == d] else false)].
Proof. by split=> //; split; vm_compute. Qed.
