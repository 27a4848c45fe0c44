(* Lemmas about the State model. *)
From mathcomp Require Import all_ssreflect all_algebra.
From Verif Require Import Base BaseTheory Spec TfTheory ModelState Denote.

Set Implicit Arguments.
Unset Strict Implicit.
Unset Printing Implicit Defensive.

Import Order.TTheory GRing.Theory Num.Theory.
Local Open Scope ring_scope.

Arguments get : simpl never.

Section Constr.
Variable R : realFieldType.
Implicit Types (G H K : state R) (A B : arr R).

Definition dt_ok (dt : option R) : bool := if dt is Some v then 0 < v else true.

Lemma check_dt_ok dt : dt_ok dt -> check_dt dt = Ok dt.
Proof. by case: dt => //= v v0; rewrite leNgt v0. Qed.

Lemma check_dt_inv dt dt' : check_dt dt = Ok dt' -> dt' = dt /\ dt_ok dt.
Proof. by case: dt => [v|] /=; [rewrite leNgt; case: ifP => // /negbFE h [<-] | case=> <-]. Qed.

Lemma wfS_dyn G : wfS G -> sgain G = false ->
  [/\ wfa (sa G), wfa (sb G), wfa (sc G) & wfa (sd G)] /\
  [/\ nc (sa G) = snn G, nr (sb G) = snn G, nc (sc G) = snn G,
      nr (sc G) = spn G & nc (sb G) = smn G].
Proof.
case/andP=> ? /and5P[? ? ? _ +] g; rewrite g => /and5P[/eqP ? /eqP ? /eqP ? /eqP ? /eqP ?].
by split; split.
Qed.

Lemma wfS_gain G : wfS G -> sgain G ->
  [/\ snn G = 0%N, nc (sa G) = 0%N, shp (sb G) = (0, 0)%N, shp (sc G) = (0, 0)%N & wfa (sd G)].
Proof.
case/andP=> ? /and5P[? ? ? _ +] g; rewrite g => /and3P[/eqP[? ?] /eqP[? ?] /eqP[? ?]].
by split; rewrite // /shp; congr pair.
Qed.

Lemma wfS_dt G : wfS G -> dt_ok (sdt G).
Proof. by case/andP=> _ /and5P[]. Qed.

Lemma wfS_d G : wfS G -> wfa (sd G).
Proof. by case/andP=> _ /and5P[]. Qed.

Lemma wfS_mk a b c d dt : wfa a -> wfa b -> wfa c -> wfa d -> dt_ok dt ->
  nr a = nc a -> nr b = nr a -> nc c = nr a -> nr c = nr d -> nc b = nc d ->
  wfS (St a b c d false dt).
Proof.
move=> wa wb wc wd wt h1 h2 h3 h4 h5; apply/andP; split=> //; apply/and5P; split => //=.
by apply/and5P; split; apply/eqP.
Qed.

Lemma wfS_mkgain d dt : wfa d -> dt_ok dt ->
  wfS (St (e00 R) (e00 R) (e00 R) d true dt).
Proof. by move=> wd wt; apply/andP; split=> //; apply/and5P; split. Qed.

Lemma mkS_ok a b c d dt :
  nr a = nc a -> nr b = nr a -> nc c = nr a -> nr c = nr d -> nc b = nc d -> dt_ok dt ->
  mkS a b c d dt = Ok (St a b c d false dt).
Proof.
move=> h1 h2 h3 h4 h5 h6; rewrite /mkS /mk_state /st_validate /= h1 eqxx /= h2 h1 eqxx /=.
by rewrite h3 h1 eqxx /= h4 h5 eqxx /= check_dt_ok.
Qed.

Lemma mkGain_ok d dt : dt_ok dt ->
  mkGain d dt = Ok (St (e00 R) (e00 R) (e00 R) d true dt).
Proof. by move=> h; rewrite /mkGain /mk_state /= check_dt_ok. Qed.

Lemma mkGain_inv d dt K : mkGain d dt = Ok K ->
  K = St (e00 R) (e00 R) (e00 R) d true dt /\ dt_ok dt.
Proof.
rewrite /mkGain /mk_state /=; case E: (check_dt dt) => [dt'|] //= [<-].
by have [-> ?] := check_dt_inv E.
Qed.

(* inversion of the constructor when a, b, c already conform *)
Lemma mkS_inv a b c d dt K :
  nr b = nr a -> mkS a b c d dt = Ok K ->
  [/\ nr a = nc a, nc c = nr a, dt_ok dt &
   (K = St a b c d false dt /\ (nr c = nr d /\ nc b = nc d)) \/
   (K = St a b c (mk (nc d) 1 (fun i _ => get d 0 i)) false dt /\
    [/\ nr d = 1%N, nc b = 1%N & nc d = nr c])].
Proof.
move=> h2; rewrite /mkS /mk_state /st_validate /=.
case: ifP => // /eqP h1; rewrite h2 eqxx /=; case: ifP => //= /eqP h3.
case: ifP => [hs|/negbFE/eqP[h4 h5]] /=; last first.
  case E: (check_dt dt) => [dt'|] //= [<-]; have [-> ?] := check_dt_inv E.
  by split => //; [rewrite h3 | left].
case: ifP => //= /andP[/eqP d1 /eqP[h4 h5]].
case E: (check_dt dt) => [dt'|] //= [<-]; have [-> ?] := check_dt_inv E.
by split => //; [rewrite h3 | right; split => //; rewrite -h4 d1].
Qed.

End Constr.

Section Bcast.
Variable F : fieldType.
Implicit Types A B C : arr F.

Lemma bidx1E i : bidx 1 i = 0%N. Proof. by []. Qed.

Lemma bidx_small x i : (i < x)%N -> bidx x i = i.
Proof. by rewrite /bidx; case: eqP => // -> ; rewrite ltnS leqn0 => /eqP ->. Qed.

Lemma bidx_bnd x y z i : bdim x y = Some z -> (i < z)%N -> (bidx x i < x)%N /\ (bidx y i < y)%N.
Proof.
rewrite /bdim; case: eqP => [<- [<-]|_].
  by move=> h; rewrite bidx_small.
case: eqP => [-> [<-] h|_]; first by rewrite (bidx_small h).
by case: eqP => // -> [<-] h; rewrite (bidx_small h).
Qed.

Lemma np_op2_ok h A B C : np_op2 h A B = Ok C ->
  [/\ wfa C, bdim (nr A) (nr B) = Some (nr C), bdim (nc A) (nc B) = Some (nc C) &
   forall i j, (i < nr C)%N -> (j < nc C)%N ->
    get C i j = h (get A (bidx (nr A) i) (bidx (nc A) j)) (get B (bidx (nr B) i) (bidx (nc B) j))].
Proof.
rewrite /np_op2; case E1: bdim => [m|] //; case E2: bdim => [n|] // [<-].
by split; rewrite ?nr_mk ?nc_mk // ?wfa_mk // => i j hi hj; rewrite get_mk.
Qed.

Lemma np_op2_same h A B : nr A = nr B -> nc A = nc B ->
  np_op2 h A B = Ok (mk (nr A) (nc A) (fun i j => h (get A i j) (get B i j))).
Proof.
move=> e1 e2; rewrite /np_op2 /bdim -e1 -e2 !eqxx; congr Ok; apply: mk_ext => i j hi hj.
by rewrite !bidx_small.
Qed.

Lemma bdimC x y : bdim x y = bdim y x.
Proof. by rewrite /bdim (eq_sym y x); case: eqP => [->//|ne]; case: (x =P 1%N) => [e1|_]; case: (y =P 1%N) => [e2|_] //; rewrite ?e1 ?e2 //; case: ne; rewrite ?e1 ?e2. Qed.

Lemma bdim1 x : bdim x 1 = Some x.
Proof. by rewrite /bdim; case: eqP => // _; case: eqP => // ->. Qed.

End Bcast.

Section Ev.
Variables (R : realFieldType) (L : fieldType) (f : {rmorphism R -> L}).
Implicit Types (G H K : state R).

Lemma ev_n0 G s i j : snn G = 0%N -> ev f G s i j = f (get (sd G) i j).
Proof.
rewrite /ev; move: (snn G) => n n0; subst n.
by rewrite [X in X *m _ *m _]thinmx0 !mul0mx mxE addr0.
Qed.

Lemma ev_gain G s i j : wfS G -> sgain G -> ev f G s i j = f (get (sd G) i j).
Proof. by move=> w g; rewrite ev_n0 //; case: (wfS_gain w g). Qed.

Lemma regS_n0 G s : snn G = 0%N -> regS f G s.
Proof. by rewrite /regS; move: (snn G) => n ->; apply: regular0. Qed.

Lemma regS_gain G s : wfS G -> sgain G -> regS f G s.
Proof. by move=> w g; rewrite regS_n0 //; case: (wfS_gain w g). Qed.

(* two models with the same state matrix *)
Lemma regS_eqa G H s : sa G = sa H -> regS f G s = regS f H s.
Proof. by rewrite /regS /snn => ->. Qed.

End Ev.

(* Regular points always exist. *)
Section RegExists.
Variable R : realFieldType.

Lemma nonroot_exists (p : {poly R}) : p != 0 -> exists x : R, ~~ root p x.
Proof.
move=> p0; pose rs := [seq (i%:R : R) | i <- iota 0 (size p)].
have [/allP h|/allPn[x _ hx]] := boolP (all (root p) rs); last by exists x.
have u : uniq rs by rewrite map_inj_uniq ?iota_uniq // => i j /eqP; rewrite eqr_nat => /eqP.
have := max_poly_roots p0 (introT allP h) u.
by rewrite size_map size_iota ltnn.
Qed.

Lemma det_char n (A : 'M[R]_n) x : \det (x%:M - A) = (char_poly A).[x].
Proof.
rewrite /char_poly -horner_evalE -det_map_mx; congr (\det _).
apply/matrixP => i j; rewrite !mxE /= horner_evalE hornerD hornerN hornerC; congr (_ - _).
by case: (i == j); rewrite ?mulr1n ?mulr0n ?hornerX ?horner0.
Qed.

Lemma regular_root n (A : 'M[R]_n) x : regular A x = ~~ root (char_poly A) x.
Proof. by rewrite /regular unitmxE unitfE det_char. Qed.

Definition idR : {rmorphism R -> R} := [rmorphism of idfun].

Lemma reg_exists (G H : state R) : exists x : R, regS idR G x && regS idR H x.
Proof.
set A := mxof idR (snn G) (snn G) (sa G); set B := mxof idR (snn H) (snn H) (sa H).
have p0 : char_poly A * char_poly B != 0.
  by rewrite mulf_neq0 // monic_neq0 // char_poly_monic.
have [x hx] := nonroot_exists p0; exists x.
by rewrite /regS -/A -/B !regular_root -negb_or -rootM.
Qed.

End RegExists.
