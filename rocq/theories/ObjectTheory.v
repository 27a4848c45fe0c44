(* Histories of assignments to State and Transfer objects *)
From mathcomp Require Import all_ssreflect all_algebra.
From Coq Require Import String.
From Verif Require Import Base BaseTheory Spec ModelPoly ModelState Denote StateTheory ModelTransfer ModelObject.

Set Implicit Arguments.
Unset Strict Implicit.
Unset Printing Implicit Defensive.

Import Order.TTheory GRing.Theory Num.Theory.
Local Open Scope ring_scope.

Section Obj.
Variable R : realFieldType.
Implicit Types (G : state R).

Lemma val_inv (a b c d : option (arr R)) a' b' c' d' g : st_validate a b c d = Ok (a', b', c', d', g) ->
  [&& ~~ isSome b, ~~ isSome c & ~~ isSome d] = false ->
  [&& ~~ isSome a, ~~ isSome b & ~~ isSome c] = false ->
  [/\ a' = odflt (e00 R) a, c' = odflt (e00 R) c, nr a' = nc a', nr b' = nr a' & nc c' = nc a'] /\
  [/\ (b' = odflt (e00 R) b \/ (b' = aT (odflt (e00 R) b) /\ nr (odflt (e00 R) b) = 1%N /\ nr a' <> 1%N)),
      nr d' = nr c', nc d' = nc b',
      (let d1 := if isSome d then odflt (e00 R) d else azeros (nr c') (nc b') in d' = d1 \/
       [/\ d' = mk (nc d1) 1 (fun i _ => get d1 0 i), nr d1 = 1%N, nc d1 = nr c' & nc b' = 1%N])
    & g = false].
Proof.
rewrite /st_validate => h h1 h2; rewrite h1 h2 in h; move: h.
case: ifP => // /eqP ea; set B := odflt (e00 R) b.
have [hb|hb] := boolP (nr B != nr (odflt (e00 R) a)); last first.
  rewrite /=; case: ifP => // /eqP ec.
  case: ifP => [hd|/negbFE/eqP[e1 e2]] /=; last first.
    move=> [<- <- <- <- <-]; split; split=> //; first exact/eqP/negPn.
    - by left.
    - by left.
  case: ifP => //= /andP[/eqP d1 /eqP[d2 d3]] [<- <- <- <- <-]; split; split=> //.
  - exact/eqP/negPn.
  - by left.
  - by rewrite /= -d2.
  - by right; split=> //; rewrite -d2.
case: ifP => //= /andP[/eqP b1 /eqP b2]; case: ifP => // /eqP ec.
have hb' : B = B :> arr R by [].
case: ifP => [hd|/negbFE/eqP[e1 e2]] /=; last first.
  move=> [<- <- <- <- <-]; split; split=> //.
  - by right; split=> //; split=> //; apply/eqP; rewrite eq_sym -b1.
  - by left.
case: ifP => //= /andP[/eqP d1 /eqP[d2 d3]] [<- <- <- <- <-]; split; split=> //.
- by right; split=> //; split=> //; apply/eqP; rewrite eq_sym -b1.
- by right; split=> //; rewrite -d2.
Qed.

Variables P Z : Type.
Variable eig : arr R -> seq P.
Variable tz : state R -> Z.
Variable nozeros : Z.
Variables (inZ inR : P -> bool).
Local Notation sobj := (sobj R P Z).
Local Notation sstep := (sstep eig tz nozeros inZ inR).
Local Notation srun := (srun eig tz nozeros inZ inR).

(* poles of the data *)
Definition poles_of G : seq P := if sgain G then [::] else eig (sa G).
Definition zeros_of G : Z := if sgain G then nozeros else tz (St (sa G) (sb G) (sc G) (sd G) false None).

(* the arrays in an assignment are arrays *)
Definition arg_ok (x : sassign R) : bool :=
  match x with
  | SetA (Some v) | SetB (Some v) | SetC (Some v) | SetD (Some v) | SetQ v => wfa v
  | _ => true end.
(* an assignment of None or of an empty array to d *)
Definition empty_d (x : sassign R) : bool :=
  match x with SetD None => true | SetD (Some v) => nr v == 0%N | _ => false end.

Definition okS (G0 : state R) (o : sobj) : Prop :=
  [/\ wfS (ost o), sgain (ost o) = sgain G0, sshape (ost o) = sshape G0, snn (ost o) = snn G0
    & opoles o = poles_of (ost o)].

Lemma wfa_od (v : option (arr R)) : (if v is Some A then wfa A else true) -> wfa (odflt (e00 R) v).
Proof. by case: v => //= _; exact: wfa_mk. Qed.

Lemma sstep_rejected o x e o' : sstep o x = (o', Some e) -> o' = o.
Proof.
case: x => [v|v|v|v|v|v|v|v] /=;
  try by [case: (st_validate _ _ _ _) => [[[[[a b] c] d] g]|e1] // [<-]
         | case: (check_dt v) => // ? [<-]].
- by case: ifP => _; [case: ifP => _ // [<-] | case=> <-].
- by case: ifP => _ // [<-].
- case: ifP => _; last by case=> <-.
  by case: (sdt (ost o)) => [h|]; [case: ifP => _ // [<-] | case=> <-].
Qed.

(* a static gain does not accept new matrices, except an empty d *)
Lemma gain_rejects o x : wfS (ost o) -> sgain (ost o) -> (0 < spn (ost o))%N -> (0 < smn (ost o))%N ->
  ~~ empty_d x -> match x with SetA _ | SetB _ | SetC _ | SetD _ => exists e, sstep o x = (o, Some e) | _ => True end.
Proof.
move=> w g hp hm; have [n0 n1 [b0 b1] [c0 c1] wd] := wfS_gain w g.
rewrite /spn in hp; rewrite /smn in hm; rewrite /snn in n0.
case: x => //= v hv;
  case E: (st_validate _ _ _ _) => [[[[[a b] c] d] gg]|e1]; try by [exists e1];
  have [||[ea ec e1 e2 e3] [eb e4 e5 ed _]] := val_inv E; rewrite ?andbF //.
- move: e4 e5 eb; case: ed => [->|[_ _ _ h]] /=; first by rewrite ec /= c0 => h; rewrite h in hp.
  by move=> _ _ [hb|[hb _]]; move: h; rewrite hb /= ?b0 ?b1.
- move: e4 e5 eb; case: ed => [->|[_ /= h1 h2 h]] /=; first by rewrite ec /= c0 => h; rewrite h in hp.
  by rewrite h2 ec /= c0 in hm.
- move: e4 e5 eb; case: ed => [->|[_ _ _ h]] /= h1 h2.
    by move=> [hb|[hb _]]; move: h2; rewrite hb /= ?b0 ?b1 => h; rewrite h in hm.
  by move=> [hb|[hb _]]; move: h; rewrite hb /= ?b0 ?b1.
- case: v E ed hv => //= v E ed hv; case: ed => [ed|[_ _ _ h]] /=.
    by move: e4; rewrite ec ed /= c0 => h; rewrite h in hv.
  by case: eb => [hb|[hb _]]; move: h; rewrite hb /= ?b0 ?b1.
Qed.

Lemma sstep_ok G0 o x : (0 < spn G0)%N -> (0 < smn G0)%N -> okS G0 o -> arg_ok x ->
  ~~ (sgain G0 && empty_d x) -> okS G0 (sstep o x).1.
Proof.
move=> hp hm ok hx hed; have [w eg sh en ep] := ok.
have [hp' hm'] : (0 < spn (ost o))%N /\ (0 < smn (ost o))%N.
  by case: sh; rewrite /spn /smn => -> ->.
have rj e : sstep o x = (o, Some e) -> okS G0 (sstep o x).1 by move->.
have [g|g] := boolP (sgain (ost o)).
  have := gain_rejects w g hp' hm' (x := x); rewrite eg in g; rewrite g /= in hed => /(_ hed).
  case: x hx hed rj => [v|v|v|v|v|v|v|v] hx hed rj; try by move=> [e /rj].
  - move=> _ /=; case E: (check_dt v) => [dt|] //=; split=> //=.
    have [_ h] := check_dt_inv E; have [-> _] := check_dt_inv E.
    by move: w; rewrite /wfS => /andP[h1 /and5P[h2 h3 h4 h5 h6]]; rewrite h1 h2 h3 h4 /=; apply/andP; split.
  - by move=> _ /=; case: ifP => //; case: ifP.
  - by move=> _ /=; case: ifP.
  - by move=> _ /=; case: ifP => //; case: (sdt (ost o)) => // h; case: ifP.
have [[wa wb wc wd] [na nb ncc pc mb]] := wfS_dyn w (negbTE g).
have wt := wfS_dt w; have gf := negbTE g.
have {rj} : forall a b c d dt, wfa a -> wfa b -> wfa c -> wfa d -> dt_ok dt ->
  nr a = nc a -> nr b = nr a -> nc c = nr a -> nr c = nr d -> nc b = nc d ->
  sshape (St a b c d (sgain (ost o)) dt) = sshape G0 -> nr a = snn G0 ->
  okS G0 (s_recalc eig tz nozeros inZ inR o (St a b c d (sgain (ost o)) dt)).
  move=> a b c d dt h1 h2 h3 h4 h5 h6 h7 h8 h9 h10 h11 h12; split=> //=.
  by rewrite gf; apply: wfS_mk.
move=> mkok; rewrite /spn /smn /snn in na nb ncc pc mb.
move: sh en; rewrite /sshape /snn => sh en.
case: x hx hed => [v|v|v|v|v|v|v|v] hx _ /=; rewrite /zlike.
- case E: (st_validate _ _ _ _) => [[[[[a b] c] d] gg]|e1] //=.
  have [||[ea ec e1 e2 e3] [eb e4 e5 ed _]] := val_inv E; rewrite ?andbF //.
  have en' : nr a = nr (sa (ost o)) by rewrite e1 -e3 ec /= ncc.
  by apply: mkok => //; rewrite ?en' // ea; exact: wfa_od.
- case E: (st_validate _ _ _ _) => [[[[[a b] c] d] gg]|e1] //=.
  have [||[ea ec e1 e2 e3] [eb e4 e5 ed _]] := val_inv E; rewrite ?andbF //.
  apply: mkok => //; rewrite ?na //.
  + by case: eb => [->|[-> _]]; [exact: wfa_od | exact: wfa_T].
  + by rewrite e2 ea.
  + move: ed => /= [ed|[_ d1 d2 d3]]; first by rewrite -e5 ed.
    by rewrite d3 /= in d1 *; move: d2 d1; rewrite ec /= pc => -> ->.
- case E: (st_validate _ _ _ _) => [[[[[a b] c] d] gg]|e1] //=.
  have [||[ea ec e1 e2 e3] [eb e4 e5 ed _]] := val_inv E; rewrite ?andbF //.
  have bb : b = azeros (nr (sb (ost o))) (nc (sb (ost o))).
    case: eb => [->//|[_ [/= h1 h2]]]; case: h2.
    by rewrite ea /= -h1 nb.
  apply: mkok => //; rewrite ?na //.
  + by rewrite ec; exact: wfa_od.
  + by rewrite e3 ea.
  + move: ed => /= [ed|[_ d1 d2 d3]]; first by rewrite -e4 ed.
    by rewrite d1 -d2 -mb; move: d3; rewrite bb.
- case E: (st_validate _ _ _ _) => [[[[[a b] c] d] gg]|e1] //=.
  have [||[ea ec e1 e2 e3] [eb e4 e5 ed _]] := val_inv E; rewrite ?andbF //.
  have bb : b = azeros (nr (sb (ost o))) (nc (sb (ost o))).
    case: eb => [->//|[_ [/= h1 h2]]]; case: h2.
    by rewrite ea /= -h1 nb.
  have sd1 : nr d = nr (sd (ost o)) by rewrite e4 ec /= pc.
  have sd2 : nc d = nc (sd (ost o)) by rewrite e5 bb /= mb.
  apply: mkok => //; rewrite ?na ?sd1 ?sd2 //.
    move: ed => /= [->|[-> _ _ _]]; last exact: wfa_mk.
    by case: (v) hx => [A|] //= _; exact: wfa_mk.
  by rewrite /sshape /= sd1 sd2.
- case E: (check_dt v) => [dt|] //=; split=> //=; have [-> h] := check_dt_inv E.
  by rewrite gf; apply: wfS_mk.
- by case: ifP => //; case: ifP.
- by case: ifP.
- by case: ifP => //; case: (sdt (ost o)) => // h; case: ifP.
Qed.

Lemma srun_ok G0 o l : (0 < spn G0)%N -> (0 < smn G0)%N -> okS G0 o -> all arg_ok l ->
  ~~ (sgain G0 && has empty_d l) -> okS G0 (srun o l).
Proof.
move=> hp hm; elim: l o => [|x l IH] o ok //= /andP[hx hl] hg; apply: IH => //.
  apply: sstep_ok => //; move: hg; case: (sgain G0) => //=; by case/norP.
by move: hg; case: (sgain G0) => //=; case/norP.
Qed.

(* the stability flag *)
Definition flag_ok (o : sobj) : Prop := ostable o = stab inZ inR (sdt (ost o)) (opoles o).
Definition is_setdt (x : sassign R) : bool := if x is SetDt _ then true else false.
Definition is_setmx (x : sassign R) : bool :=
  match x with SetA _ | SetB _ | SetC _ | SetD _ => true | _ => false end.

Lemma sstep_flag o x : flag_ok o -> ~~ is_setdt x -> flag_ok (sstep o x).1.
Proof.
case: x => [v|v|v|v|v|v|v|v] ok //= _;
  try by case: (st_validate _ _ _ _) => [[[[[a b] c] d] g]|e1].
- by case: ifP => //; case: ifP.
- by case: ifP.
- by case: ifP => //; case: (sdt (ost o)) => // h; case: ifP.
Qed.

Lemma srun_flag o l : flag_ok o -> ~~ has is_setdt l -> flag_ok (srun o l).
Proof. by elim: l o => [|x l IH] o ok //= /norP[hx hl]; apply: IH => //; exact: sstep_flag. Qed.

Lemma sstep_refresh o x o' : is_setmx x -> sstep o x = (o', None) -> flag_ok o'.
Proof.
by case: x => [v|v|v|v|v|v|v|v] //= _; case: (st_validate _ _ _ _) => [[[[[a b] c] d] g]|e1] // [<-].
Qed.

Lemma setdt_keeps o v : [/\ ostable (sstep o (SetDt v)).1 = ostable o & opoles (sstep o (SetDt v)).1 = opoles o].
Proof. by rewrite /=; case: (check_dt v). Qed.

Lemma new_ok (a b c d : option (arr R)) dt o : new_sobj eig tz nozeros inZ inR a b c d dt = Ok o ->
  mk_state a b c d dt = Ok (ost o) /\ opoles o = poles_of (ost o) /\ flag_ok o.
Proof. by rewrite /new_sobj; case: (mk_state a b c d dt) => // G [<-]. Qed.

(* Transfer objects *)
Variable lcmf : seq (row R) -> res (row R * seq (row R)).
Variable eps : R.
Local Notation tobj := (tobj R P).
Local Notation tostep := (tostep eig inZ inR lcmf eps).
Local Notation torun := (torun eig inZ inR lcmf eps).

Definition tflag_ok (o : tobj) : Prop := otstable o = stab inZ inR (tdt (ott o)) (otpoles o).

Lemma t_recalcE (o : tobj) (G : tf R) :
  (t_recalc eig inZ inR lcmf eps o G).2 = (if tf_recalc lcmf eps G is Err e then Some e else None) /\
  ott (t_recalc eig inZ inR lcmf eps o G).1 = G.
Proof.
rewrite /t_recalc /tf_recalc; case: ifP => // _; case: ifP => // _.
  rewrite /sq_ok; case: (haroldcompanion (ent (td G) 0 0)) => [A|e] //=; case: (nr A == nc A) => //=.
  case: ifP => // _; case: (haroldcompanion (ent (tn G) 0 0)) => [B|e] //=.
  by case: (nr B == nc B).
case: (tf_validate (TLL (tn G)) (TLL (td G))) => [[[N D] g]|e] //=.
case: (tts_abcd lcmf eps N D g) => [[[[A B] C] dd]|e] //=; case: ifP => // _.
case: (tshape G) => p m; case: (tf_validate _ _) => [[[N1 D1] g1]|e] //=.
by case: (tts_abcd lcmf eps N1 D1 g1) => [[[[A1 B1] C1] dd1]|e].
Qed.

Lemma t_recalc_ok (o : tobj) (G : tf R) o' : t_recalc eig inZ inR lcmf eps o G = (o', None) -> tflag_ok o'.
Proof.
rewrite /t_recalc; case: ifP => [_ [<-]//|_]; case: ifP => [_|_].
  case: (haroldcompanion (ent (td G) 0 0)) => [A|e] //=; case: (nr A == nc A) => //=.
  case: ifP => [_ [<-]//|_]; case: (sq_ok _) => // _ [<-] //.
case: (tf_validate (TLL (tn G)) (TLL (td G))) => [[[N D] g]|e] //=.
case: (tts_abcd lcmf eps N D g) => [[[[A B] C] dd]|e] //=; case: ifP => [_|_ [<-]//].
case: (tshape G) => p m; case: (tf_validate _ _) => [[[N1 D1] g1]|e] //=.
by case: (tts_abcd lcmf eps N1 D1 g1) => [[[[A1 B1] C1] dd1]|e] // [<-].
Qed.

(* the data of the object follow tstep *)
Lemma tostep_data o x : ott (tostep o x).1 = (tstep lcmf eps (ott o) x).1 /\
  (tostep o x).2 = (tstep lcmf eps (ott o) x).2.
Proof.
case: x => v /=; rewrite /set_num /set_den /set_dt.
- case: (tf_validate _ _) => [[[N D] g]|e] //=; case: ifP => // _.
  by have [-> ->] := t_recalcE o (Tf N (td (ott o)) (tgain (ott o)) (tdt (ott o))).
- case: (tf_validate _ _) => [[[N D] g]|e] //=; case: ifP => // _.
  by have [-> ->] := t_recalcE o (Tf (tn (ott o)) D (tgain (ott o)) (tdt (ott o))).
- by case: (check_dt v).
Qed.

Lemma tostep_refresh o x o' : (if x is ADt _ then false else true) -> tostep o x = (o', None) -> tflag_ok o'.
Proof.
case: x => v //= _; case: (tf_validate _ _) => [[[N D] g]|e] //=; case: ifP => // _; exact: t_recalc_ok.
Qed.

Lemma adt_keeps o v : otstable (tostep o (ADt v)).1 = otstable o /\ otpoles (tostep o (ADt v)).1 = otpoles o.
Proof. by rewrite /=; case: (check_dt v). Qed.

End Obj.
