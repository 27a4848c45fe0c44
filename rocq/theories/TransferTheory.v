(* Lemmas about the constructor of Transfer models and grids of entries. *)
From mathcomp Require Import all_ssreflect all_algebra zify.
From Verif Require Import Base BaseTheory Spec ModelPoly PolyTheory PolyOps ModelState ModelTransfer DenoteT.

Set Implicit Arguments.
Unset Strict Implicit.
Unset Printing Implicit Defensive.

Import Order.TTheory GRing.Theory Num.Theory.
Local Open Scope ring_scope.

Section Grids.
Variable A : Type.
Variable a0 : A.
Implicit Types (M : seq (seq A)) (h : nat -> nat -> A).
Definition gnt M i j := nth a0 (nth [::] M i) j.

Lemma rect_grid p m h : rect p m (grid p m h).
Proof.
rewrite /rect size_mkseq eqxx /=; apply/(all_nthP [::]) => i; rewrite size_mkseq => hi.
by rewrite nth_mkseq // size_mkseq.
Qed.

Lemma gnt_grid p m h i j : (i < p)%N -> (j < m)%N -> gnt (grid p m h) i j = h i j.
Proof. by move=> hi hj; rewrite /gnt /grid !nth_mkseq. Qed.

Lemma grid_ext p m h1 h2 : (forall i j, (i < p)%N -> (j < m)%N -> h1 i j = h2 i j) ->
  grid p m h1 = grid p m h2.
Proof.
move=> h; apply: (@eq_from_nth _ [::]); rewrite !size_mkseq // => i hi; rewrite !nth_mkseq //.
apply: (@eq_from_nth _ a0); rewrite !size_mkseq // => j hj; rewrite !nth_mkseq //; exact: h.
Qed.

Lemma rect_eta p m M : rect p m M -> M = grid p m (gnt M).
Proof.
case/andP=> /eqP hs hr; apply: (@eq_from_nth _ [::]); rewrite ?size_mkseq // => i hi.
rewrite nth_mkseq -?hs //; have/eqP e : size (nth [::] M i) == m by apply: (all_nthP [::] hr).
apply: (@eq_from_nth _ a0); rewrite ?size_mkseq // => j hj; rewrite nth_mkseq //; by rewrite -e.
Qed.

Lemma all_flatten (P : pred A) M : all P (flatten M) = all (all P) M.
Proof. by elim: M => //= r M IH; rewrite all_cat IH. Qed.

Lemma rect_flatten p m M (P : pred A) : rect p m M ->
  all P (flatten M) = all (fun i => all (fun j => P (gnt M i j)) (iota 0 m)) (iota 0 p).
Proof.
move=> r; rewrite {1}(rect_eta r) /grid; apply/idP/idP.
- move=> h; apply/allP => i; rewrite mem_iota /= add0n => hi; apply/allP => j; rewrite mem_iota add0n => /= hj.
  move: h; rewrite all_flatten => /(all_nthP [::]) /(_ i); rewrite size_mkseq => /(_ hi).
  by rewrite nth_mkseq // => /(all_nthP a0) /(_ j); rewrite size_mkseq nth_mkseq // => /(_ hj).
move=> h; rewrite all_flatten; apply/(all_nthP [::]) => i; rewrite size_mkseq => hi; rewrite nth_mkseq //.
apply/(all_nthP a0) => j; rewrite size_mkseq => hj; rewrite nth_mkseq //.
by move/allP: h => /(_ i); rewrite mem_iota add0n => /(_ hi) /allP /(_ j); rewrite mem_iota add0n => /(_ hj).
Qed.

Lemma all2P p m (P : nat -> nat -> bool) :
  reflect (forall i j, (i < p)%N -> (j < m)%N -> P i j) (all (fun i => all (P i) (iota 0 m)) (iota 0 p)).
Proof.
apply: (iffP allP) => [h i j hi hj|h i].
  by move: (h i); rewrite mem_iota add0n => /(_ hi) /allP /(_ j); rewrite mem_iota add0n => /(_ hj).
by rewrite mem_iota add0n => hi; apply/allP => j; rewrite mem_iota add0n => hj; exact: h.
Qed.

Lemma rect_pshape p m M : (0 < p)%N -> rect p m M -> (size M, size (head [::] M)) = (p, m).
Proof.
move=> hp /andP[/eqP hs hr]; congr (_, _) => //.
by case: M hs hr hp => [<-//|r M] /= _ /andP[/eqP].
Qed.

Lemma rect_map (B : Type) (g : A -> B) p m M : rect p m M -> rect p m [seq [seq g e | e <- r] | r <- M].
Proof.
case/andP=> /eqP hs hr; rewrite /rect size_map hs eqxx /= all_map.
by apply: sub_all hr => r /=; rewrite size_map.
Qed.

End Grids.

Lemma gnt_map (A B : Type) (a0 : A) (b0 : B) (g : A -> B) p m M i j : rect p m M -> (i < p)%N -> (j < m)%N ->
  gnt b0 [seq [seq g e | e <- r] | r <- M] i j = g (gnt a0 M i j).
Proof.
move=> r hi hj; case/andP: r => /eqP hs hr; rewrite /gnt (nth_map [::]) ?hs //.
have/eqP e : size (nth [::] M i) == m by apply: (all_nthP [::] hr); rewrite hs.
by rewrite (nth_map a0) // e.
Qed.

Section SeqR.
Variable A : Type.
Lemma seqR_ok (s : seq (res A)) t : seqR s = Ok t -> s = [seq Ok x | x <- t].
Proof.
elim: s t => [|x s IH] t /=; first by case=> <-.
by case: x => //= a; case: (seqR s) IH => //= t' /(_ _ erefl) -> [<-].
Qed.
Lemma seqR_map (s : seq A) : seqR [seq Ok x | x <- s] = Ok s.
Proof. by elim: s => //= x s ->. Qed.
End SeqR.

Section GridR.
Variables (A : Type) (a0 : A).
Lemma gridR_ok p m (h : nat -> nat -> res A) M : gridR p m h = Ok M ->
  rect p m M /\ forall i j, (i < p)%N -> (j < m)%N -> h i j = Ok (gnt a0 M i j).
Proof.
rewrite /gridR => /seqR_ok e.
have hs : size M = p by move: (congr1 size e); rewrite !size_map size_iota.
have er i : (i < p)%N -> mkseq (h i) m = [seq Ok x | x <- nth [::] M i].
  move=> hi; apply: seqR_ok.
  have := congr1 (fun s => nth (Ok [::]) s i) e; rewrite -map_comp (nth_map 0%N) ?size_iota // nth_iota // add0n.
  by rewrite (nth_map [::]) ?hs.
have es i : (i < p)%N -> size (nth [::] M i) = m.
  by move=> hi; move: (congr1 size (er i hi)); rewrite size_mkseq size_map.
split=> [|i j hi hj].
  rewrite /rect hs eqxx /=; apply/(all_nthP [::]) => i; rewrite hs => hi; by rewrite es.
have := congr1 (fun s => nth (Ok a0) s j) (er i hi).
by rewrite nth_mkseq // (nth_map a0) ?es.
Qed.

Lemma gridR_tot p m (h : nat -> nat -> res A) g : (forall i j, (i < p)%N -> (j < m)%N -> h i j = Ok (g i j)) ->
  gridR p m h = Ok (grid p m g).
Proof.
move=> H; rewrite /gridR; have -> : [seq seqR row | row <- grid p m h] = [seq Ok x | x <- grid p m g].
  apply: (@eq_from_nth _ (Err ValueError)); rewrite ?size_map ?size_mkseq ?size_iota //.
  move=> i hi; rewrite !(nth_map [::]) ?size_mkseq // !nth_mkseq //.
  have -> : mkseq (h i) m = [seq Ok x | x <- mkseq (g i) m].
    rewrite -map_comp; apply/eq_in_map => j; rewrite mem_iota add0n /= => hj; exact: H.
  exact: seqR_map.
exact: seqR_map.
Qed.
End GridR.

Section Ctor.
Variable R : realFieldType.
Variable lcmf : seq (row R) -> res (row R * seq (row R)).
Variable eps : R.
Implicit Types (M N D : pmat R) (G H K : tf R).
Local Notation mk_tf := (mk_tf lcmf eps).

Lemma entE M i j : ent M i j = gnt [::] M i j. Proof. by []. Qed.

Lemma ent_grid p m (h : nat -> nat -> row R) i j : (i < p)%N -> (j < m)%N -> ent (grid p m h) i j = h i j.
Proof. exact: gnt_grid. Qed.

Lemma flat_row_of (p : row R) : flat_arr (row_of p) = p.
Proof.
rewrite /flat_arr /row_of /grid /= cats0; apply: (@eq_from_nth _ 0); rewrite ?size_mkseq // => i hi.
by rewrite nth_mkseq // get_mk.
Qed.

(* the argument a stands for the p-by-m grid M *)
Definition argis p m (a : targ R) M : Prop :=
  rect p m M /\ reg_arg a = Ok (if (p == 1%N) && (m == 1%N) then RSiso (ent M 0 0) else RMimo M).

Lemma argis_TLL p m M : (0 < p)%N -> rect p m M -> argis p m (TLL M) M.
Proof.
move=> hp r; split=> //; case/andP: r => /eqP hs hr; case: M hs hr hp => [<-//|r0 rest] hs /= /andP[/eqP h0 hr] hp.
rewrite h0; case: rest hs hr => [|r1 rest] /= <- hr; last by rewrite hr.
rewrite !eqxx /=; case: (m == 1%N) => //; rewrite /ent /=; by case: (r0).
Qed.

Lemma argis_pm p m M : (0 < p)%N -> rect p m M -> argis p m (pm_arg ((p == 1%N) && (m == 1%N)) M) M.
Proof.
move=> hp r; rewrite /pm_arg; case: ifP => e; last exact: argis_TLL.
by split=> //; rewrite e /= flat_row_of.
Qed.

Lemma rect11 M : rect 1 1 M -> M = [:: [:: ent M 0 0]].
Proof. by move/(rect_eta [::]). Qed.

Lemma maxsize1 (l : seq (seq R)) : l != [::] -> all (fun d => d != [::]) l ->
  (maxsize l == 1%N) = all (fun d => size d == 1%N) l.
Proof.
move=> l0 hl; apply/eqP/allP => [e d hd|h].
  have := maxsize_ge hd; rewrite e; move/allP: hl => /(_ d hd); by case: d {hd} => [|x []].
have [d hd <-] := maxsize_in l0; exact/eqP/h.
Qed.

Lemma flatten_eq0 p m M : (0 < p)%N -> (0 < m)%N -> rect p m M -> flatten M != [::].
Proof.
move=> hp hm /andP[/eqP hs]; case: M hs => [e|r M _] /=; first by rewrite -e in hp.
by case/andP=> /eqP h0 _; case: r h0 => [e|] //; rewrite -e in hm.
Qed.

Lemma check_dt_ok (dt : option R) d : check_dt dt = Ok d -> d = dt /\ posdt dt.
Proof.
rewrite /check_dt; case: dt => [v|]; last by case.
by case: ifP => // /negbT; rewrite -ltNge => h [<-].
Qed.

Lemma check_dt_pos (dt : option R) : posdt dt -> check_dt dt = Ok dt.
Proof. by case: dt => [v|] //= h; rewrite leNgt h. Qed.

Lemma bindOk A B (x : res A) (k : A -> res B) b : bind x k = Ok b -> exists2 a, x = Ok a & k a = Ok b.
Proof. by case: x => //= a h; exists a. Qed.

(* trimmed sizes in each entry *)
Definition causal p m N D := forall i j, (i < p)%N -> (j < m)%N -> (size (trimf (ent N i j)) <= size (trimf (ent D i j)))%N.

Lemma zip_flatten p m N D (P : row R -> row R -> bool) : rect p m N -> rect p m D ->
  has (fun xy => P xy.1 xy.2) (zip (flatten N) (flatten D)) =
  has (fun i => has (fun j => P (ent N i j) (ent D i j)) (iota 0 m)) (iota 0 p).
Proof.
move=> rN rD; rewrite (rect_eta [::] rN) (rect_eta [::] rD).
have E : zip (flatten (grid p m (gnt [::] N))) (flatten (grid p m (gnt [::] D))) =
   flatten (grid p m (fun i j => (gnt [::] N i j, gnt [::] D i j))).
  rewrite /grid /mkseq; elim: (iota 0 p) => //= i s IH; rewrite zip_cat ?size_map // IH; congr (_ ++ _).
  by elim: (iota 0 m) => //= j t ->.
rewrite E; apply: negb_inj; rewrite -all_predC (rect_flatten ([::], [::]) _ (rect_grid p m _)).
rewrite -all_predC; apply: eq_in_all => i; rewrite mem_iota add0n => hi /=.
rewrite -all_predC; apply: eq_in_all => j; rewrite mem_iota add0n => hj /=.
by rewrite !gnt_grid //= !entE !gnt_grid.
Qed.

Lemma hasn2 p m (P : nat -> nat -> bool) :
  ~~ has (fun i => has (P i) (iota 0 m)) (iota 0 p) -> forall i j, (i < p)%N -> (j < m)%N -> ~~ P i j.
Proof.
move=> h i j hi hj; move/hasPn: h => /(_ i); rewrite mem_iota add0n => /(_ hi) /hasPn /(_ j).
by rewrite mem_iota add0n => /(_ hj).
Qed.

(* the constructor on two p-by-m grids *)
Lemma mk_tf_pm p m a b N D dt G : (0 < p)%N -> (0 < m)%N -> argis p m a N -> argis p m b D ->
  mk_tf a b dt = Ok G ->
  [/\ G = Tf N D (maxsize (flatten D) == 1%N) dt, posdt dt &
      if (p == 1%N) && (m == 1%N) then (size (ent N 0 0) <= size (ent D 0 0))%N : Prop else causal p m N D].
Proof.
move=> hp hm [rN aN] [rD aD]; rewrite /mk_tf /tf_validate aN aD /=.
case: ifP => e.
  rewrite /tf_combine /=; case: ifP => // hc /=.
  move=> h; have [d E h1] := bindOk h; have [E1 E2] := check_dt_ok E; have [u _ [<-]] := bindOk h1.
  case/andP: e => /eqP e1 /eqP e2; rewrite e1 e2 in rN rD; rewrite E1; split=> //.
  by rewrite {2}(rect11 rN) {3 4}(rect11 rD).
rewrite /tf_combine /= /pshape !(rect_pshape hp rN) (rect_pshape hp rD) eqxx.
rewrite (zip_flatten (fun x y => size (trimf y) < size (trimf x))%N rN rD).
case: ifP => // hc /=; rewrite (negbTE (flatten_eq0 hp hm rD)) /=.
move=> h; have [d E h1] := bindOk h; have [E1 E2] := check_dt_ok E; have [u _ [<-]] := bindOk h1.
rewrite E1; split=> // i j hi hj.
by rewrite leqNgt; exact: (hasn2 hc).
Qed.

Lemma mk_tf_wf p m a b N D dt G : (0 < p)%N -> (0 < m)%N -> argis p m a N -> argis p m b D ->
  (forall i j, (i < p)%N -> (j < m)%N -> head 0 (ent D i j) != 0) ->
  mk_tf a b dt = Ok G ->
  [/\ wfT G, tshape G = (p, m), tn G = N, td G = D & tdt G = dt].
Proof.
move=> hp hm aN aD hD h; have [-> hdt hc] := mk_tf_pm hp hm aN aD h.
case: (aN) => rN _; case: (aD) => rD _.
have sh : tshape (Tf N D (maxsize (flatten D) == 1%N) dt) = (p, m) by rewrite /tshape /pshape /= (rect_pshape hp rN).
split=> //; rewrite /wfT /tp /tm sh /= hp hm rN rD /=.
have dall : all (fun d : row R => head 0 d != 0) (flatten D).
  by rewrite (rect_flatten [::] _ rD); apply/all2P => i j hi hj; exact: hD.
rewrite dall /=; apply/and3P; split=> //.
- apply/all2P => i j hi hj; rewrite -size_trimf.
  have hd := hD i j hi hj; have td0 : trimf (ent D i j) = ent D i j.
    by apply: trimf_id; case: (ent D i j) hd => [|x q] //=; rewrite eqxx.
  move: hc; case: ifP => [/andP[/eqP e1 /eqP e2]|_ hc]; last by move: (hc i j hi hj); rewrite td0.
  have -> : i = 0%N by move: hi; rewrite e1; case: i {hj hd td0}.
  have -> : j = 0%N by move: hj; rewrite e2; case: j {hd td0}.
  apply: leq_trans; rewrite size_trimf; exact: size_polyhi_le.
- apply/eqP; apply: maxsize1; first exact: flatten_eq0 hp hm rD.
  by apply: sub_all dall => -[|x q] //=; rewrite eqxx.
Qed.

(* what wfT says *)
Lemma wfTP G : wfT G ->
  [/\ [/\ (0 < tp G)%N, (0 < tm G)%N, rect (tp G) (tm G) (tn G) & rect (tp G) (tm G) (td G)],
      forall i j, (i < tp G)%N -> (j < tm G)%N -> head 0 (ent (td G) i j) != 0,
      forall i j, (i < tp G)%N -> (j < tm G)%N -> (size (polyhi (ent (tn G) i j)) <= size (ent (td G) i j))%N,
      tgain G = all (fun i => all (fun j => size (ent (td G) i j) == 1%N) (iota 0 (tm G))) (iota 0 (tp G)) &
      posdt (tdt G)].
Proof.
case/and5P=> /and4P[hp hm rN rD] hD hc /eqP hg hdt; split=> //.
- by move: hD; rewrite (rect_flatten [::] _ rD) => /all2P.
- exact/all2P.
- by rewrite hg (rect_flatten [::] _ rD).
Qed.

Lemma wfT_siso G : wfT G -> tSISO G = (tp G == 1%N) && (tm G == 1%N).
Proof. by move=> _; rewrite /tSISO /is11 /tp /tm /tshape; case: (pshape _). Qed.

(* the arguments built from an existing model *)
Lemma argis_td G : wfT G -> argis (tp G) (tm G) (pm_arg (tSISO G) (td G)) (td G).
Proof. by move=> w; rewrite (wfT_siso w); case: (wfTP w) => -[hp hm rN rD] _ _ _ _; exact: argis_pm. Qed.

Lemma argis_grid G p m h : wfT G -> tshape G = (p, m) ->
  argis p m (pm_arg (tSISO G) (grid p m h)) (grid p m h).
Proof.
move=> w sh; rewrite (wfT_siso w) /tp /tm sh; apply: argis_pm; last exact: rect_grid.
by case: (wfTP w) => -[]; rewrite /tp sh.
Qed.

Lemma argis_grid_TLL p m h : (0 < p)%N -> argis p m (TLL (grid p m h)) (grid p m h).
Proof. by move=> hp; apply: argis_TLL; rewrite ?rect_grid. Qed.

Lemma argis_trow (x : row R) : argis 1 1 (trow x) [:: [:: x]].
Proof. by split=> //=; rewrite flat_row_of. Qed.
Lemma argis_num (x : R) : argis 1 1 (TNum x) [:: [:: [:: x]]].
Proof. by []. Qed.

End Ctor.
