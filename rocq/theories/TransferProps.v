(* Validation of the constructor arguments of Transfer models and assignment histories. *)
From mathcomp Require Import all_ssreflect all_algebra zify.
From Verif Require Import Base BaseTheory Spec ModelPoly PolyTheory PolyOps LcmTheory ModelState ModelTransfer
  StateTheory DenoteT TransferTheory TransferOps.

Set Implicit Arguments.
Unset Strict Implicit.
Unset Printing Implicit Defensive.

Import Order.TTheory GRing.Theory Num.Theory.
Local Open Scope ring_scope.

Section Validate.
Variable R : realFieldType.
Variable lcmf : seq (row R) -> res (row R * seq (row R)).
Variable eps : R.
Implicit Types (M N D : pmat R) (G H K : tf R).
Local Notation mk_tf := (mk_tf lcmf eps).

(* wfT in a form that computes *)
Definition wfTc (G : tf R) : bool :=
  [&& [&& (0 < tp G)%N, (0 < tm G)%N, rect (tp G) (tm G) (tn G) & rect (tp G) (tm G) (td G)],
      all (fun d => head 0 d != 0) (flatten (td G)),
      all (fun i => all (fun j => (size (trimf (ent (tn G) i j)) <= size (ent (td G) i j))%N)
          (iota 0 (tm G))) (iota 0 (tp G)),
      tgain G == (all (fun d => size d == 1%N) (flatten (td G))) &
      posdt (tdt G)].
Lemma wfTE G : wfT G = wfTc G.
Proof.
rewrite /wfT /wfTc; do 2 congr (_ && _); congr (_ && _).
by apply: eq_all => i; apply: eq_all => j; rewrite size_trimf.
Qed.

Lemma reg_mimo (a : targ R) M : reg_arg a = Ok (RMimo M) ->
  exists p m, [/\ (0 < p)%N, rect p m M & ~~ ((p == 1%N) && (m == 1%N))].
Proof.
case: a => //= [l|[//|r0 rest]|A].
- by case: ifP => // _; case: ifP.
- case: ifP => // h1; case: ifP => // h2 [<-]; exists (size rest).+1, (size r0); split=> //.
    by rewrite /rect /= !eqxx h2.
  by move: h1; rewrite eqSS size_eq0 => ->.
case: ifP => // /andP[h1 h2] [<-]; exists (nr A), (nc A); split; [exact: ltnW|exact: rect_grid|].
by rewrite gtn_eqF.
Qed.

Lemma wfT_intro p m N D dt : (0 < p)%N -> (0 < m)%N -> rect p m N -> rect p m D ->
  all (fun d => head 0 d != 0) (flatten D) ->
  (forall i j, (i < p)%N -> (j < m)%N -> (size (polyhi (ent N i j)) <= size (ent D i j))%N) -> posdt dt ->
  wfT (Tf N D (maxsize (flatten D) == 1%N) dt).
Proof.
move=> hp hm rN rD hD hc hdt; have sh : tshape (Tf N D (maxsize (flatten D) == 1%N) dt) = (p, m) by rewrite /tshape /pshape /= (rect_pshape hp rN).
rewrite /wfT /tp /tm sh /= hp hm rN rD hD hdt /=.
apply/and3P; split=> //; first exact/all2P.
apply/eqP; apply: maxsize1; first exact: flatten_eq0 hp hm rD.
by apply: sub_all hD => -[|x q] //=; rewrite eqxx.
Qed.

Lemma all_hasn (T : Type) (P : pred T) s : ~~ has P s -> all (predC P) s.
Proof. by rewrite all_predC. Qed.

Lemma validate_wf (a b : targ R) N D g dt : tf_validate a b = Ok (N, D, g) ->
  all (fun d => head 0 d != 0) (flatten D) -> posdt dt ->
  wfT (Tf N D g dt).
Proof.
rewrite /tf_validate => h; have [n En {}h] := bindOk h; have [d Ed {}h] := bindOk h.
have [[N' D'] E {}h] := bindOk h; move: h; case: ifP => // f0 [<- <- <-] hD hdt {N D g}.
have tr (x : row R) : head 0 x != 0 -> trimf x = x.
  by move=> hx; apply: trimf_id; case: x hx => [|x q] //=; rewrite eqxx.
have fin p m : (0 < p)%N -> rect p m N' -> rect p m D' ->
  (forall i j, (i < p)%N -> (j < m)%N -> head 0 (ent D' i j) != 0 -> (size (trimf (ent N' i j)) <= size (ent D' i j))%N) ->
  wfT (Tf N' D' (maxsize (flatten D') == 1%N) dt).
  move=> hp rN rD hc; have hm : (0 < m)%N.
    rewrite lt0n; apply/eqP => m0; move: f0; rewrite (rect_eta [::] rD) m0 /grid.
    by rewrite /mkseq /=; elim: (iota 0 p).
  apply: (wfT_intro hp hm rN rD hD) => // i j hi hj.
  rewrite -size_trimf; apply: hc => //.
  by move: hD; rewrite (rect_flatten [::] _ rD) => /all2P; apply.
have szt (x : row R) : (size (trimf x) <= size x)%N by rewrite size_trimf size_polyhi_le.
have hn p m M (P : row R -> bool) : rect p m M -> ~~ has P (flatten M) -> forall i j, (i < p)%N -> (j < m)%N -> ~~ P (ent M i j).
  by move=> rM; rewrite -all_predC (rect_flatten [::] _ rM) => /all2P.
have s1 (x : row R) : head 0 x != 0 -> (0 < size x)%N by case: x => //=; rewrite eqxx.
have ge1 (x y : row R) : (size x < 2)%N -> head 0 y != 0 -> (size (trimf x) <= size y)%N.
  by move=> hx hy; apply: leq_trans (szt x) (leq_trans _ (s1 y hy)).
clear f0 hD; case: n d En Ed E => [|x|N] [|y|D] En Ed //=.
- case: ifP => // hs [e1 e2]; apply: (fin 1%N 1%N); rewrite -?e1 -?e2 // => -[|i] [|j] // _ _ _.
  by apply: (leq_trans (szt _)); exact: hs.
- have [p [m [hp rD _]]] := reg_mimo Ed; case=> e1 e2; move: (rect_pshape hp rD) => [p1 m1].
  apply: (fin p m hp); rewrite -?e1 -?e2 ?p1 ?m1 ?rect_grid // => i j hi hj hd.
  by rewrite ent_grid //; exact: ge1.
- case: ifP => // hs [e1 e2]; apply: (fin 1%N 1%N); rewrite -?e1 -?e2 // => -[|i] [|j] // _ _ _.
  by apply: (leq_trans (szt _)); exact: hs.
- case: ifP => // hs [e1 e2]; apply: (fin 1%N 1%N); rewrite -?e1 -?e2 // => -[|i] [|j] // _ _ _.
  by apply: (leq_trans (szt _)); exact: hs.
- have [p [m [hp rD _]]] := reg_mimo Ed; case: ifP => // hs [e1 e2]; move: (rect_pshape hp rD) => [p1 m1].
  apply: (fin p m hp); rewrite -?e1 -?e2 ?p1 ?m1 ?rect_grid // => i j hi hj hd.
  by rewrite ent_grid // leqNgt; exact: (hn p m D _ rD hs).
- have [p [m [hp rN _]]] := reg_mimo En; case: ifP => // hs [e1 e2]; move: (rect_pshape hp rN) => [p1 m1].
  apply: (fin p m hp); rewrite -?e1 -?e2 ?p1 ?m1 ?rect_grid // => i j hi hj hd; apply: ge1 => //.
  by have := hn p m N _ rN hs i j hi hj; rewrite negbK.
- have [p [m [hp rN _]]] := reg_mimo En; case: ifP => // hs [e1 e2]; move: (rect_pshape hp rN) => [p1 m1].
  apply: (fin p m hp); rewrite -?e1 -?e2 ?p1 ?m1 ?rect_grid // => i j hi hj hd; rewrite ent_grid //.
  apply: leq_trans (szt _) (leq_trans _ (szt y)).
  by have := hn p m N _ rN hs i j hi hj; rewrite -leqNgt.
have [p [m [hp rN _]]] := reg_mimo En; have [p' [m' [hp' rD _]]] := reg_mimo Ed.
case: ifP => // /eqP es; case: ifP => // hs [e1 e2].
have [ep em] : p' = p /\ m' = m.
  by move: es; rewrite /pshape (rect_pshape hp rN) (rect_pshape hp' rD) => -[-> ->].
rewrite ep em in rD; apply: (fin p m hp); rewrite -?e1 -?e2 // => i j hi hj hd.
move: hs; rewrite (zip_flatten (fun x y => size (trimf y) < size (trimf x))%N rN rD) => hs.
apply: leq_trans (szt _); rewrite leqNgt; exact: (hasn2 hs).
Qed.

Lemma mk_tf_wfT (a b : targ R) dt G : mk_tf a b dt = Ok G -> all (fun d => head 0 d != 0) (flatten (td G)) -> wfT G.
Proof.
rewrite /ModelTransfer.mk_tf => h; have [[[N D] g] E {}h] := bindOk h; have [dt' E1 {}h] := bindOk h.
have [u _ [<-]] := bindOk h => hD; have [-> hdt] := check_dt_ok E1; exact: validate_wf E _ _.
Qed.

Lemma mk_tf_causal (a b : targ R) dt G : mk_tf a b dt = Ok G ->
  all (fun d => head 0 d != 0) (flatten (td G)) ->
  forall i j, (i < tp G)%N -> (j < tm G)%N ->
  (size (polyhi (ent (tn G) i j)) <= size (polyhi (ent (td G) i j)))%N.
Proof.
move=> h hd i j hi hj; have w := mk_tf_wfT h hd; case: (wfTP w) => _ h0 hc _ _.
apply: leq_trans (hc i j hi hj) _; rewrite size_polyhi_trim //.
by move: (h0 i j hi hj); case: (ent (td G) i j) => [|x q] //=; rewrite eqxx.
Qed.

(* ------------------------------------------------------------------ *)
(* flat lists: accepted exactly when causal *)
Lemma has_nz (n : row R) : has (fun c => c != 0) n = (polyhi n != 0).
Proof. by rewrite has_polyhi. Qed.

Lemma sq_companion (n : row R) : head 1 n != 0 -> (1 < size n)%N -> sq_ok (haroldcompanion n) = Ok tt.
Proof.
case: n => [|c p] //= c0 hs; have p0 : p != [::] by case: (p) hs.
by have [A [-> _ e1 e2 _]] := companionP c0 p0; rewrite /sq_ok /= e1 e2 eqxx.
Qed.

Lemma flat_accept (n d : row R) dt : n != [::] -> polyhi d != 0 -> posdt dt ->
  is_ok (mk_tf (TFlat n) (TFlat d) dt) = (size (polyhi n) <= size (polyhi d))%N.
Proof.
move=> n0 d0 hdt; have dn : d != [::] by case: d d0 => //; rewrite /polyhi /= eqxx.
rewrite /ModelTransfer.mk_tf /tf_validate /= (negbTE n0) (negbTE dn) !has_nz d0 /= check_dt_pos // negbK.
have sd : (0 < size (trimf d))%N by rewrite lt0n size_eq0 trimf_nil.
have -> : (if polyhi n == 0 then Ok (RSiso [:: 0]) else Ok (RSiso (trimf n))) = Ok (RSiso (if polyhi n == 0 then [:: 0] else trimf n)) :> res (treg R) by case: ifP.
set n' := if _ then _ else _.
have sn : (size n' <= size (trimf d))%N = (size (polyhi n) <= size (polyhi d))%N.
  by rewrite -!size_trimf /n' -trimf_nil; case: eqP => // ->; rewrite sd.
rewrite /= /tf_combine /= sn; case: ifP => // hs /=.
rewrite /tf_recalc /= /maxsize /= maxn0; case: ifP => // /negbT s1.
rewrite /tSISO /is11 /pshape /= sq_companion ?lead_trimf //=; last by rewrite ltn_neqAle eq_sym s1.
case: ifP => // /negbT s2; rewrite /ent /= sq_companion //.
  by move: s2; rewrite /n' /ent /=; case: ifP => // _ _; exact: lead_trimf.
move: s2; rewrite /ent /= /n'; case: (polyhi n =P 0) => //= h s2.
by rewrite ltn_neqAle eq_sym s2 lt0n size_eq0 trimf_nil; apply/eqP.
Qed.

(* lists of lists of one shape other than 1-by-1 pass the validation exactly when causal *)
Lemma mimo_accept p m N D : (0 < p)%N -> (0 < m)%N -> (p, m) != (1, 1)%N -> rect p m N -> rect p m D ->
  is_ok (tf_validate (TLL N) (TLL D)) =
  all (fun i => all (fun j => (size (polyhi (ent N i j)) <= size (polyhi (ent D i j)))%N) (iota 0 m)) (iota 0 p).
Proof.
move=> hp hm ne rN rD; have [_ aN] := argis_TLL hp rN; have [_ aD] := argis_TLL hp rD.
rewrite /tf_validate aN aD; have -> : (p == 1%N) && (m == 1%N) = false.
  by apply: contraNF ne => /andP[/eqP-> /eqP->].
rewrite /tf_combine /= /pshape (rect_pshape hp rN) (rect_pshape hp rD) eqxx.
rewrite (zip_flatten (fun x y => size (trimf y) < size (trimf x))%N rN rD) -all_predC.
set b := all _ _; have -> : b = all (fun i => all (fun j => (size (polyhi (ent N i j)) <= size (polyhi (ent D i j)))%N) (iota 0 m)) (iota 0 p).
  apply: eq_all => i /=; rewrite -all_predC; apply: eq_all => j /=; by rewrite -leqNgt !size_trimf.
by case: ifP => //= _; rewrite (negbTE (flatten_eq0 hp hm rD)).
Qed.

(* ------------------------------------------------------------------ *)
(* assignments *)

Lemma set_numP G v : wfT G -> wfT (set_num lcmf eps G v).1 /\
  tshape (set_num lcmf eps G v).1 = tshape G /\ td (set_num lcmf eps G v).1 = td G.
Proof.
move=> w; rewrite /set_num; case E: (tf_validate _ _) => [[[N D] g]|] //; case: ifP => //= /negbFE/eqP es.
split; last by [].
case: (wfTP w) => -[hp hm rN rD] hd _ hg hdt; have [_ aD] := argis_td w.
have shG : tshape G = (tp G, tm G) by rewrite /tp /tm; case: (tshape G).
have [eD eg] : D = td G /\ g = (maxsize (flatten D) == 1%N).
  move: E; rewrite /tf_validate aD; case Ev: (reg_arg v) => [n|] //=; rewrite /tf_combine.
  case: ifP => [/andP[/eqP e1 /eqP e2]|e].
    rewrite e1 e2 in rD; case: n Ev => [|x|M] Ev /=; try by case: ifP => //= _ [_ <- <-]; rewrite [td G in RHS](rect11 rD).
    have [p [m [hp' rM ne]]] := reg_mimo Ev; case: ifP => //= h; case: ifP => // h' [e3 _ _].
    by move: es ne; rewrite -e3 shG e1 e2 /pshape (rect_pshape hp' rM) => -[-> ->].
  case: n Ev => [|x|M] Ev /=.
  - by case: ifP => //= _ [_ <- <-].
  - by case: ifP => //= _; case: ifP => //= _ [_ <- <-].
  by case: ifP => //= _; case: ifP => //= _; case: ifP => //= _ [_ <- <-].
have hD : all (fun d => head 0 d != 0) (flatten D) by rewrite eD; case/and5P: w.
suff -> : tgain G = g by rewrite -eD; exact: validate_wf E hD hdt.
rewrite eg eD maxsize1; [by rewrite (rect_flatten [::] _ rD) hg|exact: flatten_eq0 hp hm rD|].
by rewrite -eD; apply: sub_all hD => -[|x q] //=; rewrite eqxx.
Qed.

Lemma set_dtP G v : wfT G -> [/\ wfT (set_dt G v).1, tn (set_dt G v).1 = tn G & td (set_dt G v).1 = td G].
Proof.
move=> w; rewrite /set_dt; case E: (check_dt v) => [d|] //=; have [-> hd] := check_dt_ok E; split=> //.
by case/and5P: w => h1 h2 h3 h4 _; apply/and5P.
Qed.

Definition no_den (a : tassign R) : bool := if a is ADen _ then false else true.

Lemma trun_wf G (l : seq (tassign R)) : wfT G -> all no_den l ->
  [/\ wfT (trun lcmf eps G l), tshape (trun lcmf eps G l) = tshape G & td (trun lcmf eps G l) = td G].
Proof.
elim: l G => [|a l IH] G w //= /andP[ha hl].
have [w1 w2 w3] : [/\ wfT (tstep lcmf eps G a).1, tshape (tstep lcmf eps G a).1 = tshape G & td (tstep lcmf eps G a).1 = td G].
  case: a ha => //= v _; first by have [? [? ?]] := set_numP v w.
  by have [? e ?] := set_dtP v w; rewrite /tshape e.
by have [? -> ->] := IH _ w1 hl.
Qed.

Lemma validate_rect (a b : targ R) N D g : tf_validate a b = Ok (N, D, g) ->
  exists p m, [/\ (0 < p)%N, (0 < m)%N, rect p m N, rect p m D & g = (maxsize (flatten D) == 1%N)].
Proof.
rewrite /tf_validate => h; have [n En {}h] := bindOk h; have [d Ed {}h] := bindOk h.
have [[N' D'] E {}h] := bindOk h; move: h; case: ifP => // f0 [<- <- <-] {N D g}.
have fin p m : (0 < p)%N -> rect p m N' -> rect p m D' ->
  exists p m, [/\ (0 < p)%N, (0 < m)%N, rect p m N', rect p m D' & (maxsize (flatten D') == 1%N) = (maxsize (flatten D') == 1%N)].
  move=> hp rN rD; exists p, m; split=> //.
  rewrite lt0n; apply/eqP => m0; move: f0; rewrite (rect_eta [::] rD) m0 /grid.
  by rewrite /mkseq /=; elim: (iota 0 p).
case: n d En Ed E => [|x|N] [|y|D] En Ed //=.
- by case: ifP => // hs [e1 e2]; apply: (fin 1%N 1%N); rewrite -?e1 -?e2.
- have [p [m [hp rD _]]] := reg_mimo Ed; case=> e1 e2; move: (rect_pshape hp rD) => [p1 m1].
  by apply: (fin p m hp); rewrite -?e1 -?e2 ?p1 ?m1 ?rect_grid.
- by case: ifP => // hs [e1 e2]; apply: (fin 1%N 1%N); rewrite -?e1 -?e2.
- by case: ifP => // hs [e1 e2]; apply: (fin 1%N 1%N); rewrite -?e1 -?e2.
- have [p [m [hp rD _]]] := reg_mimo Ed; case: ifP => // hs [e1 e2]; move: (rect_pshape hp rD) => [p1 m1].
  by apply: (fin p m hp); rewrite -?e1 -?e2 ?p1 ?m1 ?rect_grid.
- have [p [m [hp rN _]]] := reg_mimo En; case: ifP => // hs [e1 e2]; move: (rect_pshape hp rN) => [p1 m1].
  by apply: (fin p m hp); rewrite -?e1 -?e2 ?p1 ?m1 ?rect_grid.
- have [p [m [hp rN _]]] := reg_mimo En; case: ifP => // hs [e1 e2]; move: (rect_pshape hp rN) => [p1 m1].
  by apply: (fin p m hp); rewrite -?e1 -?e2 ?p1 ?m1 ?rect_grid.
have [p [m [hp rN _]]] := reg_mimo En; have [p' [m' [hp' rD _]]] := reg_mimo Ed.
case: ifP => // /eqP es; case: ifP => // hs [e1 e2].
have [ep em] : p' = p /\ m' = m.
  by move: es; rewrite /pshape (rect_pshape hp rN) (rect_pshape hp' rD) => -[-> ->].
by rewrite ep em in rD; apply: (fin p m hp); rewrite -?e1 -?e2.
Qed.

(* num and den are tp-by-tm *)
Definition rectT G : bool := rect (tp G) (tm G) (tn G) && rect (tp G) (tm G) (td G).

Lemma tstep_rect G a : rectT G -> posdt (tdt G) ->
  [/\ rectT (tstep lcmf eps G a).1, tshape (tstep lcmf eps G a).1 = tshape G & posdt (tdt (tstep lcmf eps G a).1)].
Proof.
move=> w hdt; case/andP: (w) => rN rD; have shG : tshape G = (tp G, tm G) by rewrite /tp /tm; case: (tshape G).
have fin N D g v w' : tf_validate v w' = Ok (N, D, g) -> pshape N = tshape G -> rect (tp G) (tm G) N /\ rect (tp G) (tm G) D.
  move=> E es; have [p [m [hp hm r1 r2 _]]] := validate_rect E.
  by move: es; rewrite shG /pshape (rect_pshape hp r1) => -[<- <-].
case: a => v /=.
- rewrite /set_num; case E: (tf_validate _ _) => [[[N D] g]|] //; case: ifP => //= /negbFE/eqP es.
  have [r1 r2] := fin _ _ _ _ _ E es; have sh : tshape (Tf N (td G) (tgain G) (tdt G)) = tshape G by [].
  by split=> //; rewrite /rectT /tp /tm sh -/(tp G) -/(tm G) r1 /=.
- rewrite /set_den; case E: (tf_validate _ _) => [[[N D] g]|] //; case: ifP => //= /negbFE/eqP es.
  have [r1 r2] := fin _ _ _ _ _ E es; have sh : tshape (Tf (tn G) D (tgain G) (tdt G)) = tshape G by [].
  by split=> //; rewrite /rectT /tp /tm sh -/(tp G) -/(tm G) rN /=.
by rewrite /set_dt; case E: (check_dt v) => [d|] //=; have [-> hd] := check_dt_ok E.
Qed.

Lemma trun_rect G (l : seq (tassign R)) : rectT G -> posdt (tdt G) ->
  [/\ rectT (trun lcmf eps G l), tshape (trun lcmf eps G l) = tshape G & posdt (tdt (trun lcmf eps G l))].
Proof.
elim: l G => [|a l IH] G w d //=; have [w1 w2 w3] := tstep_rect a w d.
by have [? -> ?] := IH _ w1 w3.
Qed.


(* ------------------------------------------------------------------ *)
(* which companion matrices are square *)
Lemma sq_okE (p : row R) : is_ok (sq_ok (haroldcompanion p)) = (1 < size (polyhi p))%N.
Proof.
rewrite -size_trimf /haroldcompanion; case: ifP => [/nilP->|_] //.
case: (trimf p) => [|c [|x r]] //; rewrite size_rev size_map /sq_ok [size (_ :: _)]/=.
by rewrite [bind _ _]/= eqxx.
Qed.

Lemma recalc_siso G : tSISO G -> is_ok (tf_recalc lcmf eps G) =
  tgain G || (1 < size (polyhi (ent (td G) 0 0)))%N &&
             ((size (ent (tn G) 0 0) == 1%N) || (1 < size (polyhi (ent (tn G) 0 0)))%N).
Proof.
move=> sG; rewrite /tf_recalc sG; case: (tgain G) => //=.
have := sq_okE (ent (td G) 0 0); case: (sq_ok _) => [u|e] /= <- //; case: ifP => //= _; exact: sq_okE.
Qed.

Lemma mk_trow n d dt : posdt dt -> (size n <= size d)%N ->
  is_ok (mk_tf (trow n) (trow d) dt) = is_ok (tf_recalc lcmf eps (Tf [:: [:: n]] [:: [:: d]] (size d == 1%N) dt)).
Proof.
move=> hdt hs; rewrite /ModelTransfer.mk_tf /tf_validate /= !flat_row_of /tf_combine /= hs /= check_dt_pos //=.
by rewrite /maxsize /= maxn0; case: (tf_recalc _ _ _).
Qed.

(* negation of a model that the constructor accepted *)
Lemma neg_total G : wfT G -> tSISO G -> (size (ent (tn G) 0 0) <= size (ent (td G) 0 0))%N ->
  is_ok (tf_recalc lcmf eps G) -> is_ok (tf_neg lcmf eps G).
Proof.
move=> w sG hs; rewrite recalc_siso // /tf_neg /pm_arg sG; have [e1 e2] := siso_idx w sG.
case: (wfTP w) => _ _ _ hg hdt; rewrite e1 e2 ent_grid //.
rewrite mk_trow ?size_map // recalc_siso //= /ent /= size_map -/(ent (tn G) 0 0) -/(ent (td G) 0 0).
have -> : polyhi [seq - x | x <- ent (tn G) 0 0] = - polyhi (ent (tn G) 0 0).
  by rewrite -scaleN1r -polyhi_scale; congr polyhi; apply: eq_map => x; rewrite mulN1r.
by rewrite size_opp; move: hg; rewrite e1 e2 /= !andbT => ->.
Qed.

(* 1/G of a biproper model *)
Lemma inv_total G : wfT G -> tSISO G -> head 0 (ent (tn G) 0 0) != 0 ->
  size (ent (tn G) 0 0) = size (ent (td G) 0 0) -> is_ok (tf_rtruediv_siso lcmf eps G (PScal 1)).
Proof.
move=> w sG h0 es; rewrite /tf_rtruediv_siso es eqxx; have [e1 e2] := siso_idx w sG.
case: (wfTP w) => _ hd _ hg hdt; have hd0 := hd 0%N 0%N; rewrite e1 e2 in hd0.
have z (x : row R) : head 0 x != 0 -> size (polyhi x) = size x.
  by move=> hx; apply: size_polyhi_trim; case: x hx => [|a q] //=; rewrite eqxx.
have big (n d : row R) : head 0 n != 0 -> head 0 d != 0 -> size n = size d -> is_ok (mk_tf (trow n) (trow d) (tdt G)).
  move=> hn hhd e; rewrite mk_trow ?e // recalc_siso //= /ent /= !z // e.
  have : (0 < size d)%N by case: (d) hhd => //=; rewrite eqxx.
  by case: (size d) => [|[|k]].
case E: (mk_tf _ _ _) (big _ _ (hd0 isT isT) h0 (esym es)) => [H|] // _.
have [|w1 w2 w3 w4 w5] := mk_tf_wf (ltn0Sn 0) (ltn0Sn 0) (argis_trow _) (argis_trow _) _ E; first by move=> [|i] [|j].
rewrite /= /tf_scale; have -> : tSISO H by rewrite (wfT_siso w1) /tp /tm w2.
have e3 : ent (tn H) 0 0 = ent (td G) 0 0 by rewrite w3.
have e4 : ent (td H) 0 0 = ent (tn G) 0 0 by rewrite w4.
rewrite oner_eq0 e3 e4 w5; apply: big => //; rewrite ?size_map //.
by move: (hd0 isT isT); case: (ent (td G) 0 0) => [|x q] //=; rewrite mul1r.
Qed.

(* SISO + MIMO *)
Lemma add_mixed G H : tSISO G != tSISO H -> tdt G = tdt H -> tgain G && tgain H = false ->
  tf_addT lcmf eps G H = Err AttributeError.
Proof. by move=> h1 h2 h3; rewrite /tf_addT h2 eqxx h3; move: h1; case: eqP. Qed.

Lemma add_mixed_gain G H : wfT G -> wfT H -> tSISO G -> ~~ tSISO H -> tgain G -> tgain H -> ~~ is_ok (tf_addT lcmf eps G H).
Proof.
move=> wG wH sG sH gG gH; rewrite /tf_addT; case: ifP => // _; rewrite gG gH /=.
case E1: (tf_array G) => [a|] //=; case E2: (tf_array H) => [b|] //=.
have [a1 a2 _ _] := tf_arrayP wG E1; have [b1 b2 _ _] := tf_arrayP wH E2.
have [e1 e2] := siso_idx wG sG; case E: (np_add a b) => [s|] //=.
have [_ c1 c2 _] := np_op2_ok E; move: c1 c2; rewrite a1 a2 b1 b2 e1 e2 bdimC bdim1 bdimC bdim1 => -[c1] [c2].
rewrite /asize -c1 -c2; case: ifP => // /eqP/esym/eqP; rewrite eq_sym muln_eq1 => h.
by move: sH; rewrite (wfT_siso wH) h.
Qed.

(* array @ discrete-time model *)
Lemma rmatmul_discrete G (A : arr R) h : tdt G = Some h -> asize A != 1%N ->
  tf_rmatmul lcmf eps G (PArr2 A) = Err ValueError.
Proof.
move=> hG a1; rewrite /tf_rmatmul (negbTE a1) hG.
case: (posnP (nr A)) => r0; first by rewrite /ModelTransfer.mk_tf /tf_validate /tolist r0.
have ar := argis_grid_TLL (nc A) (fun i j => [:: get A i j]) r0.
set N := grid _ _ _ in ar; have [rN aN] := ar.
have n1 : (nr A == 1%N) && (nc A == 1%N) = false by apply: contraNF a1 => /andP[/eqP h1 /eqP h2]; rewrite /asize h1 h2.
rewrite /ModelTransfer.mk_tf /tf_validate /tolist -/N aN n1 /tf_combine /=.
case: ifP => // _ /=; case: ifP => //= f0; rewrite /pshape in f0; move: (rect_pshape r0 rN) => [s1 s2]; rewrite s1 s2 in f0 *.
have r1 : rect (nr A) (nc A) (grid (nr A) (nc A) (fun _ _ => [:: h])) by exact: rect_grid.
rewrite maxsize1 // ?(rect_flatten [::] _ r1); last by apply/all2P => i j hi hj; rewrite gnt_grid.
rewrite /tf_recalc /=; have -> : all (fun i => all (fun j => size (gnt [::] (grid (nr A) (nc A) (fun _ _ => [:: h])) i j) == 1%N) (iota 0 (nc A))) (iota 0 (nr A)).
  by apply/all2P => i j hi hj; rewrite gnt_grid.
rewrite [bind _ _]/= /tf_matmul; set K := Tf _ _ _ _; have -> : tSISO K = false.
  by rewrite /tSISO /is11 /pshape /K [tn _]/= s1 s2 xpair_eqE.
by rewrite /K hG.
Qed.

Lemma rmatmulP G (A : arr R) K : lcm_okf lcmf -> wfT G -> tdt G = None -> nc A = tp G -> (0 < nr A)%N ->
  tf_rmatmul lcmf eps G (PArr2 A) = Ok K ->
  [/\ wfT K, tshape K = (nr A, tm G) & tdt K = None] /\
  forall (L : fieldType) (f : {rmorphism R -> L}) s i j, (i < nr A)%N -> (j < tm G)%N ->
    (forall k, (k < tp G)%N -> dfT f G s k j) ->
    dfT f K s i j /\ evT f K s i j = \sum_(k < tp G) f (get A i k) * evT f G s k j.
Proof.
move=> hl w hG ec r0; rewrite /tf_rmatmul hG; case: (wfTP w) => -[hp hm _ _] _ _ _ _.
have shG : tshape G = (tp G, tm G) by rewrite /tp /tm; case: (tshape G).
case: ifP => [/eqP a1|a1] h.
  have [r1 c1] := shp_asize1 a1; have [[w1 w2 w3] hv] := tf_scaleP w h.
  rewrite w2 shG w3 r1 -ec c1; split=> // L f s [|i] j // _ hj hd; rewrite big_ord1; apply: hv; rewrite -?ec ?c1 //.
  exact: hd.
have [H EH {}h] := bindOk h.
have c0 : (0 < nc A)%N by rewrite ec.
have [v1 v2 v3 v4 v5] := mk_tf_none r0 c0 (tolist_argis r0) EH.
have [v6 v7] := mk_gain_ev r0 c0 erefl erefl (or_intror erefl) EH.
have [tH mH] : tp H = nr A /\ tm H = nc A by rewrite /tp /tm v2.
have hu : unitc H by move=> i j; rewrite tH mH => hi hj _; rewrite v4 ent_grid.
have [|[w1 w2 w3] hv] := tf_matmulP hl v1 w _ hu h; first by rewrite mH.
rewrite w2 tH w3 v5; split=> // L f s i j hi hj hd.
have [||k hk|d1 ->] := hv L f s i j; rewrite ?tH //.
  by rewrite mH ec in hk; split; [case: (v7 L f s i k hi); rewrite ?ec|exact: hd].
split=> //; rewrite mH ec; apply: eq_bigr => k _; congr (_ * _).
by have [|_ ->] := v7 L f s i k hi; rewrite ?ec.
Qed.

End Validate.

(* ------------------------------------------------------------------ *)
(* 1/(s+1) - 1/(s+2): the leading coefficients of the numerators cancel and the constructor raises *)
Section TwoLcm.
Variable R : realFieldType.
Variable lcmf : seq (row R) -> res (row R * seq (row R)).
Lemma lcm_two (d0 d1 l : {poly R}) (ps : seq (seq R)) : coprimep d0 d1 -> d0 \is monic -> d1 \is monic -> l \is monic ->
  (forall q, l %| q <-> (d0 %| q /\ d1 %| q)) -> l = d0 * d1.
Proof.
move=> cop m0 m1 ml h; apply/eqP; rewrite -eqp_monic ?monicMr //; apply/andP; split.
  by apply/h; rewrite dvdp_mulr // dvdp_mull.
by have [h0 h1] := (h l).1 (dvdpp l); rewrite Gauss_dvdp // h0.
Qed.

Lemma polyhi2 (a b : R) : polyhi [:: a; b] = a *: 'X + b%:P.
Proof. by rewrite polyhi_cons polyhi1 /= expr1. Qed.

Lemma two_lcm : lcm_okf lcmf ->
  lcmf [:: [:: 1; 1]; [:: 1; 1 + 1]] = Ok ([:: 1; 1 + 1 + 1; 1 + 1], [:: [:: 1; 1 + 1]; [:: 1; 1]]).
Proof.
move=> hl; have [|l [ms [E hl1 hlcm sm hm]]] := hl [:: [:: 1; 1]; [:: 1; 1 + 1]] isT; first by rewrite /= /good /= oner_eq0.
have [m0 M0] := hm 0%N isT; have [m1 M1] := hm 1%N isT; rewrite /= /monp /= invr1 !scale1r in m0 M0 m1 M1.
have d0E : polyhi [:: 1; 1] = 'X - (-1)%:P :> {poly R} by rewrite polyhi2 scale1r polyCN opprK.
have d1E : polyhi [:: 1; 1 + 1] = 'X - (- (1 + 1))%:P :> {poly R} by rewrite polyhi2 scale1r polyCN opprK.
have lm : polyhi l \is monic.
  by case: (l) hl1 => [/eqP|c l']; rewrite /= ?monicE ?(eq_sym 0) ?oner_eq0 // => ->; rewrite lead_coef_polyhi ?oner_eq0.
have lE : polyhi l = polyhi [:: 1; 1] * polyhi [:: 1; 1 + 1].
  apply: (lcm_two [::]) => //; rewrite ?d0E ?d1E ?monicXsubC //.
    by rewrite coprimep_XsubC root_XsubC eqr_opp -subr_eq0 addrK oner_eq0.
  move=> q; split=> [/hlcm h|[h0 h1]].
    by rewrite -d0E -d1E; split; apply: h; rewrite !inE eqxx ?orbT.
  by apply/hlcm => p; rewrite !inE => /orP[]/eqP->; rewrite ?d0E ?d1E.
have nz0 : polyhi [:: 1; 1] != 0 :> {poly R} by rewrite d0E polyXsubC_eq0.
have nz1 : polyhi [:: 1; 1 + 1] != 0 :> {poly R} by rewrite d1E polyXsubC_eq0.
have trm (x : seq R) (a : R) : head 0 x != 0 -> polyhi x = polyhi [:: 1; a] -> x = [:: 1; a].
  move=> hx e; apply: polyhi_inj => //; have h1 : head 1 x != 0 by case: (x) hx => //=; rewrite eqxx.
  by rewrite -(size_polyhi_trim h1) e size_polyhi_trim //= oner_eq0.
have e0 : nth [::] ms 0 = [:: 1; 1 + 1] by apply: trm => //; apply: (mulIf nz0); rewrite M0 lE mulrC.
have e1 : nth [::] ms 1 = [:: 1; 1] by apply: trm => //; apply: (mulIf nz1); rewrite M1 lE.
have el : l = [:: 1; 1 + 1 + 1; 1 + 1].
  have hl0 : head 1 l != 0 by case: (l) hl1 => [|c l'] /= => [_|->]; rewrite oner_eq0.
  apply: polyhi_inj.
    by rewrite -(size_polyhi_trim hl0) lE d0E d1E size_mul ?polyXsubC_eq0 // !size_XsubC.
  rewrite lE !polyhi_cons !polyhi_nil /= !addr0 expr0 expr1 !scale1r.
  rewrite mulrDl !mulrDr -expr2 !mul1r -!addrA; congr (_ + _).
  by rewrite -scalerAr mulr1 !scalerDl !scale1r !addrA.
rewrite E el; have -> // : ms = [:: [:: 1; 1 + 1]; [:: 1; 1]].
by move: e0 e1 sm; case: (ms) => [|x [|y []]] //= -> ->.
Qed.
End TwoLcm.

Section AddFail.
Local Notation R := rat_realFieldType.
Variable lcmf : seq (row R) -> res (row R * seq (row R)).
Variable eps : R.
Definition fG : tf R := Tf [:: [:: [:: 1]]] [:: [:: [:: 1; 1]]] false None.
Definition fH : tf R := Tf [:: [:: [:: -1]]] [:: [:: [:: 1; 1 + 1]]] false None.

Lemma fGH_wf : wfT fG && wfT fH.
Proof. by rewrite !wfTE; vm_compute. Qed.

Lemma add_fail : lcm_okf lcmf -> tf_addT lcmf eps fG fH = Err ValueError.
Proof.
move=> hl; have E := two_lcm hl.
have ae : add_entry lcmf [:: 1] [:: 1; 1] [:: -1] [:: 1; 1 + 1] = Ok ([:: 0; 1], [:: 1; 1 + 1 + 1; 1 + 1]).
  have -> : add_entry lcmf [:: 1] [:: 1; 1] [:: -1] [:: 1; 1 + 1] =
            add_entry (fun _ => Ok ([:: 1; 1 + 1 + 1; 1 + 1], [:: [:: 1; 1 + 1]; [:: 1; 1]])) [:: 1] [:: 1; 1] [:: -1] [:: 1; 1 + 1] by rewrite /add_entry E.
  set X := add_entry _ _ _ _ _.
  have : if X is Ok (n, d) then (n == [:: 0; 1]) && (d == [:: 1; 1 + 1 + 1; 1 + 1]) else false by vm_compute.
  by case: X => // -[n d] /andP[/eqP-> /eqP->].
have -> : tf_addT lcmf eps fG fH = mk_tf lcmf eps (trow [:: 0; 1]) (trow [:: 1; 1 + 1 + 1; 1 + 1]) None.
  by rewrite /tf_addT /tp /tm /gridR /tshape /pshape /fG /fH; cbn -[add_entry mk_tf]; rewrite ae.
set X := mk_tf _ _ _ _ _; have : if X is Err ValueError then true else false by vm_compute.
by case: X => // -[].
Qed.
End AddFail.

(* haroldlcm meets the contract *)
Lemma haroldlcm_okf (R : realFieldType) (sca : arr R -> seq R) svd :
  (forall a, sca_ok a (sca a)) -> (forall C, wfa C -> svd_ok C (svd C)) -> lcm_okf (haroldlcm sca svd 0).
Proof. by move=> h1 h2 args; exact: lcm_full. Qed.

(* Transfer(a, b) * H, a SISO static gain *)
Lemma mul_gain_ignores_den (R : realFieldType) lcmf eps (a b : R) H K : wfT H ->
  tf_mulT lcmf eps (Tf [:: [:: [:: a]]] [:: [:: [:: b]]] true (tdt H)) H = Ok K ->
  forall (L : fieldType) (f : {rmorphism R -> L}) s i j, (i < tp H)%N -> (j < tm H)%N -> dfT f H s i j ->
  evT f K s i j = f a * evT f H s i j.
Proof.
move=> wH; rewrite /tf_mulT /= eqxx /tSISO /is11 /= => h L f s i j hi hj d.
by have [_ hv] := tf_scaleP wH h; have [_ ->] := hv L f s i j hi hj d.
Qed.

(* Concrete models for the examples *)
Section Ex.
Local Notation Q := rat_realFieldType.
(* 2/(s+1), sampling period 1/2 *)
Definition tG : tf Q := Tf [:: [:: [:: 2%:~R]]] [:: [:: [:: 1; 1]]] false (Some (1 / 2%:~R)).
(* (s+3)/(s^2+3s+2) *)
Definition tH : tf Q := Tf [:: [:: [:: 1; 3%:~R]]] [:: [:: [:: 1; 3%:~R; 2%:~R]]] false (Some (1 / 2%:~R)).
(* [[1/(s+1), 2], [s/(s+1), 0]] *)
Definition tM : tf Q := Tf [:: [:: [:: 1]; [:: 2%:~R]]; [:: [:: 1; 0]; [:: 0]]]
  [:: [:: [:: 1; 1]; [:: 1]]; [:: [:: 1; 1]; [:: 1]]] false (Some (1 / 2%:~R)).
(* the static gain 3/5 *)
Definition tK : tf Q := Tf [:: [:: [:: 3%:~R]]] [:: [:: [:: 5%:~R]]] true (Some (1 / 2%:~R)).
(* (2s+1)/(s+1) *)
Definition tB : tf Q := Tf [:: [:: [:: 2%:~R; 1]]] [:: [:: [:: 1; 1]]] false None.
(* a least common multiple for denominators that are s+1, (s+1)(s+2) or constant *)
Definition exl (ds : seq (row Q)) : res (row Q * seq (row Q)) :=
  let m := foldr maxn 0%N [seq size d | d <- ds] in
  let full := if (2 < m)%N then [:: 1; 3%:~R; 2%:~R] else if (1 < m)%N then [:: 1; 1] else [:: 1] in
  Ok (full, [seq (if size d == m then [:: 1] else if size d == 1%N then full else [:: 1; 2%:~R]) | d <- ds]).
End Ex.
