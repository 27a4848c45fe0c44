(* Theory of the Arnoldi loop of controllability_indices. *)
From mathcomp Require Import all_ssreflect all_algebra zify.
From Verif Require Import Base BaseTheory SpecSim ModelSim ModelCi SpecCi.

Set Implicit Arguments.
Unset Strict Implicit.
Unset Printing Implicit Defensive.

Import Order.TTheory GRing.Theory Num.Theory.
Local Open Scope ring_scope.

Lemma free_dim (K : fieldType) (vT : vectType K) (l : seq vT) : free l = (\dim <<l>>%VS == size l).
Proof. by []. Qed.

Section Lists.
Variable R : realFieldType.
Variable n : nat.
Local Notation V := 'cV[R]_n.

Definition dot (u v : V) : R := \sum_i u i 0 * v i 0.
Lemma dotC u v : dot u v = dot v u. Proof. by apply: eq_bigr => i _; rewrite mulrC. Qed.
Lemma dotDr u v w : dot u (v + w) = dot u v + dot u w.
Proof. by rewrite -big_split; apply: eq_bigr => i _; rewrite mxE mulrDr. Qed.
Lemma dotZr u c v : dot u (c *: v) = c * dot u v.
Proof. by rewrite mulr_sumr; apply: eq_bigr => i _; rewrite mxE mulrCA. Qed.
Lemma dotNr u v : dot u (- v) = - dot u v.
Proof. by rewrite -scaleN1r dotZr mulN1r. Qed.
Lemma dot0r u : dot u 0 = 0. Proof. by apply: big1 => i _; rewrite mxE mulr0. Qed.
Lemma dot_sumr I (r : seq I) u (F : I -> V) : dot u (\sum_(i <- r) F i) = \sum_(i <- r) dot u (F i).
Proof. by elim/big_rec2: _ => [|i x y _ <-]; rewrite ?dot0r ?dotDr. Qed.
Lemma dot_eq0 v : dot v v = 0 -> v = 0.
Proof.
move=> h; apply/matrixP => i j; rewrite ord1 mxE; have h0 : \sum_k v k 0 ^+ 2 = 0 by rewrite -[RHS]h; apply: eq_bigr => k _; rewrite expr2.
have /eqP : v i 0 ^+ 2 = 0 by apply: (psumr_eq0P _ h0) => // k _; exact: sqr_ge0.
by rewrite sqrf_eq0 => /eqP.
Qed.

Definition orn (l : seq V) := forall s t, (s < size l)%N -> (t < size l)%N -> dot l`_s l`_t = (s == t)%:R.
Definition proj (l : seq V) w := \sum_(t < size l) dot l`_t w *: l`_t.

Lemma mem_span_nth (l : seq V) v : v \in <<l>>%VS -> exists c : nat -> R, v = \sum_(t < size l) c t *: l`_t.
Proof.
move/(@coord_span _ _ _ (in_tuple l)) => e; exists (fun t => if insub t is Some i then coord (in_tuple l) i v else 0).
by rewrite {1}e; apply: eq_bigr => i _; rewrite insubT //= => hi; congr (coord _ _ _ *: _); apply: val_inj.
Qed.

Lemma sum_delta (l : seq V) (c : nat -> R) t : orn l -> (t < size l)%N -> dot l`_t (\sum_(s < size l) c s *: l`_s) = c t.
Proof.
move=> ol ht; rewrite dot_sumr (bigD1 (Ordinal ht)) //= dotZr ol // eqxx mulr1 big1 ?addr0 // => s ne.
rewrite dotZr ol //; case: eqP => [e|_]; last by rewrite mulr0.
by case/eqP: ne; apply: val_inj.
Qed.
Lemma dot_proj l w t : orn l -> (t < size l)%N -> dot l`_t (w - proj l w) = 0.
Proof. by move=> ol ht; rewrite dotDr dotNr (sum_delta (fun s => dot l`_s w)) // subrr. Qed.
Lemma proj_mem l w : proj l w \in <<l>>%VS.
Proof. by apply: memv_suml => t _; apply: memvZ; apply: memv_span; apply: mem_nth. Qed.
Lemma orn_free l : orn l -> free l.
Proof.
move=> ol; apply/(@freeP _ _ _ (in_tuple l)) => k hk i.
pose f (s : nat) : R := if insub s is Some j then k j else 0.
have fE (j : 'I_(size l)) : f j = k j by rewrite /f valK.
have := sum_delta f ol (ltn_ord i); rewrite fE => <-.
have -> : \sum_(s < size l) f s *: l`_s = 0 by rewrite -[RHS]hk; apply: eq_bigr => j _; rewrite fE.
exact: dot0r.
Qed.
Lemma proj_in l w : orn l -> w \in <<l>>%VS -> w - proj l w = 0.
Proof.
move=> ol hw; have hd : w - proj l w \in <<l>>%VS by rewrite rpredB ?proj_mem.
apply: dot_eq0; have [c {1}->] := mem_span_nth hd; rewrite dotC dot_sumr big1 // => t _.
by rewrite dotZr dotC dot_proj ?mulr0.
Qed.
Lemma orn_rcons l w : orn l -> (forall t, (t < size l)%N -> dot l`_t w = 0) -> dot w w = 1 -> orn (rcons l w).
Proof.
move=> ol h h1 s t; rewrite size_rcons !ltnS !nth_rcons => hs ht.
case: ltnP => hs'; case: ltnP => ht'.
- exact: ol.
- have -> : t == size l by rewrite eqn_leq ht ht'.
  by rewrite h // (ltn_eqF (leq_trans hs' ht')).
- have -> : s == size l by rewrite eqn_leq hs hs'.
  by rewrite dotC h // eq_sym (ltn_eqF (leq_trans ht' hs')).
have -> : s == size l by rewrite eqn_leq hs hs'.
have -> : t == size l by rewrite eqn_leq ht ht'.
have -> : s = size l by apply/eqP; rewrite eqn_leq hs hs'.
have -> : t = size l by apply/eqP; rewrite eqn_leq ht ht'.
by rewrite h1 eqxx.
Qed.

Lemma span_rcons (l : seq V) x : (<<rcons l x>> = <<l>> + <[x]>)%VS.
Proof. by rewrite -cats1 span_cat span_seq1. Qed.
Lemma mem_rcons_l (l : seq V) x y : y \in <<l>>%VS -> y \in <<rcons l x>>%VS.
Proof. by rewrite span_rcons => h; rewrite -[y]addr0 memv_add // mem0v. Qed.
Lemma mem_rcons_r (l : seq V) x : x \in <<rcons l x>>%VS.
Proof. by apply: memv_span; rewrite mem_rcons in_cons eqxx. Qed.

(* qs comes from vs by a triangular change of basis *)
Definition tri (qs vs : seq V) := size qs = size vs /\
  forall t, (t < size qs)%N -> exists2 c, c != 0 & qs`_t - c *: vs`_t \in <<take t qs>>%VS.
Lemma tri_span qs vs t : tri qs vs -> (t <= size qs)%N -> (<<take t qs>> = <<take t vs>>)%VS.
Proof.
case=> es h; elim: t => [|t IH] ht; first by rewrite !take0.
have ht' : (t < size vs)%N by rewrite -es.
have {}IH := IH (ltnW ht); rewrite (take_nth 0) // (take_nth 0 ht') !span_rcons -IH.
have [c c0 hc] := h t ht; apply/eqP; rewrite eqEsubv !subv_add !addvSl /=; apply/andP; split; rewrite -memvE.
  by rewrite -[qs`_t](subrK (c *: vs`_t)) memv_add // memvZ // memv_line.
have -> : vs`_t = - c^-1 *: (qs`_t - c *: vs`_t) + c^-1 *: qs`_t.
  by rewrite scaleNr scalerBr scalerA mulVf // scale1r opprB subrK.
by rewrite memv_add // memvZ // memv_line.
Qed.
Lemma tri_all qs vs : tri qs vs -> (<<qs>> = <<vs>>)%VS.
Proof. by move=> h; have := tri_span h (leqnn _); rewrite take_size h.1 take_size. Qed.
Lemma tri_rcons qs vs c q v : tri qs vs -> c != 0 -> q - c *: v \in <<qs>>%VS -> tri (rcons qs q) (rcons vs v).
Proof.
move=> [es h] c0 hc; split=> [|t]; first by rewrite !size_rcons es.
rewrite size_rcons ltnS leq_eqVlt => /orP[/eqP->|ht].
  by exists c => //; rewrite !nth_rcons ltnn es ltnn eqxx -es -cats1 take_size_cat // eqxx.
have [d d0 hd] := h t ht; exists d => //; rewrite !nth_rcons ht -es ht.
by rewrite -cats1 takel_cat // ltnW.
Qed.
End Lists.

Section Arr.
Variable R : realFieldType.
Variable n : nat.
Local Notation V := 'cV[R]_n.
Implicit Types (q w : arr R).

Definition acv (X : arr R) (j : nat) : V := \col_i get X i j.
Definition qv (q : arr R) : seq V := [seq acv q t | t <- iota 0 (nc q)].
Lemma size_qv q : size (qv q) = nc q. Proof. by rewrite size_map size_iota. Qed.
Lemma nth_qv q t : (t < nc q)%N -> (qv q)`_t = acv q t.
Proof. by move=> h; rewrite (nth_map 0%N) ?size_iota // nth_iota. Qed.

Lemma acv_ortho q w : nr q = n -> shp w = (n, 1%N) -> acv (ortho q w) 0 = acv w 0 - proj (qv q) (acv w 0).
Proof.
move=> rq [rw cw]; apply/matrixP => i j; rewrite ord1 !mxE get_mk ?rw //; congr (_ - _).
rewrite summxE sumNE size_qv; apply: eq_bigr => t _; rewrite !mxE nth_qv // mxE /dot; congr (_ * _).
by rewrite get_mk ?cw //= sumNE rq; apply: eq_bigr => k _; rewrite !mxE get_mk ?rq.
Qed.
Lemma shp_ortho q w : shp w = (n, 1%N) -> shp (ortho q w) = (n, 1%N).
Proof. by case=> rw _; rewrite /shp /= rw. Qed.

Lemma qv_cat q w : nr q = n -> shp w = (n, 1%N) -> qv (ahcat q w) = rcons (qv q) (acv w 0).
Proof.
move=> rq [rw cw]; rewrite /qv /= cw iotaD map_cat cats1 add0n; congr rcons.
  apply/eq_in_map => t; rewrite mem_iota => /andP[_ ht]; apply/matrixP => i j; rewrite !mxE get_mk ?rq //= ?ht ?cw ?addn1 //; exact: ltnW.
by apply/matrixP => i j; rewrite !mxE get_mk ?rq ?cw ?addn1 //= ltnn subnn.
Qed.

Lemma vnormE sq w : shp w = (n, 1%N) -> vnorm sq w = sq (dot (acv w 0) (acv w 0)).
Proof. by case=> rw _; rewrite /vnorm rw sumNE; congr sq; apply: eq_bigr => i _; rewrite !mxE expr2. Qed.
End Arr.

Lemma nth_incr inds j i : nth 0%N (incr inds j) i = (nth 0%N inds i + (i == j))%N.
Proof. by rewrite /incr nth_set_nth /=; case: eqP => [->|_]; rewrite ?addn1 ?addn0. Qed.
Lemma size_incr inds j : (j < size inds)%N -> size (incr inds j) = size inds.
Proof. by move=> h; rewrite /incr size_set_nth; apply/maxn_idPr. Qed.

Lemma rem_mid (T : eqType) (x : T) s r : x \notin s -> rem x (s ++ x :: r) = s ++ r.
Proof. by elim: s => [|y s IH] /=; rewrite ?eqxx // in_cons negb_or => /andP[h /IH->]; rewrite eq_sym (negbTE h). Qed.

Section Pass.
Variable R : realFieldType.
Variable sq : R -> R.
Variable tol : R.
Hypothesis tol0 : 0 <= tol.
Variables n m : nat.
Variables A B : arr R.
Hypothesis sA : shp A = (n, n).
Local Notation V := 'cV[R]_n.
Local Notation Am := (amx n n A).
Local Notation qv := (@qv R n).
Local Notation acv := (@acv R n).

Definition vec (p : nat * nat) : V := mpow Am p.1 *m acv B p.2.
Lemma vecS k j : vec (k.+1, j) = Am *m vec (k, j). Proof. by rewrite /vec /= mulmxA. Qed.

Definition core (q : arr R) (sel : seq (nat * nat)) (inds : seq nat) : Prop :=
  [/\ nr q = n, orn (qv q), tri (qv q) (map vec sel), uniq sel /\ size inds = m &
    forall p, (p \in sel) = (p.2 < m)%N && (p.1 < nth 0%N inds p.2)%N].

Lemma colP q rc sel inds qb i k j u : core q sel inds -> (j < m)%N -> nth 0%N inds j = k -> nr qb = n -> (i < nc qb)%N ->
  acv qb i = u -> (exists2 c, c != 0 & u - c *: vec (k, j) \in <<qv q>>%VS) -> norm_at sq tol (test_vec q qb i) ->
  (ci_col sq tol qb (q, rc, inds) (i, j) = (q, rem j rc, inds) /\ u \in <<qv q>>%VS) \/
  exists q' v, [/\ ci_col sq tol qb (q, rc, inds) (i, j) = (q', rc, incr inds j), core q' (rcons sel (k, j)) (incr inds j),
    qv q' = rcons (qv q) v & u \in <<qv q'>>%VS].
Proof.
move=> [rq oq tq [us si] hs] jm ij rqb hi eu [c c0 hc] nt.
set w := test_vec q qb i in nt.
have s0 : shp (acol qb i) = (n, 1%N) by rewrite /shp /= rqb subn0 subSnn.
have s1 := shp_ortho q s0; have s2 : shp w = (n, 1%N) := shp_ortho q s1.
have r2 : nr w = n := congr1 fst s2; have c2 : nc w = 1%N := congr1 snd s2.
have e0 : acv (acol qb i) 0 = u.
  by rewrite -eu; apply/matrixP => a b; rewrite !mxE get_mk ?subn0 ?rqb ?subSnn // !add0n addn0.
pose p1 : V := proj (qv q) u; pose p2 : V := proj (qv q) (u - p1).
have e2 : acv w 0 = u - p1 - p2 by rewrite /w /test_vec (acv_ortho rq s1) (acv_ortho rq s0) e0.
have m1 : p1 \in <<qv q>>%VS := proj_mem _ _; have m2 : p2 \in <<qv q>>%VS := proj_mem _ _.
have eu' : u = acv w 0 + (p1 + p2) by rewrite e2 [p1 + p2]addrC addrA !subrK.
have dn t : (t < size (qv q))%N -> dot (qv q)`_t (acv w 0) = 0 by rewrite e2; apply: dot_proj.
have es : sumN (nr w) (fun a => get w a 0 ^+ 2) = dot (acv w 0) (acv w 0).
  by rewrite r2 sumNE; apply: eq_bigr => a _; rewrite !mxE expr2.
move: nt; rewrite /norm_at es; set d := dot (acv w 0) (acv w 0); move=> [[sq0 sqd] z].
have vn : vnorm sq w = sq d by rewrite (vnormE sq s2).
rewrite /ci_col -/w vn; case: ifP => h.
  left; split=> //; have d0 : d = 0.
    by case: z => [z|z]; [rewrite -sqd z expr0n | move: h; rewrite leNgt z].
  by rewrite eu' (dot_eq0 d0) add0r rpredD.
have sp : 0 < sq d by rewrite lt_def sq0 andbT; apply/eqP => e; move: h; rewrite e tol0.
right; exists (ahcat q (amap (fun x => x / sq d) w)), ((sq d)^-1 *: acv w 0).
have sw' : shp (amap (fun x => x / sq d) w) = (n, 1%N) by [].
have ev : acv (amap (fun x => x / sq d) w) 0 = (sq d)^-1 *: acv w 0.
  by apply/matrixP => a b; rewrite !mxE get_mk ?r2 ?c2 // mulrC.
have eq' := qv_cat rq sw'; rewrite ev in eq'.
have uin : u \in <<rcons (qv q) ((sq d)^-1 *: acv w 0)>>%VS.
  rewrite eu' rpredD //; last by apply: mem_rcons_l; rewrite rpredD.
  have ew : acv w 0 = sq d *: ((sq d)^-1 *: acv w 0) by rewrite scalerA mulfV ?scale1r // gt_eqF.
  by rewrite {1}ew; apply: memvZ; exact: mem_rcons_r.
split=> //; last by rewrite eq'.
split=> //.
- rewrite eq'; apply: orn_rcons => // [t ht|]; first by rewrite dotZr dn ?mulr0.
  by rewrite dotZr dotC dotZr -/d -[X in _ * (_ * X)]sqd expr2 mulKf ?mulVf ?gt_eqF.
- have cc : (sq d)^-1 * c != 0 by apply: mulf_neq0 => //; rewrite invr_eq0 gt_eqF.
  rewrite eq' map_rcons; apply: (tri_rcons tq cc).
  rewrite -scalerA -scalerBr; apply: memvZ.
  rewrite (_ : _ - _ = (u - c *: vec (k, j)) - (p1 + p2)); first by rewrite rpredB // rpredD.
  by rewrite [RHS]addrAC; congr (_ - _); rewrite [in RHS]eu' addrK.
- rewrite rcons_uniq us size_incr ?si // andbT; split=> //; by rewrite hs /= jm ij ltnn.
move=> [a b]; rewrite mem_rcons in_cons hs nth_incr /=; have [->|bj] := eqVneq b j.
  by rewrite jm ij xpair_eqE eqxx andbT /= addn1 ltnS [RHS]leq_eqVlt.
by rewrite addn0 xpair_eqE (negbTE bj) andbF.
Qed.

(* the end of the chain of column j depends on the vectors of sel that have no higher power *)
Definition dep (sel : seq (nat * nat)) (inds : seq nat) (j : nat) : Prop :=
  vec (nth 0%N inds j, j) \in <<map vec [seq p <- sel | (p.1 <= nth 0%N inds j)%N]>>%VS.
Lemma dep_mono sel sel' inds inds' j : {subset sel <= sel'} -> nth 0%N inds' j = nth 0%N inds j -> dep sel inds j -> dep sel' inds' j.
Proof.
move=> h e; rewrite /dep e; apply/subvP; apply: sub_span => v /mapP[p hp ->]; apply: map_f.
by move: hp; rewrite !mem_filter => /andP[-> /h].
Qed.
Lemma dep_all sel inds j k : nth 0%N inds j = k -> (forall p, p \in sel -> (p.1 <= k)%N) -> vec (k, j) \in <<map vec sel>>%VS -> dep sel inds j.
Proof. by move=> e h hv; rewrite /dep e; have /all_filterP-> : all (fun p => (p.1 <= k)%N) sel by apply/allP. Qed.

(* the state after pass k: level k consists of the columns in rc *)
Definition lev (k : nat) (q : arr R) (rc inds : seq nat) (sel : seq (nat * nat)) : Prop :=
  [/\ core q (sel ++ [seq (k, j) | j <- rc]) inds,
      uniq rc /\ (forall j, j \in rc -> (j < m)%N /\ nth 0%N inds j = k.+1),
      (forall t, (t < size sel)%N -> Am *m (qv q)`_t \in <<qv q>>%VS),
      (forall p, p \in sel -> (p.1 <= k)%N) &
      (forall j, (j < m)%N -> j \notin rc -> dep (sel ++ [seq (k, j) | j <- rc]) inds j) /\ (rc <> [::] -> (k < nc q)%N)].

Lemma bank_col q rc i : nr q = n -> (size rc <= nc q)%N -> (i < size rc)%N ->
  [/\ nr (q_bank A q rc) = n, (i < nc (q_bank A q rc))%N & acv (q_bank A q rc) i = Am *m (qv q)`_(nc q - size rc + i)].
Proof.
move=> rq le hi; have [rA cA] := sA.
rewrite /q_bank; case: rc le hi => // c rc le hi; split; [by rewrite /= rA | by rewrite /= subKn |].
have lt : (nc q - size (c :: rc) + i < nc q)%N by move: le hi; clear; lia.
rewrite nth_qv //; apply/matrixP => a b; rewrite !mxE get_mk ?rA //=; last by rewrite subKn.
by rewrite sumNE cA; apply: eq_bigr => l _; rewrite !mxE get_mk ?subn0 ?rq ?subKn.
Qed.


Lemma foldP k q0 rc0 l : forall q sel kept new inds i,
  let qb := q_bank A q0 rc0 in let b := (nc q0 - size rc0)%N in
  nr q0 = n -> (size rc0 <= nc q0)%N -> (forall p, p \in sel -> (p.1 <= k.+1)%N) ->
  (forall i, (i < size rc0)%N -> exists2 c, c != 0 & (qv q0)`_(b + i) - c *: vec (k, nth 0%N rc0 i) \in <<take (b + i) (qv q0)>>%VS) ->
  core q (sel ++ [seq (k.+1, j) | j <- kept]) inds -> qv q = qv q0 ++ new -> drop i rc0 = l -> uniq (kept ++ l) ->
  (forall j, j \in kept -> (j < m)%N /\ nth 0%N inds j = k.+2) -> (forall j, j \in l -> (j < m)%N /\ nth 0%N inds j = k.+1) ->
  (forall t, (t < b + i)%N -> Am *m (qv q0)`_t \in <<qv q>>%VS) ->
  (forall j, (j < m)%N -> j \notin kept ++ l -> dep (sel ++ [seq (k.+1, j) | j <- kept]) inds j) ->
  (forall w, List.In w (pass_tests sq tol qb (q, kept ++ l, inds) (zip (iota i (size l)) l)) -> norm_at sq tol w) ->
  exists q' rc' inds' new', [/\ foldl (ci_col sq tol qb) (q, kept ++ l, inds) (zip (iota i (size l)) l) = (q', rc', inds'),
    core q' (sel ++ [seq (k.+1, j) | j <- rc']) inds' /\ qv q' = qv q0 ++ new',
    uniq rc' /\ (forall j, j \in rc' -> (j < m)%N /\ nth 0%N inds' j = k.+2),
    (forall j, (j < m)%N -> j \notin rc' -> dep (sel ++ [seq (k.+1, j) | j <- rc']) inds' j) &
    (forall t, (t < size (qv q0))%N -> Am *m (qv q0)`_t \in <<qv q'>>%VS)].
Proof.
elim: l => [|j l IH] q sel kept new inds i qb b rq0 le hlv h0 hc hq hl us hk hr ht hd hw.
  have si : (size rc0 <= i)%N by have := congr1 size hl; rewrite size_drop /=; move: (size rc0); clear; lia.
  exists q, kept, inds, new; rewrite cats0 in us hd *; split=> // t hlt; apply: ht.
  by rewrite size_qv in hlt; move: hlt si le; rewrite /b; clear; lia.
have hi : (i < size rc0)%N by rewrite ltnNge; apply/negP => h; have := congr1 size hl; rewrite drop_oversize.
have hj : nth 0%N rc0 i = j by rewrite -[i]addn0 -nth_drop hl.
have hl' : drop i.+1 rc0 = l by rewrite -add1n -drop_drop hl /= drop0.
have [jm ij] := hr j (mem_head _ _).
have [rqb hib eb] := bank_col rq0 le hi.
have qsub v : v \in <<qv q0>>%VS -> v \in <<qv q>>%VS.
  by rewrite hq span_cat => h; rewrite -[v]addr0 memv_add // mem0v.
have hx : exists2 c, c != 0 & Am *m (qv q0)`_(b + i) - c *: vec (k.+1, j) \in <<qv q>>%VS.
  have [c c0] := h0 i hi; rewrite hj => hc'; exists c => //; rewrite vecS scalemxAr -mulmxBr.
  have [d ->] := mem_span_nth hc'; rewrite mulmx_sumr; apply: memv_suml => t _.
  rewrite -scalemxAr; apply: memvZ; have lt : (t < b + i)%N by apply: leq_trans (ltn_ord t) _; rewrite size_take; case: ltnP.
  by rewrite nth_take //; apply: ht.
have ef st : foldl (ci_col sq tol qb) st (zip (iota i (size (j :: l))) (j :: l)) =
  foldl (ci_col sq tol qb) (ci_col sq tol qb st (i, j)) (zip (iota i.+1 (size l)) l) by [].
have ep st : pass_tests sq tol qb st (zip (iota i (size (j :: l))) (j :: l)) =
  test_vec st.1.1 qb i :: pass_tests sq tol qb (ci_col sq tol qb st (i, j)) (zip (iota i.+1 (size l)) l) by [].
have hlv' p : p \in sel ++ [seq (k.+1, j0) | j0 <- kept] -> (p.1 <= k.+1)%N.
  by rewrite mem_cat => /orP[/hlv//|/mapP[j' _ ->]].
have jk : j \notin kept by move: us; rewrite cat_uniq => /and3P[_ /hasPn h _]; apply: h; apply: mem_head.
have jl : j \notin l by move: us; rewrite cat_uniq => /and3P[_ _ /andP[]].
have [|[e1 hin]|[q' [v [e1 hc' hq' hin]]]] := @colP q (kept ++ j :: l) _ inds qb i k.+1 j _ hc jm ij rqb hib eb hx.
- by apply: hw; rewrite ep; left.
- rewrite ef e1 rem_mid //.
  have := IH q sel kept new inds i.+1 rq0 le hlv h0 hc hq hl'; apply=> //.
  - by move: us; rewrite !cat_uniq /= => /and3P[-> /norP[_ ->] /andP[_ ->]].
  - by move=> j' h; apply: hr; rewrite in_cons h orbT.
  - by move=> t; rewrite addnS ltnS leq_eqVlt => /orP[/eqP->|]; [|apply: ht].
  - move=> j' hj' nin; case: (eqVneq j' j) => [->|ne].
      apply: (dep_all ij hlv'); have [_ _ /tri_all <- _ _] := hc; have [c c0 hcx] := hx.
      have -> : vec (k.+1, j) = c^-1 *: (Am *m (qv q0)`_(b + i) - (Am *m (qv q0)`_(b + i) - c *: vec (k.+1, j))).
        by rewrite opprB addrC subrK scalerA mulVf ?scale1r.
      by apply: memvZ; apply: rpredB.
    by apply: hd => //; move: nin; rewrite !mem_cat in_cons (negbTE ne).
  by move=> w h; apply: hw; rewrite ep; right; rewrite e1 rem_mid.
have e3 : kept ++ j :: l = rcons kept j ++ l by rewrite cat_rcons.
have sub' v' : v' \in <<qv q>>%VS -> v' \in <<qv q'>>%VS by rewrite hq'; apply: mem_rcons_l.
rewrite ef e1 e3.
have := IH q' sel (rcons kept j) (rcons new v) (incr inds j) i.+1 rq0 le hlv h0; apply.
- by rewrite map_rcons -rcons_cat.
- by rewrite hq' hq rcons_cat.
- by [].
- by rewrite -e3.
- move=> j'; rewrite mem_rcons in_cons nth_incr => /orP[/eqP->|h]; first by rewrite eqxx ij addn1.
  by have [h1 ->] := hk _ h; have -> : j' == j = false; [apply/eqP => e; move: jk; rewrite -e h | rewrite addn0].
- move=> j' h; have [h1 h2] := hr j' (mem_behead (s := j :: l) h); split=> //.
  by rewrite nth_incr h2; have -> : j' == j = false; [apply/eqP => e; move: jl; rewrite -e h | rewrite addn0].
- by move=> t; rewrite addnS ltnS leq_eqVlt => /orP[/eqP->|h] //; apply: sub'; apply: ht.
- move=> j' hj'; rewrite -e3 => nin; have := hd j' hj' nin; apply: dep_mono => [p|].
    by rewrite map_rcons -rcons_cat mem_rcons in_cons => ->; rewrite orbT.
  rewrite nth_incr; case: eqP => [e|_]; last by rewrite addn0.
  by move: nin; rewrite e mem_cat mem_head orbT.
by move=> w h; apply: hw; rewrite ep; right; rewrite e1 e3.
Qed.

Lemma passP k q rc inds sel : lev k q rc inds sel ->
  (forall w, List.In w (pass_tests sq tol (q_bank A q rc) (q, rc, inds) (zip (iota 0 (size rc)) rc)) -> norm_at sq tol w) ->
  exists q' rc' inds', ci_pass sq tol A (q, rc, inds) = (q', rc', inds') /\ lev k.+1 q' rc' inds' (sel ++ [seq (k, j) | j <- rc]).
Proof.
move=> [hc [ur hr] hcl hlv [hd hk]] hw; have [rq _ [es htri] _ _] := hc.
have sz : nc q = (size sel + size rc)%N by rewrite -(size_qv n q) es size_map size_cat size_map.
have h0 i : (i < size rc)%N -> exists2 c, c != 0 &
    (qv q)`_(nc q - size rc + i) - c *: vec (k, nth 0%N rc i) \in <<take (nc q - size rc + i) (qv q)>>%VS.
  move=> hi; rewrite sz addnK; have lt : (size sel + i < size (qv q))%N by rewrite size_qv sz ltn_add2l.
  have [c c0] := htri _ lt; rewrite map_cat nth_cat size_map ltnNge leq_addr /= addKn.
  by rewrite -map_comp (nth_map 0%N) // => h; exists c.
have hc0 : core q ((sel ++ [seq (k, j) | j <- rc]) ++ [seq (k.+1, j) | j <- [::]]) inds by rewrite cats0.
have le : (size rc <= nc q)%N by rewrite sz leq_addl.
have hk0 j : j \in [::] -> (j < m)%N /\ nth 0%N inds j = k.+2 by [].
have ht0 t : (t < nc q - size rc + 0)%N -> Am *m (qv q)`_t \in <<qv q>>%VS by rewrite addn0 sz addnK; apply: hcl.
have hlv0 p : p \in sel ++ [seq (k, j) | j <- rc] -> (p.1 <= k.+1)%N.
  by rewrite mem_cat => /orP[/hlv/leqW//|/mapP[j' _ ->]] /=.
have hd0 j : (j < m)%N -> j \notin [::] ++ rc -> dep ((sel ++ [seq (k, j) | j <- rc]) ++ [seq (k.+1, j) | j <- [::]]) inds j.
  by rewrite cats0; apply: hd.
have [q' [rc' [inds' [new' [e1 [c1 q1] [u1 r1] d1 t1]]]]] :=
  @foldP k q rc rc q _ [::] [::] inds 0%N rq le hlv0 h0 hc0 (esym (cats0 _)) (drop0 _) ur hk0 hr ht0 hd0 hw.
exists q', rc', inds'; split=> //; have [_ _ [es' _] _ _] := c1.
have q0sub v : v \in <<qv q>>%VS -> v \in <<qv q'>>%VS by rewrite q1 span_cat => h; rewrite -[v]addr0 memv_add // mem0v.
split=> //.
  move=> t ht'; have ht2 : (t < size (qv q))%N by rewrite size_qv sz -[size rc](size_map (pair k)) -size_cat.
  by rewrite q1 nth_cat ht2 -q1; apply: t1.
split=> // rc0; have sz' : nc q' = (nc q + size rc')%N.
  by rewrite -(size_qv n q') es' size_map !size_cat !size_map sz.
have rcn : rc <> [::].
  move=> e; case: rc' rc0 r1 e1 {c1 d1 u1 es' sz'} => // j rc' _ r1; rewrite e /= => -[_ h _]; by rewrite -h in r1 *; move: h.
have := hk rcn; rewrite sz'; case: (rc') rc0 => // j r _ /=; clear; lia.
Qed.

Lemma qv_full q : orn (qv q) -> (n <= nc q)%N -> (<<qv q>> = fullv)%VS.
Proof.
move=> oq le; apply/eqP; rewrite eqEdim subvf /= dimvf; have := orn_free oq; rewrite /free unlock => /eqP->.
by rewrite size_qv; apply: leq_trans le; rewrite /Vector.dim /= muln1.
Qed.

Lemma loopP c : forall k q rc inds sel, lev k q rc inds sel -> (n <= (k + c).+1)%N ->
  (forall w, List.In w (loop_tests sq c tol A (q, rc, inds)) -> norm_at sq tol w) ->
  exists q' rc' inds' sel', [/\ ci_loop sq c tol A (q, rc, inds) = (q', rc', inds'), core q' sel' inds' &
    (forall j, (j < m)%N -> dep sel' inds' j)].
Proof.
elim: c => [|c IH] k q rc inds sel hl hn hw.
  have [hc [_ hr] hcl hlv [hd hk]] := hl; exists q, rc, inds, (sel ++ [seq (k, j) | j <- rc]); split=> // j hj.
  case: (boolP (j \in rc)) => [hin|]; last exact: hd.
  have [_ ij] := hr j hin; apply: (dep_all ij) => [p|].
    by rewrite mem_cat => /orP[/hlv/leqW//|/mapP[j' _ ->]] /=.
  have [_ oq /tri_all <- _ _] := hc; rewrite qv_full ?memvf //; apply: leq_trans hn _; rewrite addn0; apply: hk.
  by move=> e; rewrite e in hin.
have [|q' [rc' [inds' [e1 l1]]]] := passP hl; first by move=> w h; apply: hw; apply: List.in_or_app; left.
have el st : ci_loop sq c.+1 tol A st = (let st := ci_pass sq tol A st in if st.1.2 is [::] then st else ci_loop sq c tol A st) by [].
have et st : loop_tests sq c.+1 tol A st = pass_tests sq tol (q_bank A st.1.1 st.1.2) st (zip (iota 0 (size st.1.2)) st.1.2) ++
    (let st := ci_pass sq tol A st in if st.1.2 is [::] then [::] else loop_tests sq c tol A st) by [].
rewrite el e1; rewrite et e1 in hw; cbn [fst snd] in hw |- *; cbv zeta in hw |- *.
case: rc' e1 l1 hw => [|j rc'] e1 l1 hw.
  exists q', [::], inds', (sel ++ [seq (k, j) | j <- rc]); have [hc _ hcl _ [hd _]] := l1; rewrite cats0 in hc hd.
  by split=> // j hj; apply: hd.
have [||q2 [rc2 [inds2 [sel2 [e2 c2 b2]]]]] := IH _ _ _ _ _ l1; first by rewrite addSnnS.
  by move=> w h; apply: hw; apply: List.in_or_app; right.
by exists q2, rc2, inds2, sel2; split.
Qed.
End Pass.

Lemma count_prefix (P : pred nat) l : (forall i j, (i <= j)%N -> (j < l)%N -> P j -> P i) ->
  (count P (iota 0 l) <= l)%N /\ forall i, (i < l)%N -> P i = (i < count P (iota 0 l))%N.
Proof.
elim: l => [|l IH] h //; have [le e] := IH (fun i j hij hj => h i j hij (ltnW hj)).
rewrite -[in X in count _ X]addn1 iotaD count_cat /= add0n addn0.
case Pl : (P l); last first.
  rewrite addn0; split=> [|i]; first exact: leqW.
  by rewrite ltnS leq_eqVlt => /orP[/eqP->|/e//]; rewrite Pl; apply/esym/negbTE; rewrite -leqNgt.
have a : all P (iota 0 l) by apply/allP => i; rewrite mem_iota => /andP[_ hi]; apply: (h i l) => //; apply: ltnW.
have -> : count P (iota 0 l) = l by move: a; rewrite all_count size_iota => /eqP.
by rewrite addn1; split=> // i hi; rewrite hi; apply: (h i l).
Qed.

Lemma incr_foldl l : forall inds, all (fun j => (j < size inds)%N) l ->
  size (foldl incr inds l) = size inds /\ forall j, nth 0%N (foldl incr inds l) j = (nth 0%N inds j + count_mem j l)%N.
Proof.
elim: l => [|a l IH] inds /=; first by split=> // j; rewrite addn0.
move=> /andP[ha hl]; have [|s1 e1] := IH (incr inds a); first by rewrite size_incr.
by rewrite s1 size_incr //; split=> // j; rewrite e1 nth_incr -addnA eq_sym.
Qed.

Section Start.
Variable R : realFieldType.
Variable qrp : arr R -> arr R * arr R * seq nat.
Variable spnorm : arr R -> R.
Variables n m : nat.
Variables A B : arr R.
Hypothesis sB : shp B = (n, m).
Hypothesis qok : qrp_ok B (qrp B).
Hypothesis sp0 : 0 <= spnorm B.
Hypothesis gap : forall i, (i < minn (nr B) (nc B))%N -> let x := get (qrp B).1.2 i i in
  x = 0 \/ (maxn (nc B) (nr B))%:R * spnorm B < `|x|.
Local Notation V := 'cV[R]_n.
Local Notation qv := (@qv R n).
Local Notation acv := (@acv R n).
Local Notation vec := (@vec R n A B).

Lemma startP : exists q rc inds, ci_start qrp spnorm B = (q, rc, inds) /\ @lev R n m A B 0 q rc inds [::].
Proof.
have [rB cB] := sB; move: qok gap; rewrite /ci_start rB cB; case: (qrp B) => [[q r] p] [[sq1 sr]]; rewrite rB cB /=.
set l := minn n m in sq1 sr *; move=> oq pp ef [tr pv] gp.
have [rq cq] := sq1; rewrite rB in rq.
pose P i := (maxn m n)%:R * spnorm B < `|get r i i|.
have rbE : rank_b spnorm B r = count P (iota 0 l) by rewrite /rank_b rB cB.
have thr0 : 0 <= (maxn m n)%:R * spnorm B by rewrite mulr_ge0 ?ler0n.
have lm : (l <= m)%N by apply: geq_minr.
have mono i j : (i <= j)%N -> (j < l)%N -> P j -> P i.
  by move=> hij hj /lt_le_trans; apply; apply: pv => //; apply: leq_trans hj lm.
have [rbl PE] := count_prefix mono; rewrite -rbE in rbl PE; set rb := rank_b _ _ _ in rbl PE *.
have nz t : (t < rb)%N -> get r t t != 0.
  move=> h; have : P t by rewrite PE //; apply: leq_trans rbl.
  by move=> /(le_lt_trans thr0); rewrite normr_gt0.
have zr k j : (rb <= k)%N -> (k < l)%N -> (j < m)%N -> get r k j = 0.
  move=> hk kl jm; case: (ltnP j k) => jk; first exact: tr.
  have rk0 : get r k k = 0.
    by have := gp k kl; case=> // h; have : P k := h; rewrite PE // ltnNge hk.
  by apply/eqP; rewrite -normr_le0; apply: le_trans (pv k k j _ kl jk jm) _ => //; rewrite rk0 normr0.
have sp : size p = m by rewrite (perm_size pp) size_iota.
have up : uniq p by rewrite (perm_uniq pp) iota_uniq.
have pm j : (j \in p) = (j < m)%N by rewrite (perm_mem pp) mem_iota add0n.
have rbm : (rb <= m)%N := leq_trans rbl lm.
pose q0 := asubm q 0 n 0 rb.
have nq0 : nc q0 = rb by rewrite /q0 /= subn0.
have rq0 : nr q0 = n by rewrite /q0 /= subn0.
have aq t : (t < rb)%N -> acv q0 t = acv q t.
  by move=> ht; apply/matrixP => a b; rewrite !mxE get_mk ?subn0 // !add0n.
have aB s : (s < m)%N -> acv B (nth 0%N p s) = \sum_(k < rb) get r k s *: acv q k.
  move=> hs; apply/matrixP => a b; rewrite mxE ef // summxE.
  rewrite (eq_bigr (fun k : 'I_l => get q a k * get r k s)) //.
  rewrite -(big_mkord xpredT (fun k => get q a k * get r k s)) (big_cat_nat _ _ _ _ rbl) //= [X in _ + X]big1_seq ?addr0.
    by rewrite big_mkord; apply: eq_bigr => k _; rewrite !mxE mulrC.
  by move=> k; rewrite mem_index_iota => /andP[_ /andP[h1 h2]]; rewrite zr ?mulr0.
have iq t : (t < rb)%N -> acv q t \in <<qv q0>>%VS.
  by move=> ht; apply: memv_span; rewrite -aq //; apply: map_f; rewrite mem_iota nq0.
have Bin j : (j < m)%N -> acv B j \in <<qv q0>>%VS.
  rewrite -pm => hj; rewrite -(nth_index 0%N hj) aB -?sp ?index_mem //.
  by apply: memv_suml => k _; apply: memvZ; apply: iq.
have vE j : vec (0%N, j) = acv B j by rewrite /vec /= mul1mx.
have stk : size (take rb p) = rb by rewrite size_takel // sp.
have ntk : all (fun j => (j < size (nseq m 0))%N) (take rb p).
  by apply/allP => j /mem_take; rewrite pm size_nseq.
have [si ni] := incr_foldl ntk; rewrite size_nseq in si.
have utk : uniq (take rb p) by rewrite take_uniq.
have {}ni j : nth 0%N (foldl incr (nseq m 0%N) (take rb p)) j = (j \in take rb p).
  by rewrite ni nth_nseq if_same add0n count_uniq_mem.
have tri0 : tri (qv q0) (map vec [seq (0%N, j) | j <- take rb p]).
  split=> [|t]; first by rewrite size_qv !size_map stk nq0.
  rewrite size_qv nq0 => ht; exists (get r t t)^-1; first by rewrite invr_eq0 nz.
  have tm : (t < m)%N := leq_trans ht rbm.
  rewrite nth_qv ?nq0 // aq // -map_comp (nth_map 0%N) ?stk //= vE nth_take // aB //.
  rewrite -(big_mkord xpredT (fun k => get r k t *: acv q k)) (big_cat_nat _ _ _ _ ht) //= big_nat_recr //=.
  rewrite [\sum_(t.+1 <= i < rb) _]big1_seq ?addr0; last first.
    move=> k; rewrite mem_index_iota => /andP[_ /andP[h1 h2]]; rewrite tr ?scale0r //; exact: leq_trans h2 rbl.
  rewrite scalerDr scalerA mulVf ?nz // scale1r opprD addrCA subrr addr0 rpredN; apply: memvZ.
  rewrite big_seq; apply: memv_suml => k; rewrite mem_index_iota => /andP[_ hk]; apply: memvZ; apply: memv_span.
  have hk' : (k < rb)%N := ltn_trans hk ht.
  by rewrite -aq // /qv nq0 -map_take; apply: map_f; rewrite take_iota mem_iota (minn_idPl (ltnW ht)) add0n.
exists q0, (take rb p), (foldl incr (nseq m 0%N) (take rb p)); split=> //.
have or0 : orn (qv q0).
  move=> s t; rewrite size_qv nq0 => hs ht; rewrite !nth_qv ?nq0 // !aq // -oq ?(leq_trans _ rbl) //.
  by rewrite /dot; apply: eq_bigr => i _; rewrite !mxE.
split=> //.
- split=> //.
    by split=> //; rewrite cat0s map_inj_uniq // => a b [].
  move=> [k j] /=; rewrite ni; apply/mapP/andP => [[j' hj [-> ->]]|[hj hk]].
    by rewrite hj -pm (mem_take hj).
  by move: hk; case hin: (j \in take rb p); case: k => // _; exists j.
- by split=> // j hj; rewrite ni hj -pm (mem_take hj).
split=> [j hj nin|]; last by rewrite nq0 => h; rewrite lt0n -stk size_eq0; apply/eqP.
apply: (@dep_all _ _ _ _ _ _ _ 0%N); first by rewrite ni (negbTE nin).
  by move=> pr /mapP[j' _ ->].
by rewrite cat0s -(tri_all tri0) vE; apply: Bin.
Qed.
End Start.

Lemma kryE (R : realFieldType) n m (A : 'M[R]_n) (B : 'M[R]_(n, m)) K i p :
  kry A B K i p = (mpow A (enum_val p).1 *m B) i (enum_val p).2.
Proof. by rewrite mxE. Qed.

Section Rank.
Variable R : realFieldType.
Variable n : nat.
Local Notation V := 'cV[R]_n.

Lemma rank_basis c (X : 'M[R]_(n, c)) (l : seq V) : free l -> (forall j, col j X \in <<l>>%VS) ->
  (forall v, v \in l -> exists w, v = X *m w) -> \rank X = size l.
Proof.
move=> fl h1 h2; pose M : 'M[R]_(n, size l) := \matrix_(i, t) l`_t i 0.
have colM t : col t M = l`_t by apply/matrixP => i j; rewrite !mxE ord1.
have Mw (w : 'cV_(size l)) : M *m w = \sum_t w t 0 *: l`_t.
  by apply/matrixP => i j; rewrite ord1 !mxE summxE; apply: eq_bigr => t _; rewrite !mxE mulrC.
have rM : \rank M = size l.
  rewrite -mxrank_tr; apply/eqP; change (row_free M^T); rewrite -kermx_eq0; apply/rowV0P => u /sub_kermxP hu.
  have : M *m u^T = 0 by apply: trmx_inj; rewrite trmx_mul trmxK hu trmx0.
  rewrite Mw => hs; apply/matrixP => i t; rewrite ord1 mxE.
  move/(@freeP _ _ _ (in_tuple l)): fl => /(_ (fun t => u^T t 0) hs t); by rewrite mxE.
apply/eqP; rewrite eqn_leq -{1}rM -[X in (_ <= X)%N](mxrank_tr M) -(mxrank_tr X) mxrankS /=; last first.
  apply/row_subP => j; have [d ed] := mem_span_nth (h1 j).
  have -> : row j X^T = (\row_t d t) *m M^T.
    by rewrite -tr_col ed; apply: trmx_inj; rewrite trmx_mul !trmxK Mw; apply: eq_bigr => t _; rewrite !mxE.
  exact: submxMl.
rewrite -rM -(mxrank_tr M) mxrankS //; apply/row_subP => t.
have [w ew] : exists w, l`_t = X *m w by apply: h2; apply: mem_nth.
by rewrite -tr_col colM ew trmx_mul submxMl.
Qed.
End Rank.

Lemma count_iota_lt K d : count (fun k => (k < K)%N) (iota 0 d) = minn d K.
Proof.
elim: d => [|d IH]; first by rewrite min0n.
by rewrite -[in iota _ _]addn1 iotaD count_cat IH /= add0n addn0; case: ltnP => h; move: h; clear; lia.
Qed.

Section Final.
Variable R : realFieldType.
Variables n m : nat.
Variables A B : arr R.
Local Notation V := 'cV[R]_n.
Local Notation Am := (amx n n A).
Local Notation Bm := (amx n m B).
Local Notation qv := (@qv R n).
Local Notation acv := (@acv R n).
Local Notation vec := (@vec R n A B).

Variables (q : arr R) (sel : seq (nat * nat)) (inds : seq nat).
Hypothesis hc : @core R n m A B q sel inds.
Hypothesis hd : forall j, (j < m)%N -> @dep R n A B sel inds j.

Definition flat : seq (nat * nat) := flatten [seq [seq (k, j) | k <- iota 0 (nth 0%N inds j)] | j <- iota 0 m].
Lemma mem_flat p : (p \in flat) = (p.2 < m)%N && (p.1 < nth 0%N inds p.2)%N.
Proof.
case: p => k j /=; apply/flatten_mapP/andP => [[j' hj /mapP[k' hk [-> ->]]]|[hj hk]].
  by move: hj hk; rewrite !mem_iota.
by exists j; rewrite ?mem_iota //; apply: map_f; rewrite mem_iota.
Qed.
Lemma uniq_flat : uniq flat.
Proof.
rewrite /flat; elim: (iota 0 m) (iota_uniq 0 m) => // j s IH /= /andP[hj us].
rewrite cat_uniq IH // map_inj_uniq ?iota_uniq => [|a b []//]; rewrite andbT /=; apply/hasPn => p /flatten_mapP[j' hj' /mapP[k _ ->]].
by apply/mapP => -[k' _ [_ e]]; move: hj; rewrite -e hj'.
Qed.
Lemma flat_perm : perm_eq sel flat.
Proof.
have [_ _ _ [us _] hs] := hc; apply: uniq_perm => // [|p]; first exact: uniq_flat.
by rewrite mem_flat hs.
Qed.
Lemma colB (j : 'I_m) : col j Bm = acv B j. Proof. by apply/matrixP => i k; rewrite !mxE. Qed.
Lemma chainsE : chains Am Bm (nth 0%N inds) = map vec flat.
Proof.
rewrite /chains /flat map_flatten -val_enum_ord -!map_comp; congr flatten; apply/eq_map => j /=.
by rewrite -map_comp; apply/eq_map => k; rewrite /vec /= colB.
Qed.
Lemma free_sel : free (map vec sel).
Proof.
have [_ oq tq _ _] := hc; have := orn_free oq; rewrite !free_dim -(tri_all tq) => /eqP->.
by have [-> _] := tq.
Qed.
Lemma free_flat : free (map vec flat).
Proof. by rewrite -(perm_free (perm_map vec flat_perm)) free_sel. Qed.

Definition W K := <<map vec [seq p <- sel | (p.1 < K)%N]>>%VS.
Lemma W_mono K K' : (K <= K')%N -> (W K <= W K')%VS.
Proof.
move=> h; apply: sub_span => v /mapP[p hp ->]; apply: map_f; move: hp; rewrite !mem_filter => /andP[h1 ->].
by rewrite (leq_trans h1 h).
Qed.
Lemma W_vec k j : (j < m)%N -> (k <= nth 0%N inds j)%N -> vec (k, j) \in W k.+1.
Proof.
move=> hj; rewrite leq_eqVlt => /orP[/eqP->|h]; first exact: hd.
have [_ _ _ _ hs] := hc; apply: memv_span; apply: map_f; by rewrite mem_filter /= ltnSn hs hj h.
Qed.
Lemma W_A K v : v \in W K -> Am *m v \in W K.+1.
Proof.
move/mem_span_nth => [c ->]; rewrite mulmx_sumr; apply: memv_suml => t _; rewrite -scalemxAr; apply: memvZ.
case: t => t /=; rewrite size_map => ht; rewrite (nth_map (0%N, 0%N)) //.
have := mem_nth (0%N, 0%N) ht; case: (nth _ _ _) => k j; rewrite mem_filter /= => /andP[hk].
have [_ _ _ _ hs] := hc; rewrite hs /= => /andP[hj hi]; rewrite -vecS.
by have := W_vec hj hi; apply/subvP; apply: W_mono.
Qed.
Lemma W_all k j : (j < m)%N -> vec (k, j) \in W k.+1.
Proof. by move=> hj; elim: k => [|k IH]; [apply: W_vec | rewrite vecS; apply: W_A]. Qed.

Lemma final_span k (j : 'I_m) : mpow Am k *m col j Bm \in <<chains Am Bm (nth 0%N inds)>>%VS.
Proof.
rewrite chainsE colB -/(vec (k, nat_of_ord j)); have := W_all k (ltn_ord j); apply/subvP; apply: sub_span => v /mapP[p hp ->].
by apply: map_f; move: hp; rewrite mem_filter -(perm_mem flat_perm) => /andP[].
Qed.
Lemma final_free : free (chains Am Bm (nth 0%N inds)).
Proof. by rewrite chainsE free_flat. Qed.

Lemma size_W K : size [seq p <- sel | (p.1 < K)%N] = sumn [seq minn d K | d <- inds].
Proof.
have [_ _ _ [_ si] _] := hc.
rewrite size_filter (permP flat_perm) /flat count_flatten -map_comp -[inds in RHS](mkseq_nth 0%N) /mkseq si -map_comp.
by congr sumn; apply/eq_map => j /=; rewrite count_map -(count_iota_lt K); apply: eq_count.
Qed.
Lemma final_rank K : \rank (kry Am Bm K) = sumn [seq minn d K | d <- inds].
Proof.
rewrite -size_W -(size_map vec); apply: rank_basis.
- have := free_sel; have /(perm_map vec)/perm_free <- : perm_eq ([seq p <- sel | (p.1 < K)%N] ++ [seq p <- sel | ~~ (p.1 < K)%N]) sel.
    exact/permPl/perm_filterC.
  by rewrite map_cat => /catl_free.
- move=> j; have -> : col j (kry Am Bm K) = vec (nat_of_ord (enum_val j).1, nat_of_ord (enum_val j).2).
    by rewrite /vec -colB; apply/matrixP => a b; rewrite [LHS]mxE kryE !mxE; apply: eq_bigr => k _; rewrite !mxE.
  by have := W_all (enum_val j).1 (ltn_ord (enum_val j).2); apply/subvP; apply: W_mono.
move=> v /mapP[[k j]]; rewrite mem_filter /= => /andP[hk hs] ->.
have [_ _ _ _ hm] := hc; move: hs; rewrite hm /= => /andP[hj _].
exists (delta_mx (enum_rank (Ordinal hk, Ordinal hj)) 0); rewrite -colE.
apply/matrixP => a b; rewrite /vec -(colB (Ordinal hj)) [RHS]mxE kryE enum_rankK !mxE; apply: eq_bigr => i _; by rewrite !mxE.
Qed.
Lemma final_sum : sumn inds = \rank (kry Am Bm n).
Proof.
rewrite final_rank; congr sumn; rewrite -[LHS]map_id; apply/eq_in_map => d hin; apply/esym/minn_idPl.
have le1 : (sumn inds <= n)%N.
  apply: leq_trans (rank_leq_row (kry Am Bm (foldr maxn 0%N inds))); rewrite final_rank.
  suff -> : [seq minn d (foldr maxn 0%N inds) | d <- inds] = inds by [].
  rewrite -[RHS]map_id; apply/eq_in_map => d' h; apply/minn_idPl.
  by elim: inds h => // x s IH; rewrite in_cons /= leq_max => /orP[/eqP->|/IH->]; rewrite ?leqnn ?orbT.
apply: leq_trans le1; elim: inds hin => // x s IH; rewrite in_cons /= => /orP[/eqP->|/IH h]; first exact: leq_addr.
exact: leq_trans h (leq_addl _ _).
Qed.
End Final.

(* the sums of the truncated indices determine the indices up to their order *)
Lemma min_sums_perm (s t : seq nat) : size s = size t ->
  (forall K, sumn [seq minn d K | d <- s] = sumn [seq minn d K | d <- t]) -> perm_eq s t.
Proof.
move=> es h.
have cS (u : seq nat) K : (sumn [seq minn d K.+1 | d <- u] = sumn [seq minn d K | d <- u] + count (fun d => K < d) u)%N.
  by elim: u => //= x u ->; case: ltnP => hx; rewrite /=; move: hx; clear; lia.
have c K : count (fun d => K < d)%N s = count (fun d => K < d)%N t.
  by have := h K.+1; rewrite !cS h => /addnI.
have cM (u : seq nat) x : (count_mem x.+1 u + count (fun d => x.+1 < d) u = count (fun d => x < d) u)%N.
  by elim: u => //= y u IH; move: IH; case: (ltngtP y x.+1) => hy; case: (ltngtP x y) => hxy //=; move: hy hxy; clear; lia.
have c0 (u : seq nat) : (count_mem 0%N u + count (fun d => 0 < d) u = size u)%N.
  by elim: u => //= y u <-; case: y => [|y] /=; lia.
apply/allP => -[|x] _ /=; apply/eqP.
  by apply: (@addIn (count (fun d => 0 < d)%N s)); rewrite c0 [in RHS]c c0.
by apply: (@addIn (count (fun d => x.+1 < d)%N s)); rewrite cM [in RHS]c cM c.
Qed.

Section Feedback.
Variable R : realFieldType.
Variables n m : nat.
Implicit Types (A : 'M[R]_n) (B : 'M[R]_(n, m)).

Lemma kry_subP c A B K (X : 'M[R]_(c, n)) : (forall k, (k < K)%N -> ((mpow A k *m B)^T <= X)%MS) <-> ((kry A B K)^T <= X)%MS.
Proof.
split=> [h|h k hk].
  apply/row_subP => j; rewrite -tr_col.
  have -> : (col j (kry A B K))^T = row (enum_val j).2 (mpow A (enum_val j).1 *m B)^T.
    by rewrite -tr_col; congr (_^T); apply/matrixP => a b; rewrite [LHS]mxE kryE [RHS]mxE.
  by apply: submx_trans (row_sub _ _) _; apply: h.
apply: submx_trans h; apply/row_subP => j; pose e := enum_rank (Ordinal hk, j).
have -> : row j (mpow A k *m B)^T = row e (kry A B K)^T; last exact: row_sub.
by rewrite -!tr_col; congr (_^T); apply/matrixP => a b; rewrite [LHS]mxE [RHS]mxE kryE enum_rankK.
Qed.

Lemma kry_fb A B (F : 'M_(m, n)) k : ((mpow (A + B *m F) k *m B)^T <= (kry A B k.+1)^T)%MS.
Proof.
elim: k => [|k IH]; first by rewrite mul1mx; have /kry_subP := submx_refl (kry A B 1)^T; move=> /(_ 0%N isT); rewrite mul1mx.
rewrite [mpow _ _.+1]/= -mulmxA mulmxDl linearD /= addmx_sub //.
  rewrite trmx_mul; apply: submx_trans (submxMr _ IH) _.
  have -> : (kry A B k.+1)^T *m A^T = (A *m kry A B k.+1)^T by rewrite trmx_mul.
  apply/row_subP => j; have lt : ((enum_val j).1.+1 < k.+2)%N by rewrite ltnS; apply: ltn_ord.
  have /kry_subP/(_ _ lt) := submx_refl (kry A B k.+2)^T.
  apply: submx_trans; have -> : row j (A *m kry A B k.+1)^T = row (enum_val j).2 (mpow A (enum_val j).1.+1 *m B)^T; last exact: row_sub.
  rewrite -!tr_col; congr (_^T); apply/matrixP => a b; rewrite [LHS]mxE [RHS]mxE /= -mulmxA [LHS]mxE [RHS]mxE; apply: eq_bigr => i _.
  by rewrite kryE.
rewrite -mulmxA trmx_mul; apply: submx_trans (submxMl _ _) _.
by have /kry_subP/(_ 0%N isT) := submx_refl (kry A B k.+2)^T; rewrite mul1mx.
Qed.

Lemma kry_mono A B K K' : (K <= K')%N -> ((kry A B K)^T <= (kry A B K')^T)%MS.
Proof. by move=> h; apply/kry_subP => k hk; have /kry_subP := submx_refl (kry A B K')^T; apply; apply: leq_trans hk h. Qed.

Lemma rank_fb_le A B (T : 'M_n) (F : 'M_(m, n)) (G : 'M_m) K : T \in unitmx ->
  (\rank (kry (T *m (A + B *m F) *m invmx T) (T *m B *m G) K) <= \rank (kry A B K))%N.
Proof.
move=> Tu; rewrite -mxrank_tr -[X in (_ <= X)%N]mxrank_tr.
apply: leq_trans (mxrankM_maxl (kry A B K)^T T^T); apply: mxrankS; apply/kry_subP => k hk.
have -> : mpow (T *m (A + B *m F) *m invmx T) k *m (T *m B *m G) = T *m (mpow (A + B *m F) k *m B) *m G.
  elim: k {hk} => [|k IH]; first by rewrite /= !mul1mx.
  by rewrite [mpow _ k.+1]/= -[LHS]mulmxA IH /= !mulmxA mulmxKV.
rewrite !trmx_mul; apply: submx_trans (submxMl _ _) _; rewrite -trmx_mul; apply: submxMr.
by apply: submx_trans (kry_fb _ _ _ _) (kry_mono _ _ hk).
Qed.
Lemma rank_fb_eq A B (T : 'M_n) (F : 'M_(m, n)) (G : 'M_m) K : T \in unitmx -> G \in unitmx ->
  \rank (kry A B K) = \rank (kry (T *m (A + B *m F) *m invmx T) (T *m B *m G) K).
Proof.
move=> Tu Gu; apply/eqP; rewrite eqn_leq rank_fb_le // andbT.
set A' := T *m _ *m _; set B' := T *m B *m G; pose F' := - (invmx G *m F *m invmx T).
have eB : B = invmx T *m B' *m invmx G by rewrite /B' -!mulmxA mulmxV // mulmx1 mulKmx.
have eA : A = invmx T *m (A' + B' *m F') *m invmx (invmx T).
  have -> : A' + B' *m F' = T *m A *m invmx T.
    by rewrite /A' /B' /F' mulmxN !mulmxA mulmxK // mulmxDr mulmxDl !mulmxA addrK.
  by rewrite invmxK !mulmxA mulVmx // mul1mx mulmxKV.
by rewrite {1}eA {1}eB; apply: rank_fb_le; rewrite unitmx_inv.
Qed.
End Feedback.
