(* Theory of linear simulation. *)
From mathcomp Require Import all_ssreflect all_algebra zify.
From Coq Require Import String.
From Verif Require Import RingTac Base BaseTheory Spec ModelState Denote StateTheory ModelObject ModelDiscrete DenoteD DiscreteTheory ModelSim SpecSim FeedbackTheory.

Set Implicit Arguments.
Unset Strict Implicit.
Unset Printing Implicit Defensive.

Import Order.TTheory GRing.Theory Num.Theory.
Local Open Scope ring_scope.

Section Algebra.
Variable R : realFieldType.

Lemma mpowS n (A : 'M[R]_n) k : mpow A k.+1 = A *m mpow A k. Proof. by []. Qed.

(* the state recursion *)
Fixpoint traj n m (A : 'M[R]_n) (B : 'M[R]_(n, m)) (x0 : 'cV[R]_n) (u : nat -> 'cV[R]_m) k :=
  if k is k'.+1 then A *m traj A B x0 u k' + B *m u k' else x0.

Lemma trajE n m (A : 'M[R]_n) (B : 'M[R]_(n, m)) x0 u k :
  traj A B x0 u k = mpow A k *m x0 + \sum_(j < k) mpow A (k - 1 - j) *m B *m u j.
Proof.
elim: k => [|k IH] /=; first by rewrite mul1mx big_ord0 addr0.
rewrite IH mulmxDr mulmxA -mpowS -addrA big_ord_recr /= subSS subn0 subnn mul1mx; congr (_ + (_ + _)).
rewrite mulmx_sumr; apply: eq_bigr => j _; rewrite !mulmxA -mpowS; congr (mpow _ _ *m _ *m _); have := ltn_ord j; lia.
Qed.

Lemma responseE n m p (A : 'M[R]_n) (B : 'M[R]_(n, m)) (C : 'M[R]_(p, n)) D x0 u k :
  response A B C D x0 u k = C *m traj A B x0 u k + D *m u k.
Proof.
rewrite /response trajE mulmxDr mulmxA; congr (_ + _ + _); rewrite mulmx_sumr; apply: eq_bigr => j _; by rewrite !mulmxA.
Qed.

Lemma eq_response n m p (A : 'M[R]_n) (B : 'M[R]_(n, m)) (C : 'M[R]_(p, n)) D x0 u v k :
  (forall j, (j <= k)%N -> u j = v j) -> response A B C D x0 u k = response A B C D x0 v k.
Proof.
move=> h; rewrite /response h //; congr (_ + _ + _); apply: eq_bigr => j _; rewrite h //; exact: ltnW.
Qed.

Lemma response_lin n m p (A : 'M[R]_n) (B : 'M[R]_(n, m)) (C : 'M[R]_(p, n)) D a b x1 x2 u1 u2 k :
  response A B C D (a *: x1 + b *: x2) (fun j => a *: u1 j + b *: u2 j) k =
  a *: response A B C D x1 u1 k + b *: response A B C D x2 u2 k.
Proof.
have tl : forall k, traj A B (a *: x1 + b *: x2) (fun j => a *: u1 j + b *: u2 j) k =
    a *: traj A B x1 u1 k + b *: traj A B x2 u2 k.
  elim=> [|i IH] //=; rewrite IH !mulmxDr -!scalemxAr !scalerDr -!addrA; congr (_ + _).
  by rewrite addrCA.
by rewrite !responseE tl !mulmxDr -!scalemxAr !scalerDr -!addrA; congr (_ + _); rewrite addrCA.
Qed.

Lemma response_sum n m p (A : 'M[R]_n) (B : 'M[R]_(n, m)) (C : 'M[R]_(p, n)) D (I : finType) (u : I -> nat -> 'cV[R]_m) k :
  \sum_i response A B C D 0 (u i) k = response A B C D 0 (fun j => \sum_i u i j) k.
Proof.
rewrite /response mulmx0 add0r.
under eq_bigr do rewrite add0r.
rewrite big_split /= -mulmx_sumr exchange_big /=; congr (_ + _).
by apply: eq_bigr => j _; rewrite mulmx_sumr.
Qed.

Lemma response_x0 n m p (A : 'M[R]_n) (B : 'M[R]_(n, m)) (C : 'M[R]_(p, n)) D x u k :
  response A B C D x u k = C *m mpow A k *m x + response A B C D 0 u k.
Proof. by rewrite /response mulmx0 add0r -addrA. Qed.

Lemma response_shift n m p (A : 'M[R]_n) (B : 'M[R]_(n, m)) (C : 'M[R]_(p, n)) D u k :
  response A B C D 0 (fun j => if j is j'.+1 then u j' else 0) k =
  if k is k'.+1 then response A B C D 0 u k' else 0.
Proof.
rewrite responseE; case: k => [|k] /=; first by rewrite !mulmx0 addr0.
rewrite responseE; congr (_ *m _ + _).
by elim: k => [|k IH] /=; rewrite ?mulmx0 ?addr0 // -IH.
Qed.

Lemma response_pulse n m p (A : 'M[R]_n) (B : 'M[R]_(n, m)) (C : 'M[R]_(p, n)) D w k :
  response A B C D 0 (fun j => if j == 0%N then w else 0) k = markov A B C D k *m w.
Proof.
rewrite /response mulmx0 add0r; case: k => [|k] /=; first by rewrite big_ord0 add0r.
rewrite mulmx0 addr0 big_ord_recl big1 ?addr0 /= ?mulmx0 // => [|j _]; last by rewrite mulmx0.
by rewrite subn0 subn1.
Qed.

Lemma response_const n m p (A : 'M[R]_n) (B : 'M[R]_(n, m)) (C : 'M[R]_(p, n)) D w k :
  response A B C D 0 (fun _ => w) k = (\sum_(i < k.+1) markov A B C D i) *m w.
Proof.
rewrite /response mulmx0 add0r big_ord_recl /= mulmxDl addrC; congr (_ + _).
rewrite mulmx_suml (reindex_inj rev_ord_inj); apply: eq_bigr => j _ /=.
congr (_ *m mpow _ _ *m _ *m _); have := ltn_ord j; lia.
Qed.

Lemma amxE m n A : amx m n A = mxof [rmorphism of @idfun R] m n A.
Proof. by apply/matrixP => i j; rewrite !mxE. Qed.

Lemma sample_add (X Y : arr R) n k : (k < nr X)%N -> nc X = n -> sample (aadd X Y) n k = sample X n k + sample Y n k.
Proof. by move=> hk e; apply/matrixP => i j; rewrite !mxE get_mk ?e. Qed.

Lemma sample_mul (X Y : arr R) n p k : (k < nr X)%N -> nc X = n -> nc Y = p ->
  sample (amul X Y) p k = (amx n p Y)^T *m sample X n k.
Proof.
move=> hk e1 e2; apply/matrixP => i j; rewrite !mxE get_mk ?e2 // sumNE e1.
by apply: eq_bigr => l _; rewrite !mxE mulrC.
Qed.

Lemma sample_mulT (X a : arr R) n p k : (k < nr X)%N -> nc X = n -> nr a = p -> nc a = n ->
  sample (amul X (aT a)) p k = amx p n a *m sample X n k.
Proof.
move=> hk e1 e2 e3; rewrite (sample_mul hk e1) ?nc_mk //; congr (_ *m _).
by apply/matrixP => i j; rewrite !mxE get_mk ?e2 ?e3.
Qed.

Lemma runE n (a x : arr R) (us : seq (arr R)) k : nr a = n -> nc a = n -> shp x = (1, n)%N ->
  (k <= size us)%N ->
  let xk := nth (azeros 1 n) (run (aT a) x us) k in
  shp xk = (1, n)%N /\
  sample xk n 0 = traj (amx n n a) 1%:M (sample x n 0) (fun j => sample (nth (azeros 1 n) us j) n 0) k.
Proof.
move=> ea ea' ; elim: us x k => [|u us IH] x [|k] sx hk //=.
have [s1 s2] : nr x = 1%N /\ nc x = n by case: sx.
have sx' : shp (aadd (amul x (aT a)) u) = (1, n)%N by rewrite /shp !nr_mk !nc_mk s1 ea.
have [e1 e2] := IH _ k sx' hk; split=> //; rewrite e2.
have ex : sample (aadd (amul x (aT a)) u) n 0 = amx n n a *m sample x n 0 + sample u n 0.
  by rewrite sample_add ?nr_mk ?nc_mk ?s1 // (sample_mulT (n := n)) ?s1.
rewrite ex; clear; elim: k => [|k IH] /=; first by rewrite mul1mx.
by rewrite IH.
Qed.

Lemma traj_ext n m (A : 'M[R]_n) (B : 'M[R]_(n, m)) x0 u v k : (forall j, (j < k)%N -> B *m u j = v j) ->
  traj A B x0 u k = traj A 1%:M x0 v k.
Proof.
elim: k => [|k IH] h //=; rewrite IH => [|j hj]; last by apply: h; lia.
by rewrite h // mul1mx.
Qed.

Lemma xoutE n m (a b x0 Bu : arr R) N k (u : nat -> 'cV[R]_m) : nr a = n -> nc a = n -> shp x0 = (1, n)%N ->
  (forall j, (j < N)%N -> sample Bu n j = amx n m b *m u j) -> (k < N)%N -> nr Bu = N -> nc Bu = n ->
  sample (xout (aT a) x0 Bu N n) n k = traj (amx n n a) (amx n m b) (sample x0 n 0) u k.
Proof.
move=> ea ea' sx hB hk e1 e2.
have hs : (k <= size [seq arow Bu k | k <- iota 0 N.-1])%N by rewrite size_map size_iota; lia.
have [e3 e4] := runE ea ea' sx hs.
have -> : sample (xout (aT a) x0 Bu N n) n k = sample (nth (azeros 1 n) (run (aT a) x0 [seq arow Bu k | k <- iota 0 N.-1]) k) n 0.
  by apply/matrixP => i j; rewrite !mxE get_mk.
rewrite e4; symmetry; apply: traj_ext => j hj.
rewrite (nth_map 0%N) ?size_iota; last by lia.
rewrite nth_iota; last by lia.
rewrite add0n -hB; last by lia.
by apply/matrixP => i l; rewrite !mxE get_mk ?subSnn ?subn0 ?e2 // addn0 add0n.
Qed.

Section Core.
Variables (n m p N : nat) (a b c d u x0 : arr R).
Hypotheses (sa : shp a = (n, n)) (sb : shp b = (n, m)) (sc : shp c = (p, n)) (sd : shp d = (p, m)).
Hypotheses (su : shp u = (N, m)) (sx : shp x0 = (1, n)%N).

Lemma sim_combP : shp (sim_comb a b c d u x0) = (N, p) /\ wfa (sim_comb a b c d u x0) /\
  forall k, (k < N)%N -> sample (sim_comb a b c d u x0) p k =
   response (amx n n a) (amx n m b) (amx p n c) (amx p m d) (sample x0 n 0) (sample u m) k.
Proof.
have [a1 a2] : nr a = n /\ nc a = n by case: sa.
have [b1 b2] : nr b = n /\ nc b = m by case: sb.
have [c1 c2] : nr c = p /\ nc c = n by case: sc.
have [d1 d2] : nr d = p /\ nc d = m by case: sd.
have [u1 u2] : nr u = N /\ nc u = m by case: su.
split; last split; rewrite ?wfa_mk //; first by rewrite /shp !nr_mk !nc_mk u1 c1.
move=> k hk; rewrite /sim_comb a1 u1 responseE.
set BDu := amul u _.
have n1 : nr BDu = N by rewrite nr_mk.
have n2 : nc BDu = (n + p)%N by rewrite !nc_mk b1 d1.
have e1 j : (j < N)%N -> sample (asubm BDu 0 N 0 n) n j = amx n m b *m sample u m j.
  move=> hj; apply/matrixP => i l; rewrite !mxE get_mk ?subn0 // !add0n.
  rewrite get_mk ?nr_mk ?u1 ?nc_mk ?b1 ?d1 //; last by have := ltn_ord i; lia.
  rewrite sumNE u2; apply: eq_bigr => t _; rewrite !mxE get_mk ?nr_mk ?nc_mk ?b2 ?b1 //; last by have := ltn_ord i; lia.
  by rewrite ltn_ord get_mk ?b2 ?b1 // mulrC.
rewrite n2 sample_add ?nr_mk ?nc_mk //; congr (_ + _); last first.
  apply/matrixP => i l; rewrite !mxE get_mk ?subn0 ?addKn //.
  rewrite !add0n get_mk ?u1 ?nc_mk ?b1 ?d1 //; last by have := ltn_ord i; lia.
  rewrite sumNE u2; apply: eq_bigr => t _; rewrite !mxE get_mk ?nr_mk ?nc_mk ?b1 ?b2 ?d1 //; last by have := ltn_ord i; lia.
  rewrite ltnNge leq_addr /= addKn get_mk ?d1 ?d2 // mulrC //.
rewrite (sample_mulT (n := n)) ?nr_mk ?nc_mk //; congr (_ *m _).
by apply: xoutE => //; rewrite ?nr_mk ?nc_mk ?subn0.
Qed.

Lemma sim_chanP col : (col < m)%N -> shp (sim_chan a b c d u x0 col) = (N, p) /\ wfa (sim_chan a b c d u x0 col) /\
  forall k, (k < N)%N -> sample (sim_chan a b c d u x0 col) p k =
   response (amx n n a) (amx n m b) (amx p n c) (amx p m d) (sample x0 n 0)
     (fun k => \col_j if j == col :> nat then get u k j else 0) k.
Proof.
move=> hc.
have [a1 a2] : nr a = n /\ nc a = n by case: sa.
have [b1 b2] : nr b = n /\ nc b = m by case: sb.
have [c1 c2] : nr c = p /\ nc c = n by case: sc.
have [d1 d2] : nr d = p /\ nc d = m by case: sd.
have [u1 u2] : nr u = N /\ nc u = m by case: su.
split; last split; rewrite ?wfa_mk //; first by rewrite /shp !nr_mk !nc_mk u1 c1.
move=> k hk; rewrite /sim_chan a1 u1 responseE.
set Bu := amul (acol u col) _.
have n1 : nr Bu = N by rewrite !nr_mk subn0 u1.
have n2 : nc Bu = n by rewrite !nc_mk subn0 b1.
have pick (q : nat) (M : 'M[R]_(q, m)) j (i : 'I_q) (l : 'I_1) :
  (M *m (\col_j0 if j0 == col :> nat then get u j j0 else 0)) i l = M i (Ordinal hc) * get u j col.
  rewrite !mxE (bigD1 (Ordinal hc)) //= !mxE eqxx big1 ?addr0 // => t /negbTE ht.
  by rewrite !mxE; move: ht; rewrite -val_eqE /= => ->; rewrite mulr0.
rewrite sample_add ?nr_mk ?nc_mk //; congr (_ + _); last first.
  by apply/matrixP => i l; rewrite pick !mxE get_mk ?d1 // mulrC.
rewrite (sample_mulT (n := n)) ?nr_mk ?nc_mk //; congr (_ *m _).
apply: xoutE => // j hj; apply/matrixP => i l; rewrite pick !mxE.
rewrite get_mk ?nr_mk ?nc_mk ?subn0 ?u1 ?b1 // sumNE ?nc_mk subSnn big_ord1.
by rewrite !get_mk ?subn0 ?subSnn ?nr_mk ?nc_mk ?u1 ?b1 ?b2 // ?add0n ?addn0 // mulrC.
Qed.
End Core.
End Algebra.

Section Sim.
Local Arguments str_in : simpl never.
Variable R : realFieldType.
Variables (sq tn : R -> R) (pi : R) (expm : arr R -> arr R) (bal : arr R -> arr R * seq R).
Variables (rtol atol : R).
Implicit Types (G K : state R).
Local Notation simulate := (@simulate R sq tn pi expm bal rtol atol).
Local Notation check_u_t := (@check_u_t R rtol atol).

Lemma acolumn_get (U : arr R) N : wfa U -> nr U = N -> nc U = 1%N -> acolumn (mkseq (fun k => get U k 0) N) = U.
Proof.
move=> w e1 e2; apply: arr_eqP; rewrite ?wfa_mk // ?nr_mk ?nc_mk ?size_mkseq // => i j hi hj.
by rewrite get_mk ?size_mkseq // nth_mkseq //; congr get; lia.
Qed.

Lemma squeeze_col (U : arr R) N : (1 < N)%N -> nr U = N -> nc U = 1%N ->
  squeeze (N2 U) = N1 (mkseq (fun k => get U k 0) N).
Proof. by move=> hN e1 e2; rewrite /squeeze e1 e2 !eqxx andbT; case: eqP => // e; rewrite e in hN. Qed.

Lemma squeeze_list (s : seq R) : (1 < size s)%N -> squeeze (N1 s) = N1 s.
Proof. by case: s => [|x [|y s]]. Qed.

Lemma norm_u N m u (U : arr R) : (1 < N)%N -> as_input N m u U ->
  (if squeeze u is N1 s then N2 (acolumn s) else squeeze u) = N2 U.
Proof.
move=> hN [w e1 e2 [->|[m1 ->]]]; last first.
  by rewrite squeeze_list ?size_mkseq // acolumn_get // e2.
case m1: (nc U == 1%N); first by rewrite (squeeze_col hN e1 (eqP m1)) acolumn_get //; apply/eqP.
by rewrite /squeeze m1 e1 andbF; case: eqP => // e; rewrite e in hN.
Qed.

Lemma check_x0P G x (v : 'cV[R]_(snn G)) : sgain G = false -> (1 < snn G)%N \/ x = None -> as_vector x v ->
  exists2 x', check_x0 G x = Ok x' & let x0 := if x' is Some x0 then x0 else azeros 1 (snn G) in
   shp x0 = (1%N, snn G) /\ sample x0 (snn G) 0 = v.
Proof.
move=> ng; case: x => [x|] hn; last first.
  move=> /= ->; exists None => //; split; first by [].
  by apply/matrixP => i j; rewrite !mxE get_mk.
case: hn => // hn.
have main (s : seq R) : size s = snn G -> v = \col_i nth 0 s i -> squeeze x = N1 s ->
  exists2 x', check_x0 G (Some x) = Ok x' & let x0 := if x' is Some x0 then x0 else azeros 1 (snn G) in
   shp x0 = (1%N, snn G) /\ sample x0 (snn G) 0 = v.
  move=> es -> ex; exists (Some (aT (acolumn s))); first by rewrite /check_x0 ng ex es eqxx.
  split; first by rewrite /shp !nr_mk !nc_mk nr_mk es.
  by apply/matrixP => i j; rewrite !mxE get_mk ?nr_mk ?nc_mk ?es // get_mk ?es.
case: x main => [//|s|A] main /=.
  by move=> [es ev]; apply: (main s) => //; rewrite squeeze_list // es.
case=> -[] [e1 e2] ev.
  apply: (main (mkseq (fun k => get A k 0) (snn G))); rewrite ?size_mkseq //.
    by rewrite ev; apply/matrixP => i j; rewrite !mxE nth_mkseq.
  exact: squeeze_col.
apply: (main (mkseq (get A 0) (snn G))); rewrite ?size_mkseq //.
  by rewrite ev; apply/matrixP => i j; rewrite !mxE nth_mkseq.
by rewrite /squeeze e1 e2 !eqxx /=; case: eqP => // e; rewrite e in hn.
Qed.

(* time arguments that are accepted *)
Definition good_time (dt : option R) (N : nat) (t : option (nd R)) (ts : seq R) : Prop :=
  match t with
  | None => exists2 d, dt = Some d & ts = mkseq (fun k => k%:R * d) N
  | Some t =>
      [/\ squeeze t = N1 ts, size ts = N, 0 < nth 0 ts 1 - nth 0 ts 0,
       (forall k, (k.+1 < N)%N -> isclose rtol atol (nth 0 ts k.+1 - nth 0 ts k) (nth 0 ts 1 - nth 0 ts 0)) &
       forall d, dt = Some d -> isclose rtol atol d (nth 0 ts 1 - nth 0 ts 0)]
  end.

Lemma check_u_tP m dt (U : arr R) t : (1 < nr U)%N -> (0 < nc U)%N -> nc U = m ->
  forall ts, good_time dt (nr U) t ts -> check_u_t m dt (N2 U) t = Ok (U, ts).
Proof.
move=> hN hc hm ts; rewrite /ModelSim.check_u_t.
have sz : ~~ (np_size (N2 U) < 1)%N by rewrite /= -leqNgt muln_gt0 hc (leq_trans _ hN).
case: t => [t|] /=.
  case=> -> es d0 hd hdt; case et: (diff ts) => [|d td].
    by move: (congr1 size et); rewrite size_mkseq es; case: (nr U) hN => [|[]].
  have ed : d = nth 0 ts 1 - nth 0 ts 0.
    have := congr1 (fun s => nth 0 s 0) et; rewrite /= nth_mkseq // es; by case: (nr U) hN => [|[]].
  rewrite -{1}et {1}ed.
  have -> : all (fun d1 => isclose rtol atol d1 (nth 0 ts 1 - nth 0 ts 0)) (diff ts).
    apply/(all_nthP 0) => k; rewrite size_mkseq es => hk; rewrite nth_mkseq ?es //; apply: hd; lia.
  rewrite ed d0 /= (_ : (if dt is Some dt0 then _ else true) = true); last by case: (dt) hdt => // d1; apply.
  by rewrite /= sz es eqxx hm eqxx.
case=> d -> ->; rewrite /= sz size_mkseq eqxx hm eqxx; congr (Ok (_, _)).
apply: eq_mkseq => k; congr (_ * _); rewrite mulrC mulKf // pnatr_eq0; by case: (nr U) hN => [|[]].
Qed.

(* the matrices that are simulated *)
Definition sim_sys G (ts : seq R) : res (state R) :=
  if sdt G is Some _ then Ok G
  else do o <- discretize sq tn pi expm bal G (nth 0 ts 1 - nth 0 ts 0) "zoh" 0 None; Ok (dst o).

Lemma simulate_dyn G u U t ts x v pc Gd N : wfS G -> sgain G = false -> (0 < smn G)%N ->
  (1 < N)%N -> as_input N (smn G) u U -> good_time (sdt G) N t ts ->
  ((1 < snn G)%N \/ x = None) -> as_vector x v ->
  sim_sys G ts = Ok Gd -> snn Gd = snn G ->
  exists x0, [/\ shp x0 = (1%N, snn G), sample x0 (snn G) 0 = v &
   simulate G u t x pc = Ok (if pc && (smn G != 1%N) then Y3 (mkseq (sim_chan (sa Gd) (sb Gd) (sc Gd) (sd Gd) U x0) (smn G))
                             else Y2 (sim_comb (sa Gd) (sb Gd) (sc Gd) (sd Gd) U x0), ts)].
Proof.
move=> w ng m0 hN hu ht hn hx; case: (hu) => wU u1 u2 _; rewrite /sim_sys => hG en.
have [x' ex [s1 s2]] := check_x0P ng hn hx.
exists (if x' is Some x0 then x0 else azeros 1 (snn G)); split=> //.
rewrite /ModelSim.simulate ex [bind _ _]/= (norm_u hN hu) (check_u_tP _ _ _ (ts := ts)) ?u1 ?u2 // [bind (Ok _) _]/= ng hG [bind (Ok _) _]/= en.
by case: ifP.
Qed.


Definition sysof G ts : res (state R) := if sgain G then Ok G else sim_sys G ts.
Definition tvals (dt : option R) (t : option (nd R)) (N : nat) : seq R :=
  match t with
  | Some t => if squeeze t is N1 s then s else [::]
  | None => linspace (N.-1%:R * odflt 0 dt) N
  end.

Lemma zoh_inv G dt o : wfS G -> sgain G = false -> discretize sq tn pi expm bal G dt "zoh" 0 None = Ok o ->
  let K := dst o in
  [/\ shp (sa K) = (snn G, snn G), shp (sb K) = (snn G, smn G), shp (sc K) = (spn G, snn G) & shp (sd K) = (spn G, smn G)].
Proof.
move=> w ng; have [[wA wB wC wD] [eA eB eC eC' eB']] := wfS_dyn w ng.
rewrite /ModelDiscrete.discretize [str_in _ _]/=; case: (sdt G) => //=; rewrite ng /=.
have -> : discretize_args sq tn pi expm bal G dt "zoh" 0 None = disc_zoh expm bal G dt by [].
rewrite /disc_zoh; case: (bal _) => Ms sca; set e := unscale _ _ => /=.
case eK: (mkS _ _ _ _ _) => [K|//] [<-] /=; move: eK.
case/mkS_inv => [|_ _ _ [[-> [_ eb]]|[-> [d1 b1 d2]]]]; first by rewrite !nr_mk.
  by rewrite /shp !nr_mk ?nc_mk /=; split; rewrite ?subn0 ?eC ?eC' //; move: eb; rewrite nc_mk => ->.
have ed : nc (sd G) = 1%N by rewrite d2 eC'.
rewrite /shp /= ?nr_mk ?nc_mk ?subn0; split=> //.
- by move: b1; rewrite nc_mk => ->; rewrite /smn ed.
- by rewrite eC eC'.
- by rewrite d2 eC' /smn ed.
Qed.

Lemma simulate_inv G u U t x (v : 'cV[R]_(snn G)) y ts N : wfS G -> (1 < N)%N -> as_input N (smn G) u U ->
  as_vector x v -> simulate G u t x false = Ok (y, ts) ->
  let n := snn G in let m := smn G in let p := spn G in
  ts = tvals (sdt G) t N /\
  exists Y Gd, [/\ y = Y2 Y, sysof G ts = Ok Gd, wfa Y, shp Y = (N, p) & forall k, (k < N)%N ->
   sample Y p k = response (amx n n (sa Gd)) (amx n m (sb Gd)) (amx p n (sc Gd)) (amx p m (sd Gd)) v (sample U m) k].
Proof.
move=> w hN hu hx + n m p; case: (hu) => wU u1 u2 _.
rewrite /ModelSim.simulate; case ex: (check_x0 G x) => [x'|//]; rewrite [bind _ _]/= (norm_u hN hu).
case ec: (check_u_t _ _ _ _) => [[U' ts']|//]; rewrite [bind _ _]/=.
have [eU ets] : U' = U /\ ts' = tvals (sdt G) t N.
  move: ec; rewrite /ModelSim.check_u_t /tvals; case: (t) => [t1|].
    case: (squeeze t1) => [//|t2|//]; case: (diff t2) => [//|d0 td].
    case: ifP => //= _; case: ifP => //= _; case: ifP => //= _; case: ifP => //= _; case: ifP => //= _.
    by case=> <- <-.
  case: (sdt G) => //= d; rewrite u1; case: ifP => //= _; case: ifP => //= _; case: ifP => //= _.
  by case=> <- <-.
rewrite {}eU; case g: (sgain G).
  have [n0 nA sB sC wD] := wfS_gain w g.
  have hR (D : 'M[R]_(p, m)) A B C k : response (n := n) A B C D v (sample U m) k = D *m sample U m k.
    rewrite /response; have -> : C = 0 by apply/matrixP => i j; exfalso; case: j => j; rewrite /n n0.
    by rewrite !mul0mx big1 ?addr0 ?add0r // => j _; rewrite !mul0mx.
  case: ifP => [/andP[/eqP p1 /eqP m1]|_].
    case=> <- <-; split=> //; exists (ascaler U (get (sd G) 0 0)), G; split=> //; rewrite /sysof ?g // ?wfa_mk //.
      by rewrite /shp nr_mk nc_mk u1 u2 m1 /p p1.
    move=> k hk; rewrite hR; apply/matrixP => i j.
    have i0 : i = 0%N :> nat by have := ltn_ord i; have : p = 1%N by []; lia.
    have hm : (0 < m)%N by rewrite /m m1.
    rewrite !mxE i0 get_mk ?u1 ?u2 ?m1 // (bigD1 (Ordinal hm)) //= !mxE i0 big1 ?addr0 1?mulrC // => l.
    by rewrite -val_eqE /= => hl; have := ltn_ord l; have : m = 1%N by []; lia.
  rewrite /np_matmul u2 nr_mk eqxx [bind _ _]/=.
  case=> <- <-; split=> //; exists (amul U (aT (sd G))), G; split=> //; rewrite /sysof ?g ?wfa_mk //.
    by rewrite /shp !nr_mk !nc_mk u1.
  by move=> k hk; rewrite hR (sample_mulT (n := m)) ?u1.
rewrite /sysof g -/(sim_sys G ts').
case eG: (sim_sys G ts') => [Gd|//]; rewrite [bind _ _]/= => -[<- ets']; rewrite -ets'; split=> //.
have [s1 s2 s3 s4] : [/\ shp (sa Gd) = (n, n), shp (sb Gd) = (n, m), shp (sc Gd) = (p, n) & shp (sd Gd) = (p, m)].
  move: eG; rewrite /sim_sys; case: (sdt G) => [d [<-]|].
    have [[wA wB wC wD] [eA eB eC eC' eB']] := wfS_dyn w g.
    by rewrite /shp eA eB eC eC' eB'.
  case eo: (ModelDiscrete.discretize _ _ _ _ _ _ _ _ _ _) => [o|//] [<-]; exact: (zoh_inv w g eo).
have [x1 x2] : let x0 := (if x' is Some x0 then x0 else azeros 1 (snn Gd)) in shp x0 = (1%N, n) /\ sample x0 n 0 = v.
  have n2 : snn Gd = n by case: s1.
  move: ex hx; rewrite /check_x0 g n2; case: (x) => [x1|] /=; last first.
    by case=> <- ->; split=> //; apply/matrixP => i j; rewrite !mxE get_mk.
  case e1: (squeeze x1) => [//|s0|//]; case: eqP => // es [<-] hx.
  split; first by rewrite /shp !nr_mk !nc_mk nr_mk es.
  have -> : sample (aT (acolumn s0)) n 0 = \col_i nth 0 s0 i.
    by apply/matrixP => i j; rewrite !mxE get_mk ?nr_mk ?nc_mk ?es // get_mk ?es.
  move: e1 hx; case: x1 => [//|s1'|A].
    by case: s1' => [|a [|b s1']] //= [<-] [_ ->].
  rewrite /squeeze; case: ifP => // nz e1 [] [[a1 a2] ->]; move: e1; rewrite a1 a2.
    rewrite eqxx; case: ifP => [n1|_ [<-]].
      by move: nz; rewrite a1 a2 n1 eqxx.
    by apply/matrixP => i j; rewrite !mxE nth_mkseq.
  by rewrite eqxx => -[<-]; apply/matrixP => i j; rewrite !mxE nth_mkseq.
have sU : shp U = (N, m) by rewrite /shp u1 u2.
have [c1 [c2 c3]] := sim_combP s1 s2 s3 s4 sU x1.
by eexists; exists Gd; split; [reflexivity| by [] |exact: c2|exact: c1|]; rewrite -x2.
Qed.


Lemma good_time_of dt h N t ts : 0 <= rtol -> 0 <= atol -> (1 < N)%N -> time_ok dt h N t ts -> good_time dt N t ts.
Proof.
move=> r0 a0 hN [h0 es sp hd ht].
have cl (a : R) : isclose rtol atol a a by rewrite /isclose subrr normr0 addr_ge0 // mulr_ge0.
have s1 : nth 0 ts 1 - nth 0 ts 0 = h by apply: sp.
move: ht; case: t => [t ->|[-> ->]] /=; last by exists h.
split=> //; rewrite ?s1 //.
- by apply: squeeze_list; rewrite es.
- by move=> k hk; rewrite sp.
- by move=> d ed; move: hd; rewrite ed => -[//|[->]].
Qed.

Lemma shapes G : wfS G -> sgain G = false ->
  [/\ shp (sa G) = (snn G, snn G), shp (sb G) = (snn G, smn G), shp (sc G) = (spn G, snn G) & shp (sd G) = (spn G, smn G)].
Proof. by move=> w ng; have [_ [eA eB eC eC' eB']] := wfS_dyn w ng; rewrite /shp eA eB eC eC' eB'. Qed.

(* combined simulation with the matrices of Gd *)
Lemma sim_gen G u U t ts x (v : 'cV[R]_(snn G)) Gd N : wfS G -> sgain G = false -> (0 < smn G)%N ->
  (1 < N)%N -> as_input N (smn G) u U -> good_time (sdt G) N t ts ->
  ((1 < snn G)%N \/ x = None) -> as_vector x v ->
  sim_sys G ts = Ok Gd -> snn Gd = snn G ->
  [/\ shp (sa Gd) = (snn G, snn G), shp (sb Gd) = (snn G, smn G), shp (sc Gd) = (spn G, snn G) & shp (sd Gd) = (spn G, smn G)] ->
  let n := snn G in let m := smn G in let p := spn G in
  let R' := response (amx n n (sa Gd)) (amx n m (sb Gd)) (amx p n (sc Gd)) (amx p m (sd Gd)) v in
  (exists Y, [/\ simulate G u t x false = Ok (Y2 Y, ts), shp Y = (N, p), wfa Y &
    forall k, (k < N)%N -> sample Y p k = R' (sample U m) k]) /\
  (exists y, [/\ simulate G u t x true = Ok (y, ts), channels y = m & forall j, (j < m)%N ->
    shp (channel y j) = (N, p) /\ forall k, (k < N)%N -> sample (channel y j) p k =
      R' (fun k => \col_i if i == j :> nat then get U k i else 0) k]).
Proof.
move=> w ng m0 hN hu ht hn hx hG en [s1 s2 s3 s4] n m p R'.
case: (hu) => wU u1 u2 _; have sU : shp U = (N, m) by rewrite /shp u1 u2.
split.
  have [x0 [x1 x2 e]] := simulate_dyn false w ng m0 hN hu ht hn hx hG en.
  have [c1 [c2 c3]] := sim_combP s1 s2 s3 s4 sU x1.
  by exists (sim_comb (sa Gd) (sb Gd) (sc Gd) (sd Gd) U x0); split=> // k hk; rewrite c3 // x2.
have [x0 [x1 x2 e]] := simulate_dyn true w ng m0 hN hu ht hn hx hG en.
move: e; rewrite [true && _]/=; case: eqP => m1 /= e; eexists; (split; first exact: e) => /=.
- by rewrite /m m1.
- have me : m = 1%N by [].
  move=> j hj; have {hj} -> : j = 0%N by lia.
  have [c1 [c2 c3]] := sim_combP s1 s2 s3 s4 sU x1.
  split=> // k hk; rewrite c3 // x2 /R'; apply: eq_response => l _.
  by apply/matrixP => i i'; rewrite !mxE; have -> : i = 0%N :> nat by have := ltn_ord i; lia.
- by rewrite size_mkseq.
- move=> j hj; rewrite nth_mkseq //; have [c1 [c2 c3]] := sim_chanP s1 s2 s3 s4 sU x1 hj.
  by split=> // k hk; rewrite c3 // x2.
Qed.


(* discrete models *)
Lemma sim_disc G dt u U t ts x (v : 'cV[R]_(snn G)) N : wfS G -> sgain G = false -> (0 < smn G)%N ->
  sdt G = Some dt -> 0 <= rtol -> 0 <= atol -> (1 < N)%N -> as_input N (smn G) u U -> time_ok (sdt G) dt N t ts ->
  ((1 < snn G)%N \/ x = None) -> as_vector x v ->
  let p := spn G in let R' := response (Amx G) (Bmx G) (Cmx G) (Dmx G) v in
  (exists Y, [/\ simulate G u t x false = Ok (Y2 Y, ts), shp Y = (N, p), wfa Y &
    forall k, (k < N)%N -> sample Y p k = R' (sample U (smn G)) k]) /\
  (exists y, [/\ simulate G u t x true = Ok (y, ts), channels y = smn G & forall j, (j < smn G)%N ->
    shp (channel y j) = (N, p) /\ forall k, (k < N)%N -> sample (channel y j) p k =
      R' (fun k => \col_i if i == j :> nat then get U k i else 0) k]).
Proof.
move=> w ng m0 ed r0 a0 hN hu ht hn hx; have ht' := good_time_of r0 a0 hN ht.
by apply: (sim_gen w ng m0 hN hu ht' hn hx _ erefl (shapes w ng)); rewrite /sim_sys ed.
Qed.

(* continuous models: the zero-order-hold equivalent with the spacing of the time array *)
Lemma sim_cont G h u U t ts x (v : 'cV[R]_(snn G)) N : exp_like expm -> balances bal ->
  wfS G -> sgain G = false -> (0 < smn G)%N ->
  sdt G = None -> 0 <= rtol -> 0 <= atol -> (1 < N)%N -> as_input N (smn G) u U -> time_ok (sdt G) h N t ts ->
  ((1 < snn G)%N \/ x = None) -> as_vector x v ->
  let n := snn G in let m := smn G in let p := spn G in
  let E := expm (ascaler (zohM G) h) in
  let R' := response (amx n n (asubm E 0 n 0 n)) (amx n m (asubm E 0 n n (n + m))) (Cmx G) (Dmx G) v in
  (exists Y, [/\ simulate G u t x false = Ok (Y2 Y, ts), shp Y = (N, p), wfa Y &
    forall k, (k < N)%N -> sample Y p k = R' (sample U (smn G)) k]) /\
  (exists y, [/\ simulate G u t x true = Ok (y, ts), channels y = smn G & forall j, (j < smn G)%N ->
    shp (channel y j) = (N, p) /\ forall k, (k < N)%N -> sample (channel y j) p k =
      R' (fun k => \col_i if i == j :> nat then get U k i else 0) k]).
Proof.
move=> he hb w ng m0 ed r0 a0 hN hu ht hn hx n m p E R'; have ht' := good_time_of r0 a0 hN ht.
have [h0 es sp _ _] := ht.
have s1 : nth 0 ts 1 - nth 0 ts 0 = h by apply: sp.
have [e wK sE] := disc_zohP sq tn pi hb he 0 None w ng ed h0.
set K := St _ _ _ _ _ _ in e wK.
have := @sim_gen G u U t ts x v K N w ng m0 hN hu ht' hn hx; apply.
- by rewrite /sim_sys ed s1 e.
- by rewrite /= /snn /= subn0.
- have [_ _ s3 s4] := shapes w ng; rewrite s3 s4 /shp !nr_mk !nc_mk !subn0 addKn; by split.
Qed.

(* static gains *)
Lemma sim_gain G u U t ts N : wfS G -> sgain G -> (0 < smn G)%N -> (1 < N)%N -> as_input N (smn G) u U ->
  good_time (sdt G) N t ts -> exists Y, [/\ simulate G u t None false = Ok (Y2 Y, ts), shp Y = (N, spn G), wfa Y &
    forall k, (k < N)%N -> sample Y (spn G) k = Dmx G *m sample U (smn G) k].
Proof.
move=> w g m0 hN hu ht; case: (hu) => wU u1 u2 _.
have hv : as_vector None (0 : 'cV[R]_(snn G)) by [].
have hs : exists y, simulate G u t None false = Ok (y, ts).
  rewrite /ModelSim.simulate /= (norm_u hN hu) (check_u_tP _ _ _ (ts := ts)) ?u1 ?u2 //= g.
  by case: ifP => _; eexists; [reflexivity|rewrite /np_matmul u2 nr_mk eqxx].
have [y ey] := hs; have [_ [Y [Gd [eY eG wY sY hY]]]] := simulate_inv w hN hu hv ey.
exists Y; split=> // [|k hk]; first by rewrite ey eY.
have eGd : Gd = G by move: eG; rewrite /sysof g => -[].
rewrite hY // eGd /response mulmx0 add0r big1 ?add0r // => j _.
have [n0 _ _ _ _] := wfS_gain w g.
have -> : amx (spn G) (snn G) (sc G) = 0 by apply/matrixP => i i'; exfalso; case: i' => i'; rewrite n0.
by rewrite !mul0mx.
Qed.

(* first-order models cannot be given an initial state *)
Lemma x0_first_order G u t x pc : sgain G = false -> (forall s, squeeze x <> N1 s) -> (forall A, squeeze x <> N2 A) ->
  simulate G u t (Some x) pc = Err IndexError.
Proof.
move=> ng h1 h2; rewrite /ModelSim.simulate /check_x0 ng /=.
by case e: (squeeze x) => [a|s|A] //; [case: (h1 s)|case: (h2 A)].
Qed.

Lemma single_sample G u t : (exists a, squeeze u = N0 a) -> is_ok (simulate G u t None false) = false.
Proof.
case=> a e; rewrite /ModelSim.simulate /= e /ModelSim.check_u_t /=.
case: t => [t|]; last by case: (sdt G).
case: (squeeze t) => //= s; case: (diff s) => //= d0 td.
by case: ifP => //= _; case: ifP.
Qed.

Lemma single_row G (A : arr R) t pc : nr A = 1%N -> (1 < nc A)%N -> nc A = smn G ->
  is_ok (simulate G (N2 A) t None pc) = false.
Proof.
move=> e1 e2 e3; rewrite /ModelSim.simulate /= e1 eqxx /=; case: eqP => [e|_]; first by rewrite e in e2.
suff h : is_ok (check_u_t (smn G) (sdt G) (N2 (acolumn (mkseq (get A 0) (nc A)))) t) = false.
  by move: h; case: (ModelSim.check_u_t _ _ _ _ _ _).
rewrite /ModelSim.check_u_t; case: (match t with None => _ | Some _ => _ end) => //= ts.
case: ifP => //= _; case: ifP => //= _; rewrite -e3; by case: eqP => // e; rewrite -e in e2.
Qed.


Lemma sample_get (Y : arr R) p k i (hi : (i < p)%N) : get Y k i = sample Y p k (Ordinal hi) 0.
Proof. by rewrite mxE. Qed.

Lemma sim_linear G N u1 u2 u U1 U2 U t x1 x2 x (v1 v2 v : 'cV[R]_(snn G)) a b Y1 Y2' Y ts1 ts2 ts :
  wfS G -> (1 < N)%N ->
  as_input N (smn G) u1 U1 -> as_input N (smn G) u2 U2 -> as_input N (smn G) u U ->
  (forall k j, (k < N)%N -> (j < smn G)%N -> get U k j = a * get U1 k j + b * get U2 k j) ->
  as_vector x1 v1 -> as_vector x2 v2 -> as_vector x v -> v = a *: v1 + b *: v2 ->
  simulate G u1 t x1 false = Ok (Y2 Y1, ts1) -> simulate G u2 t x2 false = Ok (Y2 Y2', ts2) ->
  simulate G u t x false = Ok (Y2 Y, ts) ->
  forall k i, (k < N)%N -> (i < spn G)%N -> get Y k i = a * get Y1 k i + b * get Y2' k i.
Proof.
move=> w hN hu1 hu2 hu eU hx1 hx2 hx ev s1 s2 s3 k i hk hi.
have [t1 [Z1 [G1 [[e1] g1 _ _ h1]]]] := simulate_inv w hN hu1 hx1 s1.
have [t2 [Z2 [G2 [[e2] g2 _ _ h2]]]] := simulate_inv w hN hu2 hx2 s2.
have [t3 [Z3 [G3 [[e3] g3 _ _ h3]]]] := simulate_inv w hN hu hx s3.
have eg1 : G1 = G3 by move: g1 g3; rewrite t1 t3 => -> [].
have eg2 : G2 = G3 by move: g2 g3; rewrite t2 t3 => -> [].
move: h1 h2 h3; rewrite -e1 -e2 -e3 eg1 eg2 => h1 h2 h3.
rewrite !(sample_get _ _ hi) h1 // h2 // h3 // ev.
rewrite (eq_response _ _ _ _ _ (v := fun j => a *: sample U1 (smn G) j + b *: sample U2 (smn G) j)).
  by rewrite response_lin !mxE.
by move=> j hj; apply/matrixP => l c; rewrite !mxE eU //; apply: leq_ltn_trans hk.
Qed.

Lemma sim_causal G N u1 u2 U1 U2 t x1 (v1 : 'cV[R]_(snn G)) Y1 Y2' ts1 ts2 k0 :
  wfS G -> (1 < N)%N -> as_input N (smn G) u1 U1 -> as_input N (smn G) u2 U2 ->
  (forall k j, (k <= k0)%N -> (j < smn G)%N -> get U1 k j = get U2 k j) -> as_vector x1 v1 ->
  simulate G u1 t x1 false = Ok (Y2 Y1, ts1) -> simulate G u2 t x1 false = Ok (Y2 Y2', ts2) ->
  forall k i, (k <= k0)%N -> (k < N)%N -> (i < spn G)%N -> get Y1 k i = get Y2' k i.
Proof.
move=> w hN hu1 hu2 eU hx1 s1 s2 k i hK hk hi.
have [t1 [Z1 [G1 [[e1] g1 _ _ h1]]]] := simulate_inv w hN hu1 hx1 s1.
have [t2 [Z2 [G2 [[e2] g2 _ _ h2]]]] := simulate_inv w hN hu2 hx1 s2.
have eg1 : G1 = G2 by move: g1 g2; rewrite t1 t2 => -> [].
move: h1 h2; rewrite -e1 -e2 eg1 => h1 h2; rewrite !(sample_get _ _ hi) h1 // h2 //; congr (fun_of_matrix _ _ 0).
by apply: eq_response => j hj; apply/matrixP => l c; rewrite !mxE eU //; apply: leq_trans hK.
Qed.

Lemma sim_shift G N u1 u2 U1 U2 t Y1 Y2' ts1 ts2 :
  wfS G -> (1 < N)%N -> as_input N (smn G) u1 U1 -> as_input N (smn G) u2 U2 ->
  (forall j, (j < smn G)%N -> get U2 0 j = 0) ->
  (forall k j, (k.+1 < N)%N -> (j < smn G)%N -> get U2 k.+1 j = get U1 k j) ->
  simulate G u1 t None false = Ok (Y2 Y1, ts1) -> simulate G u2 t None false = Ok (Y2 Y2', ts2) ->
  forall i, (i < spn G)%N -> get Y2' 0 i = 0 /\ forall k, (k.+1 < N)%N -> get Y2' k.+1 i = get Y1 k i.
Proof.
move=> w hN hu1 hu2 eU0 eU s1 s2 i hi; have hv : as_vector None (0 : 'cV[R]_(snn G)) by [].
have [t1 [Z1 [G1 [[e1] g1 _ _ h1]]]] := simulate_inv w hN hu1 hv s1.
have [t2 [Z2 [G2 [[e2] g2 _ _ h2]]]] := simulate_inv w hN hu2 hv s2.
have eg1 : G1 = G2 by move: g1 g2; rewrite t1 t2 => -> [].
move: h1 h2; rewrite -e1 -e2 eg1 => h1 h2.
have eS k : (k < N)%N -> forall j, (j <= k)%N -> sample U2 (smn G) j = if j is j'.+1 then sample U1 (smn G) j' else 0.
  move=> hk [|j] hj; apply/matrixP => l c; rewrite !mxE ?eU0 ?eU //; exact: leq_ltn_trans hk.
have N0 : (0 < N)%N by apply: ltnW.
split=> [|k hk]; rewrite !(sample_get _ _ hi) h2 //.
  by rewrite (eq_response _ _ _ _ _ (eS _ N0)) response_shift mxE.
by rewrite h1 ?(ltnW hk) // (eq_response _ _ _ _ _ (eS _ hk)) response_shift.
Qed.

(* sums over the channels *)
Lemma chan_sum (U : arr R) m k : \sum_(j < m) (\col_(i < m) if i == j :> nat then get U k i else 0) = sample U m k.
Proof.
apply/matrixP => i c; rewrite summxE !mxE (bigD1 i) //= !mxE eqxx big1 ?addr0 // => j hj.
by rewrite !mxE; case: eqP => // e; move: hj; rewrite -val_eqE /= e eqxx.
Qed.

Lemma sum_channels G dt u U t ts x (v : 'cV[R]_(snn G)) N : wfS G -> sgain G = false -> (0 < smn G)%N ->
  sdt G = Some dt -> 0 <= rtol -> 0 <= atol -> (1 < N)%N -> as_input N (smn G) u U -> time_ok (sdt G) dt N t ts ->
  ((1 < snn G)%N \/ x = None) -> as_vector x v ->
  exists Y y, [/\ simulate G u t x false = Ok (Y2 Y, ts), simulate G u t x true = Ok (y, ts), channels y = smn G &
   forall k, (k < N)%N -> \sum_(j < smn G) sample (channel y j) (spn G) k =
     sample Y (spn G) k + (Cmx G *m mpow (Amx G) k *m v) *+ (smn G).-1].
Proof.
move=> w ng m0 ed r0 a0 hN hu ht hn hx.
have [[Y [e1 e2 e3 e4]] [y [f1 f2 f3]]] := sim_disc w ng m0 ed r0 a0 hN hu ht hn hx.
exists Y, y; split=> // k hk; rewrite e4 // response_x0.
under eq_bigr => j _. 
  have [_ h] := f3 j (ltn_ord j); rewrite h // response_x0; over.
rewrite big_split /= response_sum sumr_const card_ord addrAC; congr (_ + _).
  by rewrite -mulrS prednK.
by apply: eq_response => j hj; rewrite chan_sum.
Qed.

Lemma sum_channels_cont G h u U t ts N : exp_like expm -> balances bal -> wfS G -> sgain G = false -> (0 < smn G)%N ->
  sdt G = None -> 0 <= rtol -> 0 <= atol -> (1 < N)%N -> as_input N (smn G) u U -> time_ok (sdt G) h N t ts ->
  exists Y y, [/\ simulate G u t None false = Ok (Y2 Y, ts), simulate G u t None true = Ok (y, ts), channels y = smn G &
   forall k, (k < N)%N -> \sum_(j < smn G) sample (channel y j) (spn G) k = sample Y (spn G) k].
Proof.
move=> he hb w ng m0 ed r0 a0 hN hu ht; have hv : as_vector None (0 : 'cV[R]_(snn G)) by [].
have [[Y [e1 e2 e3 e4]] [y [f1 f2 f3]]] := sim_cont he hb w ng m0 ed r0 a0 hN hu ht (or_intror erefl) hv.
exists Y, y; split=> // k hk; rewrite e4 // .
under eq_bigr => j _. 
  have [_ h'] := f3 j (ltn_ord j); rewrite h' //; over.
by rewrite response_sum; apply: eq_response => j hj; rewrite chan_sum.
Qed.

Variable auto : state R -> bool -> nat * R.
Local Notation simulate_step := (@simulate_step R sq tn pi expm bal rtol atol auto).
Local Notation simulate_impulse := (@simulate_impulse R sq tn pi expm bal rtol atol auto).

Lemma time_gridP G step h N t ts : 0 <= rtol -> 0 <= atol -> (1 < N)%N -> grid_ok auto G step h N t ts ->
  time_grid rtol atol auto G step t = Ok (ts, h).
Proof.
move=> r0 a0 hN [ht [h0 es sp _ _]]; case: t ht => [t ->|[e ->]] /=; last by rewrite e.
have s1 : nth 0 ts 1 - nth 0 ts 0 = h by apply: sp.
rewrite /check_time [bind _ _]/= es ltnNge hN /= s1 h0 (_ : all _ _ = true) //.
apply/(all_nthP 0) => k; rewrite size_mkseq es => hk; rewrite nth_mkseq ?es // sp; last by lia.
by rewrite /isclose subrr normr0 addr_ge0 // mulr_ge0.
Qed.

Lemma impulseP G dt t ts N : wfS G -> sgain G = false -> (0 < smn G)%N ->
  sdt G = Some dt -> 0 <= rtol -> 0 <= atol -> (1 < N)%N -> grid_ok auto G false dt N t ts ->
  exists y, [/\ simulate_impulse G t = Ok (y, ts), channels y = smn G &
   forall (j : 'I_(smn G)) k, (k < N)%N ->
     sample (channel y j) (spn G) k = dt^-1 *: col j (markov (Amx G) (Bmx G) (Cmx G) (Dmx G) k)].
Proof.
move=> w ng m0 ed r0 a0 hN hg; rewrite /ModelSim.simulate_impulse (time_gridP r0 a0 hN hg) [bind _ _]/=.
case: hg => _ ht; have [h0 es sp _ _] := ht; rewrite es (ltnW hN).
set U := mk N _ _; have hu : as_input N (smn G) (N2 U) U by split; rewrite ?wfa_mk //; left.
have hv : as_vector None (0 : 'cV[R]_(snn G)) by [].
have [_ [y [f1 f2 f3]]] := sim_disc w ng m0 ed r0 a0 hN hu ht (or_intror erefl) hv.
exists y; split=> // j k hk; have [_ ->//] := f3 j (ltn_ord j).
rewrite (eq_response _ _ _ _ _ (v := fun l => if l == 0%N then dt^-1 *: delta_mx j 0 else 0)).
  by rewrite response_pulse -scalemxAr -colE.
move=> l hl; apply/matrixP => i c; rewrite !mxE; case l0: (l == 0%N); rewrite !mxE; last first.
  by case: eqP => // _; rewrite get_mk ?l0 // (leq_ltn_trans hl).
rewrite [c]ord1 eqxx andbT -val_eqE /=; case: eqP => _; rewrite ?mulr0 // mulr1 get_mk ?l0 ?div1r //.
exact: leq_ltn_trans hk.
Qed.

Lemma stepP G dt t ts N : wfS G -> sgain G = false -> (0 < smn G)%N ->
  sdt G = Some dt -> 0 <= rtol -> 0 <= atol -> (1 < N)%N -> grid_ok auto G true dt N t ts ->
  exists y, [/\ simulate_step G t = Ok (y, ts), channels y = smn G &
   forall (j : 'I_(smn G)) k, (k < N)%N ->
     sample (channel y j) (spn G) k = \sum_(i < k.+1) col j (markov (Amx G) (Bmx G) (Cmx G) (Dmx G) i)].
Proof.
move=> w ng m0 ed r0 a0 hN hg; rewrite /ModelSim.simulate_step (time_gridP r0 a0 hN hg) [bind _ _]/=.
case: hg => _ ht; have [h0 es sp _ _] := ht; rewrite es.
set U := aones N _; have hu : as_input N (smn G) (N2 U) U by split; rewrite ?wfa_mk //; left.
have hv : as_vector None (0 : 'cV[R]_(snn G)) by [].
have [_ [y [f1 f2 f3]]] := sim_disc w ng m0 ed r0 a0 hN hu ht (or_intror erefl) hv.
exists y; split=> // j k hk; have [_ ->//] := f3 j (ltn_ord j).
rewrite (eq_response _ _ _ _ _ (v := fun l => delta_mx j 0)).
  by rewrite response_const mulmx_suml; apply: eq_bigr => i _; rewrite -colE.
move=> l hl; apply/matrixP => i c; rewrite !mxE [c]ord1 eqxx andbT -val_eqE /=; case: eqP => // _.
by rewrite get_mk // (leq_ltn_trans hl).
Qed.

(* the time argument *)
Lemma time_refused m dt u t : is_ok (check_u_t m dt u (Some (N1 t))) ->
  [/\ (1 < size t)%N, 0 < nth 0 t 1 - nth 0 t 0,
   (forall k, (k.+1 < size t)%N -> `|(nth 0 t k.+1 - nth 0 t k) - (nth 0 t 1 - nth 0 t 0)| <= atol + rtol * `|nth 0 t 1 - nth 0 t 0|) &
   forall d, dt = Some d -> `|d - (nth 0 t 1 - nth 0 t 0)| <= atol + rtol * `|nth 0 t 1 - nth 0 t 0|].
Proof.
rewrite /ModelSim.check_u_t; have [s1|s1] := ltnP 1 (size t); last first.
  by case: t s1 => [|a [|b t]].
rewrite squeeze_list //; case ed: (diff t) => [//|d0 td].
have e0 : d0 = nth 0 t 1 - nth 0 t 0.
  by have := congr1 (fun s => nth 0 s 0) ed; rewrite /= nth_mkseq //; case: (t) s1 => [|? []].
case h1: (all _ _) => //=; case h2: (0 < d0) => //=; case h3: (match dt with Some _ => _ | None => _ end) => //= _.
rewrite -e0; split=> // [k hk|d edt]; last by move: h3; rewrite edt.
have : all (fun d => isclose rtol atol d d0) (diff t) by rewrite ed; exact: h1.
have hk' : (k < (size t).-1)%N by lia.
by move/(all_nthP 0)/(_ k); rewrite size_mkseq nth_mkseq //; apply.
Qed.

End Sim.
