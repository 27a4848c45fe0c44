(* C65: controllability_indices. *)
From mathcomp Require Import all_ssreflect all_algebra zify.
From Verif Require Import Base BaseTheory SpecSim ModelSim ModelCi SpecCi CiTheory.

Set Implicit Arguments.
Unset Strict Implicit.
Unset Printing Implicit Defensive.

Import Order.TTheory GRing.Theory Num.Theory.
Local Open Scope ring_scope.

Section C65.
Variable R : realFieldType.
Variable qrp : arr R -> arr R * arr R * seq nat.
Variable sq : R -> R.
Variable spnorm : arr R -> R.
Variable sqeps : R.
Local Notation ci := (controllability_indices qrp sq spnorm sqeps).
Local Notation exact := (ci_exact qrp sq spnorm).
(* the tolerance in use *)
Local Notation tolOf n tol := (odflt (sqeps * n%:R ^+ 2) tol).

(* A result comes out exactly for a square A with as many rows as B. *)
Theorem C65_returns (A B : arr R) tol :
  is_ok (ci A B tol) = (nr A == nc A) && (nr A == nr B) /\
  (nr A <> nc A -> ci A B tol = Err LinAlgError) /\ (nr A = nc A -> nr A <> nr B -> ci A B tol = Err ValueError).
Proof.
rewrite /controllability_indices; case: eqP => h1; case: eqP => h2 //=.
Qed.

Lemma ci_inv n m (A B : arr R) tol inds : shp A = (n, n) -> shp B = (n, m) -> 0 <= tolOf n tol -> exact (tolOf n tol) A B ->
  ci A B tol = Ok inds -> exists q sel, @core R n m A B q sel inds /\ forall j, (j < m)%N -> @dep R n A B sel inds j.
Proof.
move=> sA sB t0 [qok sp gap nt]; have [rA cA] := sA; have [rB cB] := sB.
rewrite /controllability_indices rA cA rB !eqxx; cbn [negb bind]; move=> [<-].
have [q0 [rc0 [inds0 [e0 l0]]]] := startP A sB qok sp gap; rewrite rB in nt.
rewrite e0 in nt *; have [|q [rc [inds' [sel [e1 c1 d1]]]]] := loopP t0 sA l0 _ nt; first by case: (n).
by rewrite e1; exists q, sel.
Qed.

(* The vectors A^k b_j with k below the j-th index are independent and span everything that the inputs reach; for every K
   the indices cut off at K add up to the rank of [B, AB, ..., A^(K-1)B]; the sum of the indices is the rank of
   [B, AB, ..., A^(n-1)B]. *)
Theorem C65_indices n m (A B : arr R) tol inds : shp A = (n, n) -> shp B = (n, m) ->
  0 <= tolOf n tol -> exact (tolOf n tol) A B -> ci A B tol = Ok inds ->
  [/\ size inds = m, free (chains (amx n n A) (amx n m B) (nth 0%N inds)),
      (forall k (j : 'I_m), mpow (amx n n A) k *m col j (amx n m B) \in <<chains (amx n n A) (amx n m B) (nth 0%N inds)>>%VS),
      (forall K, sumn [seq minn d K | d <- inds] = \rank (kry (amx n n A) (amx n m B) K)) &
      sumn inds = \rank (kry (amx n n A) (amx n m B) n)].
Proof.
move=> sA sB t0 ex E; have [q [sel [hc hd]]] := ci_inv sA sB t0 ex E; split.
- by have [_ _ _ []] := hc.
- exact: final_free hc.
- exact: final_span hc hd.
- by move=> K; rewrite (final_rank hc hd).
exact: final_sum hc hd.
Qed.

(* The indices add up to n exactly for controllable pairs. *)
Theorem C65_controllable n m (A B : arr R) tol inds : shp A = (n, n) -> shp B = (n, m) ->
  0 <= tolOf n tol -> exact (tolOf n tol) A B -> ci A B tol = Ok inds ->
  (sumn inds == n) = row_full (kry (amx n n A) (amx n m B) n)^T.
Proof.
move=> sA sB t0 ex E; have [_ _ _ _ ->] := C65_indices sA sB t0 ex E.
by rewrite /row_full mxrank_tr.
Qed.
End C65.
Print Assumptions C65_returns.
Print Assumptions C65_indices.
Print Assumptions C65_controllable.

(* Up to their order the indices depend neither on the factorization nor on the tolerance, nor on a change of the state and
   input coordinates, nor on state feedback. *)
Theorem C65_invariant (R : realFieldType) qrp1 sq1 spnorm1 sqeps1 qrp2 sq2 spnorm2 sqeps2 n m (A1 B1 A2 B2 : arr R) tol1 tol2 inds1 inds2
    (T : 'M[R]_n) (F : 'M[R]_(m, n)) (G : 'M[R]_m) :
  shp A1 = (n, n) -> shp B1 = (n, m) -> shp A2 = (n, n) -> shp B2 = (n, m) -> T \in unitmx -> G \in unitmx ->
  amx n n A2 = T *m (amx n n A1 + amx n m B1 *m F) *m invmx T -> amx n m B2 = T *m amx n m B1 *m G ->
  0 <= odflt (sqeps1 * n%:R ^+ 2) tol1 -> ci_exact qrp1 sq1 spnorm1 (odflt (sqeps1 * n%:R ^+ 2) tol1) A1 B1 ->
  0 <= odflt (sqeps2 * n%:R ^+ 2) tol2 -> ci_exact qrp2 sq2 spnorm2 (odflt (sqeps2 * n%:R ^+ 2) tol2) A2 B2 ->
  controllability_indices qrp1 sq1 spnorm1 sqeps1 A1 B1 tol1 = Ok inds1 ->
  controllability_indices qrp2 sq2 spnorm2 sqeps2 A2 B2 tol2 = Ok inds2 -> perm_eq inds1 inds2.
Proof.
move=> sA1 sB1 sA2 sB2 Tu Gu eA eB t1 x1 t2 x2 E1 E2.
have [s1 _ _ r1 _] := C65_indices sA1 sB1 t1 x1 E1; have [s2 _ _ r2 _] := C65_indices sA2 sB2 t2 x2 E2.
apply: min_sums_perm => [|K]; first by rewrite s1 s2.
by rewrite r1 r2 eA eB; apply: rank_fb_eq.
Qed.
Print Assumptions C65_invariant.

(* ---- a concrete pair with exact decisions ---- *)
Section Check.
Variable R : realFieldType.
Definition qrp_chk (B : arr R) (f : arr R * arr R * seq nat) : bool :=
  let: (q, r, p) := f in let l := minn (nr B) (nc B) in
  [&& shp q == (nr B, l), shp r == (l, nc B),
      all (fun a => all (fun b => sumN (nr B) (fun i => get q i a * get q i b) == (a == b)%:R) (iota 0 l)) (iota 0 l),
      perm_eq p (iota 0 (nc B)),
      all (fun i => all (fun j => get B i (nth 0%N p j) == sumN l (fun k => get q i k * get r k j)) (iota 0 (nc B))) (iota 0 (nr B)),
      all (fun k => all (fun j => get r k j == 0) (iota 0 k)) (iota 0 l) &
      all (fun i => all (fun k => all (fun j => (i <= k)%N && (i <= j)%N ==> (`|get r k j| <= `|get r i i|)) (iota 0 (nc B))) (iota 0 l))
        (iota 0 l)].
Lemma qrp_chk_ok B f : qrp_chk B f -> qrp_ok B f.
Proof.
case: f => [[q r] p] /and5P[/eqP s1 /eqP s2 /allP oq pp /and3P[/allP ef /allP tr /allP pv]].
have io N x : (x < N)%N -> x \in iota 0 N by rewrite mem_iota add0n.
split=> //.
- by move=> a b ha hb; have /allP/(_ b (io _ _ hb))/eqP := oq a (io _ _ ha); rewrite sumNE.
- by move=> i j hi hj; have /allP/(_ j (io _ _ hj))/eqP := ef i (io _ _ hi); rewrite sumNE.
split=> [k j hj hk|i k j ik hk ij hj]; first by have /allP/(_ j (io _ _ hj))/eqP := tr k (io _ _ hk).
have hi := leq_ltn_trans ik hk.
by have /allP/(_ k (io _ _ hk))/allP/(_ j (io _ _ hj)) := pv i (io _ _ hi); rewrite ik ij.
Qed.

Definition norm_chk (sq : R -> R) (tol : R) (w : arr R) : bool :=
  let s := sumN (nr w) (fun i => get w i 0 ^+ 2) in [&& 0 <= sq s, sq s ^+ 2 == s & (sq s == 0) || (tol < sq s)].
Definition ci_chk qrp sq (spnorm : arr R -> R) tol (A B : arr R) : bool :=
  [&& qrp_chk B (qrp B), 0 <= spnorm B,
      all (fun i => let x := get (qrp B).1.2 i i in (x == 0) || ((maxn (nc B) (nr B))%:R * spnorm B < `|x|)) (iota 0 (minn (nr B) (nc B))) &
      all (norm_chk sq tol) (loop_tests sq (nr B).-1 tol A (ci_start qrp spnorm B))].
Lemma ci_chk_ok qrp sq spnorm tol A B : ci_chk qrp sq spnorm tol A B -> ci_exact qrp sq spnorm tol A B.
Proof.
move=> /and4P[/qrp_chk_ok h1 h2 /allP h3 h4]; split=> //.
  move=> i hi /=; have /h3 : i \in iota 0 (minn (nr B) (nc B)) by rewrite mem_iota add0n.
  by case/orP => [/eqP|]; [left | right].
elim: (loop_tests _ _ _ _ _) h4 => // x l IH /= /andP[/and3P[a1 /eqP a2 a3] hl] w [<-|/(IH hl)//].
by split=> //; case/orP: a3 => [/eqP|]; [left | right].
Qed.
End Check.

Local Notation Q := rat_realFieldType.
Definition ex_A : arr Q := of_rows [:: [:: 0; 0; 0]; [:: 0; 0; 0]; [:: 0; 1; 0]].
Definition ex_B : arr Q := of_rows [:: [:: 1; 3%:R]; [:: 0; 4%:R]; [:: 0; 0]].
Definition ex_qr (B : arr Q) : arr Q * arr Q * seq nat :=
  (of_rows [:: [:: 3%:R / 5%:R; 4%:R / 5%:R]; [:: 4%:R / 5%:R; - (3%:R / 5%:R)]; [:: 0; 0]],
   of_rows [:: [:: 5%:R; 3%:R / 5%:R]; [:: 0; 4%:R / 5%:R]], [:: 1; 0]%N).
Definition ex_sq (x : Q) : Q := if x == 16%:R / 25%:R then 4%:R / 5%:R else 0.
Definition ex_sp (B : arr Q) : Q := 1 / 100%:R.

Example C65_ex : ci_exact ex_qr ex_sq ex_sp (1 / 100%:R) ex_A ex_B /\
  controllability_indices ex_qr ex_sq ex_sp 0 ex_A ex_B (Some (1 / 100%:R)) = Ok [:: 1; 2]%N.
Proof.
split; first by apply: ci_chk_ok; vm_compute.
by rewrite /controllability_indices; cbn [negb bind]; congr Ok; vm_compute.
Qed.

(* the same pair with the inputs exchanged *)
Definition ex_B2 : arr Q := of_rows [:: [:: 3%:R; 1]; [:: 4%:R; 0]; [:: 0; 0]].
Definition ex_qr2 (B : arr Q) := ((ex_qr B).1, [:: 0; 1]%N).
Example C65_invariant_ex : [/\ ci_exact ex_qr2 ex_sq ex_sp (1 / 100%:R) ex_A ex_B2,
  controllability_indices ex_qr2 ex_sq ex_sp 0 ex_A ex_B2 (Some (1 / 100%:R)) = Ok [:: 2; 1]%N &
  exists2 G : 'M[Q]_2, G \in unitmx & amx 3 2 ex_B2 = 1%:M *m amx 3 2 ex_B *m G].
Proof.
split; first by apply: ci_chk_ok; vm_compute.
  by rewrite /controllability_indices; cbn [negb bind]; congr Ok; vm_compute.
exists (tperm_mx 0 1); first exact: unitmx_perm.
rewrite mul1mx -xcolE; apply/matrixP => i j; rewrite !mxE.
by case: i => [[|[|[|i]]] hi] //; case: j => [[|[|j]] hj] //; rewrite perm.permE /=; apply/eqP; vm_compute.
Qed.

(* The documentation tests the columns of [B, AB, ...] from left to right.  The indices are assigned in the order of the
   pivots instead: here B = [1, 2], and the first column, which has none to its left, gets the index 0. *)
Theorem C73_order_refuted : exists (A B : arr Q) inds,
  [/\ shp A = (1, 1)%N, shp B = (1, 2)%N, get B 0 0 != 0,
      exists qrp sq spnorm, ci_exact qrp sq spnorm 0 A B &
      nth 0%N inds 0 = 0%N /\ forall qrp sq spnorm sqeps, ci_exact qrp sq spnorm 0 A B ->
        controllability_indices qrp sq spnorm sqeps A B (Some 0) = Ok inds].
Proof.
exists (of_rows [:: [:: 0]]), (of_rows [:: [:: 1; 2%:R]]), [:: 0; 1]%N; split=> //.
  exists (fun _ => (of_rows [:: [:: 1]], of_rows [:: [:: 2%:R; 1]], [:: 1; 0]%N)), (fun _ => 0), (fun _ => 1 / 10%:R).
  by apply: ci_chk_ok; vm_compute.
split=> // qrp sq spnorm sqeps [qok sp gap _].
rewrite /controllability_indices; cbn [negb bind]; congr Ok; rewrite /ci_loop /= /ci_start.
move: qok (gap 0%N isT); case: (qrp _) => [[q r] p] /= [_ oq pp ef [_ pv]] g.
have o1 : get q 0 0 ^+ 2 = 1 by have := oq 0%N 0%N isT isT; rewrite big_ord1 expr2.
have q0 : get q 0 0 != 0 by apply/eqP => e; move: o1; rewrite e expr0n.
have n1 : `|get q 0 0| = 1.
  by apply/eqP; rewrite -(eqr_expn2 (ltn0Sn 1)) ?expr1n // -normrX o1 normr1.
have rE j : (j < 2)%N -> `|get r 0 j| = `|get (of_rows [:: [:: 1; 2%:R]] : arr Q) 0 (nth 0%N p j)|.
  by move=> hj; rewrite (ef 0%N j isT hj) big_ord1 normrM n1 mul1r.
have sp2 : size p = 2%N by rewrite (perm_size pp).
case: p pp sp2 ef rE => [|a [|b [|c p]]] // pp _ ef rE.
have := pv 0%N 0%N 1%N isT isT isT isT; rewrite !rE //.
have hab : (a == 1%N) && (b == 0%N) || (a == 0%N) && (b == 1%N).
  by have := perm_mem pp 0%N; have := perm_mem pp 1%N; rewrite !inE; clear; case: a => [|[|a]]; case: b => [|[|b]].
case/orP: hab rE => /andP[/eqP-> /eqP->] //= rE _; rewrite /rank_b /=.
case: g => [h|->] //.
by have := rE 0%N isT; rewrite h normr0 => e; exfalso; have : 0 = 2%:R :> Q by rewrite [LHS]e.
Qed.
Print Assumptions C73_order_refuted.
