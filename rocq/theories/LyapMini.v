(* The small equations of ModelLyap.v: what each mini_sylvester returns. *)
From mathcomp Require Import all_ssreflect all_algebra zify.
From Verif Require Import Base BaseTheory RingTac AuxTheory ModelLyap.

Set Implicit Arguments.
Unset Strict Implicit.
Unset Printing Implicit Defensive.

Import GRing.Theory Num.Theory.
Local Open Scope ring_scope.

Section Mini.
Variable R : realFieldType.
Implicit Types (A B X Y Yt x : arr R) (p q i j k l : nat).

(* x is a p x q solution of  Yt + sum kap x = 0 *)
Definition msol (kap : nat -> nat -> nat -> nat -> R) p q Yt x :=
  [/\ wfa x, nr x = p, nc x = q &
      forall i j, (i < p)%N -> (j < q)%N ->
        get Yt i j + sumN p (fun k => sumN q (fun l => kap k l i j * get x k l)) = 0].

Definition sq p A := wfa A /\ nr A = p /\ nc A = p.

Lemma np_solve_get n k A B X : nr A = n -> nc B = k -> np_solve A B = Ok X ->
  [/\ wfa X, nr X = n, nc X = k &
     forall i j, (i < n)%N -> (j < k)%N -> sumN n (fun l => get A i l * get X l j) = get B i j].
Proof.
move=> An Bk E; have [w r c U M] := np_solve_ok [rmorphism of @idfun R] An Bk E; split=> // i j hi hj.
have : mxof [rmorphism of @idfun R] n n A *m mxof [rmorphism of @idfun R] n k X = mxof [rmorphism of @idfun R] n k B.
  by rewrite M mulKVmx.
move/matrixP/(_ (Ordinal hi) (Ordinal hj)); rewrite !mxE sumNE => e; apply: etrans e.
by apply: eq_bigr => l _; rewrite !mxE.
Qed.

Lemma sdiv_ok (a b : R) x : sdiv a b = Ok x -> x = of_rows [:: [:: a / b]] /\ b != 0.
Proof. by rewrite /sdiv; case: eqP => // /eqP h [<-]. Qed.

(* reading an entry of a literal or of an elementwise expression *)
Lemma getTE A i j : (i < nc A)%N -> (j < nr A)%N -> get (aT A) i j = get A j i.
Proof. exact: get_mk. Qed.
Lemma getNE A i j : (i < nr A)%N -> (j < nc A)%N -> get (aneg A) i j = - get A i j.
Proof. exact: get_mk. Qed.

Lemma lin0 (y e s : R) : e = - y -> s = e -> y + s = 0.
Proof. by move=> -> ->; rewrite subrr. Qed.

Lemma all2lt (P : nat -> nat -> Prop) p q : (0 < p <= 2)%N -> (0 < q <= 2)%N ->
  P 0%N 0%N -> (p = 2%N -> P 1%N 0%N) -> (q = 2%N -> P 0%N 1%N) -> (p = 2%N -> q = 2%N -> P 1%N 1%N) ->
  forall i j, (i < p)%N -> (j < q)%N -> P i j.
Proof.
case: p => [|[|[|p]]] //; case: q => [|[|[|q]]] // _ _ h1 h2 h3 h4 [|[|i]] [|[|j]] //= _ _;
  solve [exact: h1 | exact: h2 | exact: h3 | exact: h4].
Qed.

Lemma solve33_ok m Yt x : size m = 3%N -> solve33 m Yt = Ok x ->
  [/\ wfa x, nr x = 2%N, nc x = 2%N, get x 0 1 = get x 1 0 &
   let r := nth 0 in let s := nth [::] m in
   let v i := r (s i) 0%N * get x 0 0 + (r (s i) 1%N * get x 0 1 + r (s i) 2%N * get x 1 1) in
   [/\ v 0%N = - get Yt 0 0, v 1%N = - get Yt 0 1 & v 2%N = - get Yt 1 1]].
Proof.
move=> sm; rewrite /solve33; set B := of_rows (_ :: _).
case E: (np_solve _ _) => [y|e] //= [<-].
have [] := @np_solve_get 3 1 _ _ _ _ _ E; rewrite ?sm // => wy _ _ h; split=> //=.
have e0 := h 0%N 0%N isT isT; have e1 := h 1%N 0%N isT isT; have e2 := h 2%N 0%N isT isT.
rewrite /sumN /= in e0 e1 e2; rewrite addr0 in e0; rewrite addr0 in e1; rewrite addr0 in e2.
by split; [exact: e0 | exact: e1 | exact: e2].
Qed.

Lemma solve44_ok m Yt x : size m = 4%N -> solve44 m Yt = Ok x ->
  [/\ wfa x, nr x = 2%N, nc x = 2%N &
   let r := nth 0 in let s := nth [::] m in
   let v i := r (s i) 0%N * get x 0 0 + (r (s i) 1%N * get x 0 1 + (r (s i) 2%N * get x 1 0 + r (s i) 3%N * get x 1 1)) in
   [/\ v 0%N = - get Yt 0 0, v 1%N = - get Yt 0 1, v 2%N = - get Yt 1 0 & v 3%N = - get Yt 1 1]].
Proof.
move=> sm; rewrite /solve44; set B := of_rows (_ :: _).
case E: (np_solve _ _) => [y|e] //= [<-].
have [] := @np_solve_get 4 1 _ _ _ _ _ E; rewrite ?sm // => wy _ _ h; split=> //=.
have e0 := h 0%N 0%N isT isT; have e1 := h 1%N 0%N isT isT; have e2 := h 2%N 0%N isT isT; have e3 := h 3%N 0%N isT isT.
rewrite /sumN /= in e0 e1 e2 e3; rewrite addr0 in e0; rewrite addr0 in e1; rewrite addr0 in e2; rewrite addr0 in e3.
by split; [exact: e0 | exact: e1 | exact: e2 | exact: e3].
Qed.

Lemma solveT_ok M Yt x q : nr M = q -> nr Yt = 1%N -> nc Yt = q -> solveT M Yt = Ok x ->
  [/\ wfa x, nr x = 1%N, nc x = q &
     forall j, (j < q)%N -> sumN q (fun l => get M j l * get x 0 l) = - get Yt 0 j].
Proof.
move=> Mq Y1 Yq; rewrite /solveT; case E: (np_solve _ _) => [y|e] //= [<-].
have [wy ry cy h] := np_solve_get Mq (Y1 : nc (aneg (aT Yt)) = 1%N) E.
split; [exact: wfa_mk | by rewrite /= cy | by rewrite /= ry | move=> j hj].
have := h j 0%N hj isT; rewrite getNE ?getTE /= ?Y1 ?Yq // => <-.
by rewrite !sumNE; apply: eq_bigr => l _; rewrite getTE ?ry ?cy.
Qed.

Lemma solve2_ok M Yt x : nr M = 2%N -> nr Yt = 2%N -> nc Yt = 1%N -> np_solve M (aneg Yt) = Ok x ->
  [/\ wfa x, nr x = 2%N, nc x = 1%N &
     forall i, (i < 2)%N -> get M i 0 * get x 0 0 + get M i 1 * get x 1 0 = - get Yt i 0].
Proof.
move=> M2 Y2 Y1 E; have [wy ry cy h] := np_solve_get M2 (Y1 : nc (aneg Yt) = 1%N) E.
by split=> // i hi; have := h i 0%N hi isT; rewrite /sumN /= addr0 => ->; rewrite getNE ?Y2 ?Y1.
Qed.

Lemma msol11 kap Yt (a b : R) : b != 0 -> kap 0%N 0%N 0%N 0%N = b -> a = - get Yt 0 0 ->
  msol kap 1 1 Yt (of_rows [:: [:: a / b]]).
Proof.
move=> b0 kb ->; split=> // -[|i] // [|j] // _ _; rewrite /sumN /= !addr0 kb.
by rewrite [get (of_rows _) 0 0]/(- get Yt 0 0 / b) mulrC divfK // subrr.
Qed.

Lemma msol22 kap Yt x : wfa x -> nr x = 2%N -> nc x = 2%N ->
  (forall i j, (i < 2)%N -> (j < 2)%N ->
     kap 0%N 0%N i j * get x 0 0 + (kap 0%N 1%N i j * get x 0 1 + (kap 1%N 0%N i j * get x 1 0 + kap 1%N 1%N i j * get x 1 1))
     = - get Yt i j) -> msol kap 2 2 Yt x.
Proof. by move=> h1 h2 h3 h; split=> // i j hi hj; rewrite /sumN /= !addr0 -addrA h // subrr. Qed.

Lemma msol21 kap Yt x : wfa x -> nr x = 2%N -> nc x = 1%N ->
  (forall i, (i < 2)%N -> kap 0%N 0%N i 0%N * get x 0 0 + kap 1%N 0%N i 0%N * get x 1 0 = - get Yt i 0) ->
  msol kap 2 1 Yt x.
Proof. by move=> h1 h2 h3 h; split=> // i [|j] hi // _; rewrite /sumN /= !addr0 h // subrr. Qed.

Lemma msol12 kap Yt x : wfa x -> nr x = 1%N -> nc x = 2%N ->
  (forall j, (j < 2)%N -> sumN 2 (fun l => kap 0%N l 0%N j * get x 0 l) = - get Yt 0 j) -> msol kap 1 2 Yt x.
Proof. by move=> h1 h2 h3 h; split=> // -[|i] j // _ hj; rewrite {1}/sumN /= addr0 h // subrr. Qed.

Lemma two (P : nat -> Prop) : P 0%N -> P 1%N -> forall i, (i < 2)%N -> P i.
Proof. by move=> h0 h1 [|[|i]]. Qed.

Lemma two2 (P : nat -> nat -> Prop) : P 0%N 0%N -> P 0%N 1%N -> P 1%N 0%N -> P 1%N 1%N ->
  forall i j, (i < 2)%N -> (j < 2)%N -> P i j.
Proof. by move=> h0 h1 h2 h3 [|[|i]] [|[|j]]. Qed.

(* a symmetric p x p array *)
Definition symm p Y := forall i j, (i < p)%N -> (j < p)%N -> get Y i j = get Y j i.

Lemma symm1 Y : symm 1 Y. Proof. by move=> [|i] [|j]. Qed.
Lemma symm2 Y : get Y 0 1 = get Y 1 0 -> symm 2 Y. Proof. by move=> e; apply: two2. Qed.

(* the kernels of the four equations on blocks *)
Definition kC (Al Ar : arr R) k l i j : R := get Al k i * (l == j)%:R + (k == i)%:R * get Ar l j.
Definition kD (Al Ar : arr R) k l i j : R := get Al k i * get Ar l j - (k == i)%:R * (l == j)%:R.
(* P' X Q + U' X V *)
Definition kGC (P Q U V : arr R) k l i j : R := get P k i * get Q l j + get U k i * get V l j.
Definition kGD (P Q U V : arr R) k l i j : R := get P k i * get Q l j - get U k i * get V l j.


Lemma geta A B i j : (i < nr A)%N -> (j < nc A)%N -> get (aadd A B) i j = get A i j + get B i j.
Proof. exact: get_mk. Qed.
Lemma gets A B i j : (i < nr A)%N -> (j < nc A)%N -> get (asub A B) i j = get A i j - get B i j.
Proof. exact: get_mk. Qed.
Lemma getc (c : R) A i j : (i < nr A)%N -> (j < nc A)%N -> get (ascale c A) i j = c * get A i j.
Proof. exact: get_mk. Qed.
Lemma gete n i j : (i < n)%N -> (j < n)%N -> get (aeye n : arr R) i j = (i == j)%:R.
Proof. exact: get_mk. Qed.

Ltac atomize := repeat match goal with |- context [get ?A ?i ?j] => let x := fresh in set x := get A i j; clearbody x end.
Ltac fin0 := rewrite /kC /kD /kGC /kGD /=; atomize; mc_ring R.
Ltac fin e := rewrite -[RHS]e /=; fin0.
Ltac gsimp := rewrite ?geta ?gets ?getc ?getTE ?gete /=.
Ltac szs := change (2 * 2 == 4)%N with true; change (1 * 1 == 4)%N with false; change (2 * 2 == 1)%N with false;
  change (1 * 1 == 1)%N with true; cbv iota.

Lemma c_mini_gen p q Al Ar Yt x : (0 < p <= 2)%N -> (0 < q <= 2)%N -> sq p Al -> sq q Ar -> nr Yt = p -> nc Yt = q ->
  c_mini Ar Yt (Some Al) = Ok x -> msol (kC Al Ar) p q Yt x.
Proof.
move=> hp hq [_ [rl cl]] [_ [rr cr]] ry cy; rewrite /c_mini /asize rl cl rr cr.
case: p hp rl cl ry => [|[|[|p]]] // _ rl cl ry; case: q hq rr cr cy => [|[|[|q]]] // _ rr cr cy; szs.
- by move/sdiv_ok => [-> h]; apply: msol11 => //; fin0.
- move=> E; have [||//|wx rx cx h] := @solveT_ok _ _ _ 2 _ _ _ E => //; apply: msol12 => // j hj.
  by rewrite -h // /sumN /=; move: j hj; apply: two; gsimp; rewrite ?rr ?cr //; fin0.
- move=> E; have [|//|//|wx rx cx h] := @solve2_ok _ _ _ _ _ _ E; first by rewrite /= ?rl ?cl.
  apply: msol21 => // i hi; rewrite -h //.
  by move: i hi; apply: two; gsimp; rewrite ?rl ?cl //; fin0.
- move/solve44_ok => [] // wx rx cx [e0 e1 e2 e3]; apply: msol22 => //.
  by apply: two2; [fin e0 | fin e1 | fin e2 | fin e3].
Qed.

Lemma c_mini_sym p A Yt x : (0 < p <= 2)%N -> sq p A -> symm p Yt ->
  c_mini A Yt None = Ok x -> msol (kC A A) p p Yt x /\ symm p x.
Proof.
move=> hp [_ [rl cl]] ys; rewrite /c_mini /asize rl cl.
case: p hp rl cl ys => [|[|[|p]]] // _ rl cl ys; szs.
- by move/sdiv_ok => [-> h]; split; [apply: msol11 => //; fin0 | exact: symm1].
- move/solve33_ok => [] // wx rx cx xs [e0 e1 e2]; split; last exact: symm2.
  apply: msol22 => //; rewrite -xs; apply: two2; rewrite -?(ys 0%N 1%N) //; [fin e0 | fin e1 | fin e1 | fin e2].
Qed.

Lemma d_mini_gen p q Al Ar Yt x : (0 < p <= 2)%N -> (0 < q <= 2)%N -> sq p Al -> sq q Ar -> nr Yt = p -> nc Yt = q ->
  d_mini Al Yt (Some Ar) = Ok x -> msol (kD Al Ar) p q Yt x.
Proof.
move=> hp hq [_ [rl cl]] [_ [rr cr]] ry cy; rewrite /d_mini /asize rl cl rr cr.
case: p hp rl cl ry => [|[|[|p]]] // _ rl cl ry; case: q hq rr cr cy => [|[|[|q]]] // _ rr cr cy; szs.
- by move/sdiv_ok => [-> h]; apply: msol11 => //; fin0.
- move=> E; have [||//|wx rx cx h] := @solveT_ok _ _ _ 2 _ _ _ E => //; apply: msol12 => // j hj.
  by rewrite -h // /sumN /=; move: j hj; apply: two; gsimp; rewrite ?rr ?cr //; fin0.
- move=> E; have [|//|//|wx rx cx h] := @solve2_ok _ _ _ _ _ _ E; first by rewrite /= ?rl ?cl.
  apply: msol21 => // i hi; rewrite -h //.
  by move: i hi; apply: two; gsimp; rewrite ?rl ?cl //; fin0.
- move/solve44_ok => [] // wx rx cx [e0 e1 e2 e3]; apply: msol22 => //.
  by apply: two2; [fin e0 | fin e1 | fin e2 | fin e3].
Qed.

Lemma d_mini_sym p A Yt x : (0 < p <= 2)%N -> sq p A -> symm p Yt ->
  d_mini A Yt None = Ok x -> msol (kD A A) p p Yt x /\ symm p x.
Proof.
move=> hp [_ [rl cl]] ys; rewrite /d_mini /asize rl cl.
case: p hp rl cl ys => [|[|[|p]]] // _ rl cl ys; szs.
- by move/sdiv_ok => [-> h]; split; [apply: msol11 => //; fin0 | exact: symm1].
- move/solve33_ok => [] // wx rx cx xs [e0 e1 e2]; split; last exact: symm2.
  apply: msol22 => //; rewrite -xs; apply: two2; rewrite -?(ys 0%N 1%N) //; [fin e0 | fin e1 | fin e1 | fin e2].
Qed.

Lemma gc_mini_gen p q P Q U V Yt x : (0 < p <= 2)%N -> (0 < q <= 2)%N -> sq p P -> sq q Q -> sq p U -> sq q V -> nr Yt = p -> nc Yt = q ->
  gc_mini P Q Yt (Some (U, V)) = Ok x -> msol (kGC P Q U V) p q Yt x.
Proof.
move=> hp hq [_ [rp cp]] [_ [rq cq]] [_ [ru cu]] [_ [rv cv]] ry cy; rewrite /gc_mini /asize rp cp rq cq.
case: p hp rp cp ru cu ry => [|[|[|p]]] // _ rp cp ru cu ry; case: q hq rq cq rv cv cy => [|[|[|q]]] // _ rq cq rv cv cy; szs.
- by move/sdiv_ok => [-> h]; apply: msol11 => //; fin0.
- move=> E; have [||//|wx rx cx h] := @solveT_ok _ _ _ 2 _ _ _ E => //; apply: msol12 => // j hj.
  by rewrite -h // /sumN /=; move: j hj; apply: two; gsimp; rewrite ?rq ?cq ?rv ?cv //; fin0.
- move=> E; have [|//|//|wx rx cx h] := @solve2_ok _ _ _ _ _ _ E; first by rewrite /= ?rp ?cp ?ru ?cu.
  apply: msol21 => // i hi; rewrite -h //.
  by move: i hi; apply: two; gsimp; rewrite ?rp ?cp ?ru ?cu //; fin0.
- move/solve44_ok => [] // wx rx cx [e0 e1 e2 e3]; apply: msol22 => //.
  by apply: two2; [fin e0 | fin e1 | fin e2 | fin e3].
Qed.

Lemma gc_mini_sym p P Q Yt x : (0 < p <= 2)%N -> sq p P -> sq p Q -> symm p Yt ->
  gc_mini P Q Yt None = Ok x -> msol (kGC P Q Q P) p p Yt x /\ symm p x.
Proof.
move=> hp [_ [rl cl]] [_ [rr cr]] ys; rewrite /gc_mini /asize rl cl.
case: p hp rl cl rr cr ys => [|[|[|p]]] // _ rl cl rr cr ys; szs.
- by move/sdiv_ok => [-> h]; split; [apply: msol11 => //; fin0 | exact: symm1].
- move/solve33_ok => [] // wx rx cx xs [e0 e1 e2]; split; last exact: symm2.
  apply: msol22 => //; rewrite -xs; apply: two2; rewrite -?(ys 0%N 1%N) //; [fin e0 | fin e1 | fin e1 | fin e2].
Qed.

Lemma gd_mini_gen p q P Q U V Yt x : (0 < p <= 2)%N -> (0 < q <= 2)%N -> sq p P -> sq q Q -> sq p U -> sq q V -> nr Yt = p -> nc Yt = q ->
  gd_mini Q V Yt (Some (P, U)) = Ok x -> msol (kGD P Q U V) p q Yt x.
Proof.
move=> hp hq [_ [rp cp]] [_ [rq cq]] [_ [ru cu]] [_ [rv cv]] ry cy; rewrite /gd_mini /asize rp cp rq cq.
case: p hp rp cp ru cu ry => [|[|[|p]]] // _ rp cp ru cu ry; case: q hq rq cq rv cv cy => [|[|[|q]]] // _ rq cq rv cv cy; szs.
- by move/sdiv_ok => [-> h]; apply: msol11 => //; fin0.
- move=> E; have [||//|wx rx cx h] := @solveT_ok _ _ _ 2 _ _ _ E => //; apply: msol12 => // j hj.
  by rewrite -h // /sumN /=; move: j hj; apply: two; gsimp; rewrite ?rq ?cq ?rv ?cv //; fin0.
- move=> E; have [|//|//|wx rx cx h] := @solve2_ok _ _ _ _ _ _ E; first by rewrite /= ?rp ?cp ?ru ?cu.
  apply: msol21 => // i hi; rewrite -h //.
  by move: i hi; apply: two; gsimp; rewrite ?rp ?cp ?ru ?cu //; fin0.
- move/solve44_ok => [] // wx rx cx [e0 e1 e2 e3]; apply: msol22 => //.
  by apply: two2; [fin e0 | fin e1 | fin e2 | fin e3].
Qed.

Lemma gd_mini_sym p P Q Yt x : (0 < p <= 2)%N -> sq p P -> sq p Q -> symm p Yt ->
  gd_mini P Q Yt None = Ok x -> msol (kGD P P Q Q) p p Yt x /\ symm p x.
Proof.
move=> hp [_ [rl cl]] [_ [rr cr]] ys; rewrite /gd_mini /asize rl cl.
case: p hp rl cl rr cr ys => [|[|[|p]]] // _ rl cl rr cr ys; szs.
- by move/sdiv_ok => [-> h]; split; [apply: msol11 => //; fin0 | exact: symm1].
- move/solve33_ok => [] // wx rx cx xs [e0 e1 e2]; split; last exact: symm2.
  apply: msol22 => //; rewrite -xs; apply: two2; rewrite -?(ys 0%N 1%N) //; [fin e0 | fin e1 | fin e1 | fin e2].
Qed.
End Mini.
