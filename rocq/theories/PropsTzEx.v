(* C77: cases that meet the hypotheses, and the limits of transmission_zeros. *)
From mathcomp Require Import all_ssreflect all_algebra zify.
From Verif Require Import Base BaseTheory Spec ModelState Denote StateTheory ModelAux SpecSim RingTac SpecConvert ConvertTf KalmanTheory SpecMin ModelTz SpecTz TzTheory TzFinal PropsTz PropsTzS.

Set Implicit Arguments.
Unset Strict Implicit.
Unset Printing Implicit Defensive.

Import Order.TTheory GRing.Theory Num.Theory.
Local Open Scope ring_scope.
Local Notation Q := rat_realFieldType.

(* boolean forms of the hypotheses *)
Section Dec.
Variable R : realFieldType.
Variable npsvd : arr R -> arr R * seq R * arr R.
Variable spac : R.
Variable meps : arr R -> arr R -> arr R -> R.

Definition svdb (M : arr R) : bool :=
  let: (u, s, v) := npsvd M in
  [&& wfa M, wfa u, shp u == (nr M, nr M), wfa v & shp v == (nc M, nc M)] &&
  [&& aeq (amul (aT u) u) (aeye (nr M)), aeq (amul v (aT v)) (aeye (nc M)), size s == minn (nr M) (nc M),
      all (fun x => 0 <= x) s & sorted (fun x y => y <= x) s] &&
  aeq M (amul u (amul (mk (nr M) (nc M) (fun i j => if i == j then nth 0 s i else 0)) v)).
Lemma svdbP M : svdb M -> npsvd_ok M (npsvd M).
Proof.
rewrite /svdb /npsvd_ok; case: (npsvd M) => [[u s] v] /andP[/andP[/and5P[wM wu /eqP su wv /eqP sv] /and5P[e1 e2 /eqP sz po so]] e3].
split=> //; try by apply/aeqP; rewrite ?wfa_mul ?wfa_mk.
Qed.
Definition atb tol M : bool := svdb M && all (fun x => (x == 0) || (tol < x)) (npsvd M).1.2.
Lemma atbP tol M : atb tol M -> svd_at npsvd tol M.
Proof.
by case/andP=> /svdbP h /allP h2; split=> // x hx; have /orP[/eqP|] := h2 x hx; [left | right].
Qed.

Definition stepb tol (A C D : arr R) : bool :=
  (aany D ==> atb tol D) &&
  (if tz_compress npsvd spac tol C D is Ok (Some (Cbd, rD, sigma)) then atb tol (aT (asubm Cbd sigma (nr D) 0 (nr A))) else true).
Lemma stepbP tol A B C D : stepb tol A C D -> step_exact npsvd spac tol A B C D.
Proof.
case/andP=> h1 h2; split=> [aD|Cbd rD sigma E]; first by apply: atbP; rewrite aD in h1.
by rewrite E in h2; apply: atbP.
Qed.
Fixpoint loopb (fuel : nat) tol (S : quad R) : bool :=
  if fuel is c.+1 then
    let: (A, B, C, D) := S in
    stepb tol A C D && (if tz_step npsvd spac tol A B C D is Ok (TzNext S') then loopb c tol S' else true)
  else true.
Lemma loopbP fuel tol S : loopb fuel tol S -> loop_exact npsvd spac fuel tol S.
Proof.
elim: fuel S => // c IH [[[A B] C] D] /andP[h1 h2]; split; first exact: stepbP.
by move=> S' E; rewrite E in h2; apply: IH.
Qed.
Definition redb (A B C D : arr R) : bool := (0 <= meps A B C) && loopb (nr A) (meps A B C) (A, B, C, D).
Lemma redbP A B C D : redb A B C D -> red_exact npsvd spac meps A B C D.
Proof. by case/andP=> h1 h2; split=> //; apply: loopbP. Qed.

(* qz of lower triangular pairs *)
Definition qzt (M N : arr R) : seq (R * R) := mkseq (fun i => (get M i i, get N i i)) (nr M).
Definition ltri (M : arr R) : bool := all (fun i => all (fun j => (i < j)%N ==> (get M i j == 0)) (iota 0 (nr M))) (iota 0 (nr M)).
Lemma qztP M N : ltri M -> ltri N -> nr N = nr M -> qz_ok [rmorphism of @idfun R] M N (qzt M N).
Proof.
move=> hM hN e; split; first by rewrite size_mkseq.
have g (K : arr R) i j : ltri K -> nr K = nr M -> (i < j)%N -> (j < nr M)%N -> get K i j = 0.
  move=> /allP h eK hi hj; rewrite eK in h.
  have i1 : i \in iota 0 (nr M) by rewrite mem_iota add0n (ltn_trans hi hj).
  have j1 : j \in iota 0 (nr M) by rewrite mem_iota add0n hj.
  by have /allP /(_ j j1) := h i i1; rewrite hi => /eqP.
exists 1; split=> [|s]; first exact: oner_neq0.
rewrite mul1r det_trig.
  rewrite /qzt /mkseq big_map (_ : iota 0 (nr M) = index_iota 0 (nr M)) ?big_mkord; last by rewrite /index_iota subn0.
   apply: eq_bigr => i _; by rewrite !mxE.
by apply/is_trig_mxP => i j hij; rewrite !mxE /= !g // mulr0 subr0.
Qed.
Definition finb (A B C D : arr R) : bool :=
  svdb (ahcat D C) &&
  let w := aroll (aT (npsvd (ahcat D C)).2) (nc D) in
  let M := asubm w 0 (nr A) 0 (nr A) in
  let N := asubm (amul (ahcat A B) w) 0 (nr A) 0 (nr A) in
  [&& ltri M, ltri N & nr N == nr M].
Lemma finbP A B C D : finb A B C D -> final_exact [rmorphism of @idfun R] npsvd qzt A B C D.
Proof. by case/andP=> /svdbP h /and3P[h1 h2 /eqP h3]; split=> //; apply: qztP. Qed.

Definition tzb (A B C D : arr R) : bool :=
  atb (smax (npsvd D).1.2 * (maxn (nr D) (nc D))%:R * spac) D &&
  (if res_map snd (haroldsvd npsvd spac D None) is Ok r then
     if tz_direct r (nr D) (nc D) then finb A B C D
     else ((r != nr D) ==> redb A B C D) &&
       (if tz_first npsvd spac meps r A B C D is Ok (Ar, Br, Cr, Dr) then (asize Ar != 0%N) ==>
          redb (aT Ar) (aT Cr) (aT Br) (aT Dr) &&
          (if tz_second npsvd spac meps (Ar, Br, Cr, Dr) is Ok (Ac, Bc, Cc, Dc) then (asize Ac != 0%N) ==> finb Ac Bc Cc Dc else true)
        else true)
   else true).
Lemma tzbP A B C D : tzb A B C D -> tz_exact [rmorphism of @idfun R] npsvd spac meps qzt A B C D.
Proof.
case/andP=> /atbP h1 h2; split=> // r E; rewrite E in h2; move: h2; case: ifP => _; first exact: finbP.
case/andP=> h2 h3; split=> [/eqP ne|Ar Br Cr Dr E1 /eqP n1]; first by apply: redbP; rewrite ne in h2.
rewrite E1 n1 implyTb in h3; case/andP: h3 => /redbP h3 h4; split=> // Ac Bc Cc Dc E2 /eqP n2.
by rewrite E2 n2 implyTb in h4; apply: finbP.
Qed.
Definition regb (A B C D : arr R) (s : R) : bool :=
  let w := aroll (aT (npsvd (ahcat D C)).2) (nc D) in
  let M := asubm w 0 (nr A) 0 (nr A) in
  let N := asubm (amul (ahcat A B) w) 0 (nr A) 0 (nr A) in
  (nr A == 1)%N && (s * get M 0 0 - get N 0 0 != 0).
Lemma regbP A B C D s : regb A B C D s -> final_regular [rmorphism of @idfun R] npsvd A B C D.
Proof.
by case/andP=> /eqP n1 h; exists s; move: h; rewrite n1 det_mx11 !mxE.
Qed.

Definition atfb (P : arr R -> arr R -> arr R -> arr R -> bool) (A B C D : arr R) : bool :=
  if res_map snd (haroldsvd npsvd spac D None) is Ok r then
    if tz_direct r (nr D) (nc D) then P A B C D
    else if tz_first npsvd spac meps r A B C D is Ok S1 then
      if tz_second npsvd spac meps S1 is Ok (Ac, Bc, Cc, Dc) then P Ac Bc Cc Dc else true
    else true
  else true.
Lemma atfbP s A B C D : atfb (fun A B C D => regb A B C D s) A B C D ->
  at_final npsvd spac meps (final_regular [rmorphism of @idfun R] npsvd) A B C D.
Proof.
move=> h r E; move: h; rewrite /atfb E; case: ifP => _; first exact: regbP.
by move=> h S1 [[[Ac Bc] Cc] Dc] E1 E2; move: h; rewrite E1 E2; apply: regbP.
Qed.

(* the system matrix as an array *)
Definition sysarr (A B C D : arr R) s : arr R := avcat (ahcat (asub A (ascale s (aeye (nr A)))) B) (ahcat C D).
Local Notation mx := (mxof [rmorphism of @idfun R]).
Lemma sysarrE n m p A B C D s : shp A = (n, n) -> shp B = (n, m) -> shp C = (p, n) -> shp D = (p, m) ->
  sysmx (mx n n A) (mx n m B) (mx p n C) (mx p m D) s = mx (n + p) (n + m) (sysarr A B C D s).
Proof.
move=> [rA cA] [rB cB] [rC cC] [rD cD]; rewrite /sysmx /sysarr (@mxof_vcat _ _ _ n p (n + m)) //=; try by rewrite ?cA ?cB.
rewrite (@mxof_hcat _ _ _ n n m) //= (@mxof_hcat _ _ _ p n m) // /block_mx; congr (col_mx (row_mx _ _) _).
by rewrite (@mxof_sub _ _ _ n n) // rA (@mxof_scale _ _ _ s n n) // mxof_eye scalemx1.
Qed.
Lemma rank_full a b (X : arr R) : shp X = (a, b) -> adet (amul (aT X) X) != 0 -> \rank (mx a b X) = b.
Proof.
move=> [ra cb] h; apply/eqP; rewrite -/(row_full _); apply/row_fullP.
have u : mx b b (amul (aT X) X) \in unitmx by rewrite unitmxE -(mxof_det [rmorphism of @idfun R]) ?unitfE //= cb.
exists (invmx (mx b b (amul (aT X) X)) *m (mx a b X)^T).
by rewrite -mulmxA -(mxof_T _ ra cb) -(@mxof_mul _ _ _ b a b) ?mulVmx //=.
Qed.
Lemma rank_part a b k (X P K : arr R) : shp X = (a, b) -> shp P = (k, a) -> shp K = (b, k) -> adet (amul (amul P X) K) != 0 -> (k <= \rank (mx a b X))%N.
Proof.
move=> [ra cb] [rP cP] [rK cK] h.
have u : mx k k (amul (amul P X) K) \in unitmx by rewrite unitmxE -(mxof_det [rmorphism of @idfun R]) ?unitfE //= rP.
have <- : \rank (mx k k (amul (amul P X) K)) = k by apply/eqP; rewrite -/(row_free _) row_free_unit.
rewrite (@mxof_mul _ _ _ k b k) ?nr_mk ?nc_mk // (@mxof_mul _ _ _ k a b) //.
by apply: leq_trans (mxrankM_maxl _ _) (mxrankM_maxr _ _).
Qed.
Lemma nz_mx a b (X : arr R) : shp X = (a, b) -> aany X -> mx a b X <> 0.
Proof.
by move=> [ra cb] /aanyP[i [j [hi hj /eqP h]]]; rewrite ra cb in hi hj => /matrixP /(_ (Ordinal hi) (Ordinal hj)); rewrite !mxE.
Qed.
End Dec.

(* a table of singular value decompositions *)
Definition lookup (T : seq (arr Q * (arr Q * seq Q * arr Q))) (M : arr Q) : arr Q * seq Q * arr Q :=
  head (aeye (nr M), nseq (minn (nr M) (nc M)) 0, aeye (nc M)) [seq x.2 | x <- T & aeq x.1 M].
Definition q_ (a b : int) : Q := a%:~R / b%:~R.
Definition arrq (l : seq (seq Q)) : arr Q := of_rows l.
Definition rot : arr Q := arrq [:: [:: q_ 3 5; - q_ 4 5]; [:: q_ 4 5; q_ 3 5]].
Definition one1 : arr Q := aeye 1.

(* (4 s + 3) / (s^2 + 6 s + 3): one zero, at -3/4 *)
Definition exA : arr Q := arrq [:: [:: 0; 1]; [:: - q_ 3 1; - q_ 6 1]].
Definition exB : arr Q := arrq [:: [:: 0]; [:: 1]].
Definition exC : arr Q := arrq [:: [:: q_ 3 1; q_ 4 1]].
Definition exT : seq (arr Q * (arr Q * seq Q * arr Q)) :=
  [:: (aT exC, (rot, [:: q_ 5 1], one1)); (arrq [:: [:: q_ 4 5]], (one1, [:: q_ 4 5], one1));
      (arrq [:: [:: q_ 4 5; - q_ 3 5]], (one1, [:: 1], arrq [:: [:: q_ 4 5; - q_ 3 5]; [:: q_ 3 5; q_ 4 5]]))].
Definition exsp : Q := q_ 1 1000.
Definition exm (A B C : arr Q) : Q := q_ 1 1000.

Example C77_value_ex : transmission_zeros (lookup exT) exsp exm (@qzt Q) exA exB exC (azeros 1 1) = Ok [:: Some (- q_ 3 4)].
Proof. by vm_compute. Qed.
Example C77_exact_ex : tz_exact [rmorphism of @idfun Q] (lookup exT) exsp exm (@qzt Q) exA exB exC (azeros 1 1).
Proof. by apply: tzbP; vm_compute. Qed.

Local Notation mq := (mxof [rmorphism of @idfun Q]).
Example C77_square_ex : [/\ mq 2 1 exB <> 0, mq 1 2 exC <> 0 &
  exists t, \det (sysmx (mq 2 2 exA) (mq 2 1 exB) (mq 1 2 exC) (mq 1 1 (azeros 1 1)) t) != 0].
Proof.
split; first by apply: nz_mx.
  by apply: nz_mx.
by exists 0; rewrite sysarrE // -(mxof_det [rmorphism of @idfun Q]) //; vm_compute.
Qed.
Example C77_siso_ex : numpoly (amx 2 2 exA) (amx 2 1 exB) (amx 1 2 exC) != 0.
Proof.
have am k l (M : arr Q) : amx k l M = mq k l M by apply/matrixP => i j; rewrite !mxE.
have [_ _ [t h]] := C77_square_ex; apply: contraNneq h => e.
have z : mq 1 1 (azeros 1 1) = 0 by apply: mxof_zeros.
by rewrite z det_siso -!am e horner0 mulr0.
Qed.

(* the same with a second output that is always 0 *)
Definition exC2 : arr Q := arrq [:: [:: q_ 3 1; q_ 4 1]; [:: 0; 0]].
Definition exT2 := (aT exC2, (rot, [:: q_ 5 1; 0], aeye 2)) :: exT.
Example C77_tall_ex : tz_exact [rmorphism of @idfun Q] (lookup exT2) exsp exm (@qzt Q) exA exB exC2 (azeros 2 1) /\
  [/\ mq 2 1 exB <> 0, mq 2 2 exC2 <> 0 & exists t, \rank (sysmx (mq 2 2 exA) (mq 2 1 exB) (mq 2 2 exC2) (mq 2 1 (azeros 2 1)) t) = (2 + 1)%N].
Proof.
split; first by apply: tzbP; vm_compute.
split; first by apply: nz_mx.
  by apply: nz_mx.
by exists 0; rewrite sysarrE //; apply: rank_full => //; vm_compute.
Qed.
Example C77_tall_value : transmission_zeros (lookup exT2) exsp exm (@qzt Q) exA exB exC2 (azeros 2 1) = Ok [:: Some (- q_ 3 4)].
Proof. by vm_compute. Qed.

(* one output, two inputs of which the second does nothing: a zero at -4/3 *)
Definition wA : arr Q := arrq [:: [:: 0]].
Definition wB : arr Q := arrq [:: [:: 1; 0]].
Definition wC : arr Q := arrq [:: [:: q_ 4 1]].
Definition wD : arr Q := arrq [:: [:: q_ 3 1; 0]].
Definition wT (v : arr Q) : seq (arr Q * (arr Q * seq Q * arr Q)) :=
  [:: (wD, (one1, [:: q_ 3 1], aeye 2)); (aT wD, (aeye 2, [:: q_ 3 1], one1)); (ahcat wD wC, (one1, [:: q_ 5 1], v))].
Definition wv1 : arr Q := arrq [:: [:: q_ 3 5; 0; q_ 4 5]; [:: 0; 1; 0]; [:: - q_ 4 5; 0; q_ 3 5]].
Definition wv2 : arr Q := arrq [:: [:: q_ 3 5; 0; q_ 4 5]; [:: - q_ 4 5; 0; q_ 3 5]; [:: 0; 1; 0]].
Lemma wrank : exists t, (1 < \rank (sysmx (mq 1 1 wA) (mq 1 2 wB) (mq 1 1 wC) (mq 1 2 wD) t))%N.
Proof.
exists 0; rewrite sysarrE //.
apply: (@rank_part _ _ _ _ _ (aeye 2) (arrq [:: [:: 1; 0]; [:: 0; 1]; [:: 0; 0]])) => //; by vm_compute.
Qed.
Example C77_zeros_ex : [/\ tz_exact [rmorphism of @idfun Q] (lookup (wT wv1)) exsp exm (@qzt Q) wA wB wC wD,
  mq 1 2 wB <> 0, mq 1 1 wC <> 0, exists t, (1 < \rank (sysmx (mq 1 1 wA) (mq 1 2 wB) (mq 1 1 wC) (mq 1 2 wD) t))%N &
  at_final (lookup (wT wv1)) exsp exm (final_regular [rmorphism of @idfun Q] (lookup (wT wv1))) wA wB wC wD].
Proof.
split; first by apply: tzbP; vm_compute.
- by apply: nz_mx.
- by apply: nz_mx.
- exact: wrank.
by apply: (@atfbP _ _ _ _ 0); vm_compute.
Qed.

(* the last hypothesis of C77_zeros is needed: [D, C] = [3 0 4] has several exact singular value decompositions, and the
   answer for this model depends on the one that is returned.  With wv2 it is inf *)
Theorem C77_wide_refuted : [/\ tz_exact [rmorphism of @idfun Q] (lookup (wT wv2)) exsp exm (@qzt Q) wA wB wC wD,
  transmission_zeros (lookup (wT wv2)) exsp exm (@qzt Q) wA wB wC wD = Ok [:: None] &
  zero_at (mq 1 1 wA) (mq 1 2 wB) (mq 1 1 wC) (mq 1 2 wD) (- q_ 4 3)].
Proof.
split; first by apply: tzbP; vm_compute.
  by vm_compute.
have [h1 h2 h3 h4 h5] := C77_zeros_ex.
have sp0 : 0 <= exsp by vm_compute.
have [s1 s2 s3 s4] : [/\ shp wA = (1, 1)%N, shp wB = (1, 2)%N, shp wC = (1, 1)%N & shp wD = (1, 2)%N] by split; vm_compute.
have [w1 w2 w3 w4] : [/\ wfa wA, wfa wB, wfa wC & wfa wD] by split; vm_compute.
have [zs [E h]] := C77_zeros sp0 s1 s2 s3 s4 w1 w2 w3 w4 h1 h2 h3 h4 h5.
have Ev : transmission_zeros (lookup (wT wv1)) exsp exm (@qzt Q) wA wB wC wD = Ok [:: Some (- q_ 4 3)] by vm_compute.
apply/h; move: (etrans (esym Ev) E); move: (- q_ 4 3) => x; clear; case: zs => [|z [|z2 t]] //= [->]; exact: mem_head.
Qed.
Print Assumptions C77_wide_refuted.

(* a transfer function that is identically 0 although B and C are not: 2 is returned, where the system matrix keeps its
   rank *)
Definition zA : arr Q := arrq [:: [:: 1; 0]; [:: 0; q_ 2 1]].
Definition zB : arr Q := arrq [:: [:: 0]; [:: 1]].
Definition zC : arr Q := arrq [:: [:: 1; 0]].
Definition zT : seq (arr Q * (arr Q * seq Q * arr Q)) := [:: (aT zC, (aeye 2, [:: 1], one1)); (one1, (one1, [:: 1], one1))].
Section Degen.
Variable R : realFieldType.
Variables (x y t : R).
Local Notation mx := (mxof [rmorphism of @idfun R]).
Let A : arr R := of_rows [:: [:: x; 0]; [:: 0; y]].
Let B : arr R := of_rows [:: [:: 0]; [:: 1]].
Let C : arr R := of_rows [:: [:: 1; 0]].
Lemma degen_fact : mx (2 + 1) (2 + 1) (sysarr A B C (azeros 1 1) t) =
   mx (2 + 1) 2 (of_rows [:: [:: x - t; 0]; [:: 0; 1]; [:: 1; 0]]) *m mx 2 (2 + 1) (of_rows [:: [:: 1; 0; 0]; [:: 0; y - t; 1]]).
Proof.
rewrite -(@mxof_mul _ _ _ 3 2 3) //; apply/matrixP => i j; rewrite !mxE.
case: i => [[|[|[|i]]] hi] //; case: j => [[|[|[|j]]] hj] //=; rewrite /amul /sumN; do 4? rewrite /get /=; rewrite ?get_mk /= ?mulr1n ?mulr0n; first [done | mc_ring R].
Qed.
Lemma degen_left : mx 2 (2 + 1) (of_rows [:: [:: 0; 0; 1]; [:: 0; 1; 0]]) *m mx (2 + 1) 2 (of_rows [:: [:: x - t; 0]; [:: 0; 1]; [:: 1; 0]]) = 1%:M.
Proof.
rewrite -(@mxof_mul _ _ _ 2 3 2) //; apply/matrixP => i j; rewrite !mxE.
case: i => [[|[|i]] hi] //; case: j => [[|[|j]] hj] //=; rewrite /amul /sumN; do 4? rewrite /get /=; rewrite ?get_mk /= ?mulr1n ?mulr0n; first [done | mc_ring R].
Qed.
Lemma degen_right : mx 2 (2 + 1) (of_rows [:: [:: 1; 0; 0]; [:: 0; y - t; 1]]) *m mx (2 + 1) 2 (of_rows [:: [:: 1; 0]; [:: 0; 0]; [:: 0; 1]]) = 1%:M.
Proof.
rewrite -(@mxof_mul _ _ _ 2 3 2) //; apply/matrixP => i j; rewrite !mxE.
case: i => [[|[|i]] hi] //; case: j => [[|[|j]] hj] //=; rewrite /amul /sumN; do 4? rewrite /get /=; rewrite ?get_mk /= ?mulr1n ?mulr0n; first [done | mc_ring R].
Qed.
Lemma degen_up : (\rank (sysmx (mx 2 2 A) (mx 2 1 B) (mx 1 2 C) (mx 1 1 (azeros 1 1)) t) <= 2)%N.
Proof.
rewrite sysarrE // degen_fact.
exact: leq_trans (mxrankM_maxl _ _) (rank_leq_col _).
Qed.
Lemma degen_lo : (2 <= \rank (sysmx (mx 2 2 A) (mx 2 1 B) (mx 1 2 C) (mx 1 1 (azeros 1 1)) t))%N.
Proof.
rewrite sysarrE // degen_fact -{1}(@mxrank1 R 2) -[X in (\rank X <= _)%N](mulmx1 1%:M) -{1}degen_left -degen_right -mulmxA.
apply: leq_trans (mxrankM_maxr _ _) _.
rewrite mulmxA; exact: mxrankM_maxl.
Qed.
End Degen.
Theorem C77_degenerate_refuted : [/\ tz_exact [rmorphism of @idfun Q] (lookup zT) exsp exm (@qzt Q) zA zB zC (azeros 1 1),
  mq 2 1 zB <> 0, mq 1 2 zC <> 0,
  transmission_zeros (lookup zT) exsp exm (@qzt Q) zA zB zC (azeros 1 1) = Ok [:: Some (q_ 2 1)] &
  forall s, ~ zero_at (mq 2 2 zA) (mq 2 1 zB) (mq 1 2 zC) (mq 1 1 (azeros 1 1)) s].
Proof.
split; first by apply: tzbP; vm_compute.
- by apply: nz_mx.
- by apply: nz_mx.
- by vm_compute.
by move=> s [t]; rewrite ltnNge (leq_trans (degen_up 1 (q_ 2 1) t) (degen_lo 1 (q_ 2 1) s)).
Qed.
Print Assumptions C77_degenerate_refuted.
