From mathcomp Require Import all_ssreflect all_algebra zify.
From Coq Require Import String.
From Verif Require Import Base BaseTheory Spec ModelState Denote StateTheory ModelAux.

Set Implicit Arguments.
Unset Strict Implicit.
Unset Printing Implicit Defensive.

Import Order.TTheory GRing.Theory Num.Theory.
Local Open Scope ring_scope.

Section A.
Variable F : fieldType.
Implicit Types M A : arr F.

Lemma slice4_glue M p m : wfa M -> (p <= nr M)%N -> (m <= nc M)%N ->
  let: (A, B, C, D) := slice4 M p m in
  ablock A B C D = M /\ [/\ shp A = (p, m), shp B = (p, nc M - m)%N, shp C = (nr M - p, m)%N
     & shp D = (nr M - p, nc M - m)%N].
Proof.
move=> w hp hm; rewrite /slice4; split; last by split; rewrite /shp /= ?subn0.
apply: arr_eqP; rewrite ?wfa_mk //=.
- by move: hp; clear; lia.
- by move: hm; clear; lia.
move=> i j; rewrite !subn0 => hi hj; have hi' : (i < nr M)%N by move: hi hp; clear; lia.
have hj' : (j < nc M)%N by move: hj hm; clear; lia.
have hk : (m <= j)%N -> (j - m < nc M - m)%N by move: hj'; clear; lia.
have hl : (p <= i)%N -> (i - p < nr M - p)%N by move: hi'; clear; lia.
rewrite /ablock /avcat get_mk //= !subn0 //.
case: (ltnP i p) => h1; rewrite /ahcat get_mk /= ?subn0 ?hl //;
  case: (ltnP j m) => h2; rewrite get_mk ?subn0 ?hk ?hl ?add0n ?subnKC //.
Qed.

Lemma cut_pos_le x z : (cut_pos x z <= x)%N. Proof. exact: geq_minr. Qed.
Lemma cut_sub_le x z : (cut_sub x z <= x)%N. Proof. by rewrite /cut_sub; case: ifP; clear; lia. Qed.

Definition corners := [:: "nw"; "ne"; "sw"; "se"]%string.

Lemma slice_glue M z w c A B C D : wfa M -> matrix_slice M z w c = Ok (A, B, C, D) -> ablock A B C D = M.
Proof.
move=> wM; rewrite /matrix_slice.
case: ifP => _; last case: ifP => _; last case: ifP => _; last case: ifP => _ //.
- by have [e _] := slice4_glue wM (cut_pos_le (nr M) z) (cut_pos_le (nc M) w) => -[<- <- <- <-].
- by have [e _] := slice4_glue wM (leqnn (nr M)) (cut_sub_le (nc M) w) => -[<- <- <- <-].
- by have [e _] := slice4_glue wM (cut_sub_le (nr M) z) (cut_pos_le (nc M) w) => -[<- <- <- <-].
- by have [e _] := slice4_glue wM (cut_sub_le (nr M) z) (cut_sub_le (nc M) w) => -[<- <- <- <-].
Qed.

Lemma slice_total M z w c : is_ok (matrix_slice M z w c) = has (String.eqb c) corners.
Proof. by rewrite /matrix_slice /=; do 4! case: (String.eqb c _). Qed.

Lemma slice_nw M z w A B C D : wfa M -> (z <= nr M)%N -> (w <= nc M)%N -> matrix_slice M z w "nw" = Ok (A, B, C, D) ->
  [/\ shp A = (z, w), shp B = (z, nc M - w)%N, shp C = (nr M - z, w)%N & shp D = (nr M - z, nc M - w)%N].
Proof.
move=> wM hz hw; rewrite /matrix_slice /= /cut_pos (minn_idPl hz) (minn_idPl hw).
by have [_ s4] := slice4_glue wM hz hw => -[<- <- <- <-].
Qed.
Lemma slice_sw M z w A B C D : wfa M -> (z <= nr M)%N -> (w <= nc M)%N -> matrix_slice M z w "sw" = Ok (A, B, C, D) ->
  shp C = (z, w).
Proof.
move=> wM hz hw; rewrite /matrix_slice /= /cut_pos /cut_sub (minn_idPl hw) hz.
have [_ [_ _ + _]] := slice4_glue wM (leq_subr z (nr M)) hw => e [_ _ <- _]; rewrite e; congr pair.
by move: hz; clear; lia.
Qed.
Lemma slice_se M z w A B C D : wfa M -> (z <= nr M)%N -> (w <= nc M)%N -> matrix_slice M z w "se" = Ok (A, B, C, D) ->
  shp D = (z, w).
Proof.
move=> wM hz hw; rewrite /matrix_slice /= /cut_sub hz hw.
have [_ [_ _ _ +]] := slice4_glue wM (leq_subr z (nr M)) (leq_subr w (nc M)) => e [_ _ _ <-]; rewrite e.
by congr pair; move: hz hw; clear; lia.
Qed.
Lemma slice_ne M z w A B C D : wfa M -> (w <= nc M)%N -> matrix_slice M z w "ne" = Ok (A, B, C, D) ->
  shp B = (nr M, w).
Proof.
move=> wM hw; rewrite /matrix_slice /= /cut_sub hw.
have [_ [_ + _ _]] := slice4_glue wM (leqnn (nr M)) (leq_subr w (nc M)) => e [_ <- _ _]; rewrite e.
by congr pair; move: hw; clear; lia.
Qed.

Lemma aset_fold (E : arr F) (f g : nat -> nat) l i j : wfa E ->
  all (fun k => (f k < nr E)%N && (g k < nc E)%N) l ->
  (i < nr E)%N -> (j < nc E)%N ->
  let E' := foldl (fun E k => aset E (f k) (g k) 1) E l in
  [/\ wfa E', nr E' = nr E, nc E' = nc E & get E' i j = if has (fun k => (f k == i) && (g k == j)) l then 1 else get E i j].
Proof.
elim: l E => [|k l IH] E w //= /andP[/andP[h1 h2] hl] hi hj.
have [w1 w2 w3 ->] := IH (aset E (f k) (g k) 1) (wfa_mk _ _ _) hl hi hj; split=> //.
rewrite /aset get_mk // [f k == i]eq_sym [g k == j]eq_sym.
by case: ((i == f k) && (j == g k)); case: (has _ _).
Qed.

Lemma aset_shape (E : arr F) (f g : nat -> nat) l : wfa E ->
  let E' := foldl (fun E k => aset E (f k) (g k) 1) E l in wfa E' /\ shp E' = shp E.
Proof. by elim: l E => [|k l IH] E w //=; have [w1 ->] := IH (aset E (f k) (g k) 1) (wfa_mk _ _ _). Qed.

Lemma e_i_col n idx E : e_i F n idx "c" = Ok E ->
  [/\ wfa E, shp E = (n, size idx) & forall i j, (i < n)%N -> (j < size idx)%N -> get E i j = (i == nth 0%N idx j)%:R].
Proof.
rewrite /e_i /=; case: ifP => // /allP h [<-].
have hl : all (fun k => (nth 0%N idx k < nr (azeros n (size idx) : arr F))%N && (k < nc (azeros n (size idx) : arr F))%N) (iota 0 (size idx)).
  by apply/allP => k; rewrite mem_iota /= add0n => hk; rewrite hk h // mem_nth.
set E0 := foldl _ _ _.
have sh : wfa E0 /\ shp E0 = (n, size idx) by apply: aset_shape; exact: wfa_mk.
case: sh => wE sE; split=> // i j hi hj.
have [_ _ _ ->] := aset_fold (wfa_mk _ _ _) hl hi hj.
rewrite get_mk //; have -> : has (fun k => (nth 0%N idx k == i) && (k == j)) (iota 0 (size idx)) = (i == nth 0%N idx j).
  apply/hasP/eqP => [[k _ /andP[/eqP<- /eqP->]] //|->]; exists j; rewrite ?mem_iota ?eqxx //=.
by case: eqP.
Qed.

Lemma e_i_row n idx o E : String.eqb o "c" = false -> e_i F n idx o = Ok E ->
  exists2 E', e_i F n idx "c" = Ok E' & E = aT E'.
Proof.
move=> ho; rewrite /e_i ho /=; case: ifP => // h [<-]; eexists; first by [].
have : (azeros (size idx) n : arr F) = aT (azeros n (size idx)).
  by apply: mk_ext => i j hi hj; rewrite get_mk.
have := wfa_mk n (size idx) (fun _ _ => 0 : F); rewrite -/(azeros n (size idx)).
move: (azeros n (size idx)) (azeros (size idx) n).
elim: (iota 0 (size idx)) => [|k l IH] B A wB eA //=; apply: IH; first exact: wfa_mk.
rewrite eA /aset /aT /=; apply: mk_ext => i j hi hj; rewrite !get_mk // andbC; by case: ifP.
Qed.

Lemma e_i_total n idx o : is_ok (e_i F n idx o) = all (fun x => (x < n)%N) idx.
Proof. by rewrite /e_i; case: ifP => //; case: ifP. Qed.

End A.

Section C59.
Variable R : realFieldType.

Lemma concat_slice (G : state R) M : wfS G -> ~~ sgain G -> concat_state G = Ok M ->
  matrix_slice M (snn G) (snn G) "nw" = Ok (sa G, sb G, sc G, sd G).
Proof.
move=> w /negbTE g; rewrite /concat_state g => -[<-].
have [[wa wb wc wd] [na nb ncc pc mb]] := wfS_dyn w g.
rewrite /matrix_slice /= /cut_pos /=; move: na nb ncc pc mb; rewrite /snn /spn /smn => na nb ncc pc mb.
rewrite na (minn_idPl _) ?leq_addr // (minn_idPl _) ?leq_addr //.
rewrite /slice4 /= na; congr (Ok (_, _, _, _)); apply: arr_eqP; rewrite ?wfa_mk //=
  ?subn0 ?na ?nb ?ncc ?pc ?mb ?addKn //.
- move=> i j hi hj; rewrite get_mk ?subn0 // add0n /ablock /avcat get_mk /=; last first.
  + by rewrite na; move: hj; clear; lia.
  + by move: hi; rewrite pc; clear; lia.
  rewrite hi /ahcat get_mk /= ?na ?hj //; move: hj; clear; lia.
- move=> i j hi hj; rewrite get_mk ?subn0 ?addKn ?mb // add0n /ablock /avcat get_mk /=; last first.
  + by rewrite na mb; move: hj; clear; lia.
  + by move: hi; clear; lia.
  rewrite hi /ahcat get_mk /= ?na //; last by rewrite mb; move: hj; clear; lia.
  by rewrite ltnNge leq_addr /= addKn.
- move=> i j hi hj; rewrite get_mk ?subn0 ?addKn // /ablock /avcat get_mk /=; last first.
  + by rewrite na; move: hj; clear; lia.
  + by rewrite pc; move: hi; clear; lia.
  rewrite ltnNge leq_addr /= addKn /ahcat get_mk ?pc //= ?ncc ?hj //.
  by move: hj; clear; lia.
- move=> i j hi hj; rewrite get_mk ?addKn ?mb // /ablock /avcat get_mk /=; last first.
  + by rewrite na mb; move: hj; clear; lia.
  + by rewrite pc; move: hi; clear; lia.
  rewrite ltnNge leq_addr /= addKn /ahcat get_mk ?pc //= ?ncc.
    by rewrite ltnNge leq_addr /= addKn.
  by move: hj; clear; lia.
Qed.

Lemma concat_gain (G : state R) : sgain G -> concat_state G = Ok (sd G).
Proof. by rewrite /concat_state => ->. Qed.

End C59.

Section Ker.
Variable R : realFieldType.

Local Notation idA := [rmorphism of @idfun R].

Lemma get_azeros m n i j : get (azeros m n : arr R) i j = 0.
Proof.
have [hi|hi] := ltnP i m; last by rewrite get_out_r ?wfa_mk.
have [hj|hj] := ltnP j n; last by rewrite get_out_c ?wfa_mk.
by rewrite get_mk.
Qed.

Lemma ker_fullrank (svd : arr R -> arr R * seq R * arr R) (spac : R) (N K : arr R) :
  haroldker svd spac N "right" = Ok K ->
  count (fun x => smax (svd N).1.2 * (maxn (nr N) (nc N))%:R * spac < x) (svd N).1.2 = nc N ->
  (nc N <= nr N)%N -> amul N K = azeros (nr N) (nc K).
Proof.
rewrite /haroldker /=; have z k : amul N (azeros (nc N) k) = azeros (nr N) k.
  apply: mk_ext => i j hi hj; rewrite sumNE; apply: big1 => l _; by rewrite get_mk ?mulr0.
case: ifP => [h1 [<-] _ _|_].
  by apply: mk_ext => i j hi hj; rewrite sumNE; apply: big1 => l _; rewrite get_azeros mulr0.
rewrite /haroldsvd; case: (svd N) => [[u s] v] /=; case: ifP => //= _.
move=> + e h; rewrite e (minn_idPr h) eqxx h => -[<-]; exact: z.
Qed.

Lemma ker_zero (svd : arr R -> arr R * seq R * arr R) (spac : R) m n (K : arr R) :
  0 <= spac -> (1 < m * n)%N -> npsvd_ok (azeros m n) (svd (azeros m n)) ->
  haroldker svd spac (azeros m n) "right" = Ok K ->
  [/\ shp K = (n, n), amul K (aT K) = aeye n & amul (azeros m n) K = azeros m n].
Proof.
move=> sp0 hmn; rewrite /haroldker /= /asize /= leqNgt hmn /= /haroldsvd.
case: (svd _) => [[u s] v] [/= [wu [u1 u2] wv [v1 v2]] ou ov [sz pos _] hA].
have hm : (0 < m)%N by move: hmn; case: (m).
have hn : (0 < n)%N by move: hmn; rewrite mulnC; case: (n).
case: ifP => [/eqP s0|_]; first by move: sz; rewrite s0 /=; move: hm hn; clear; lia.
(* all singular values vanish *)
have z0 x : x \in s -> x = 0.
  move=> /(nthP 0)[k hk <-]; rewrite sz in hk.
  have hk1 : (k < m)%N by move: hk; clear; lia.
  have hk2 : (k < n)%N by move: hk; clear; lia.
  set D := mk m n _ in hA.
  have e1 : mxof idA m n (azeros m n : arr R) = mxof idA m m u *m (mxof idA m n D *m mxof idA n n v).
    rewrite [in LHS]hA; rewrite (mxof_mul idA (m := m) (n := m) (p := n)) ?(mxof_mul idA (m := m) (n := n) (p := n)) //.
  have uu : (mxof idA m m u)^T *m mxof idA m m u = 1%:M.
    by rewrite -mxof_T // -(mxof_mul idA (m := m) (n := m) (p := m)) // ou mxof_eye.
  have vv : mxof idA n n v *m (mxof idA n n v)^T = 1%:M.
    by rewrite -mxof_T // -(mxof_mul idA (m := n) (n := n) (p := n)) // ov mxof_eye.
  have : mxof idA m n D = 0.
    have := congr1 (fun X => (mxof idA m m u)^T *m X *m (mxof idA n n v)^T) e1.
    by rewrite mxof_zeros mulmx0 mul0mx mulmxA uu mul1mx -mulmxA vv mulmx1.
  move/matrixP/(_ (Ordinal hk1) (Ordinal hk2)); rewrite !mxE get_mk //= eqxx.
  by [].
have sm : smax s = 0.
  elim: (s) z0 => //= a l IH z0; rewrite (z0 a) ?mem_head // IH ?maxxx // => x xl; apply: z0.
  by rewrite in_cons xl orbT.
rewrite /= sm !mul0r.
have -> : count (fun x => 0 < x) s = 0%N.
  by apply/eqP; rewrite -leqn0 leqNgt -has_count; apply/hasPn => x xs; rewrite (z0 x xs) ltxx.
have -> : (0%N == minn m n) = false by move: hm hn; clear; lia.
rewrite /= => -[<-]; rewrite v1 v2.
have -> : asubm v 0 n 0 n = v.
  apply: arr_eqP; rewrite ?wfa_mk //= ?subn0 // => i j hi hj.
  by rewrite get_mk ?subn0.
split=> //; first by rewrite /shp v1 v2.
rewrite /amul /azeros /= v2; apply: mk_ext => i j hi hj; rewrite sumNE; apply: big1 => -[l hl] _.
by rewrite get_mk ?mul0r.
Qed.

End Ker.

Local Notation Q := rat_realFieldType.
(* a matrix of rank two with an explicit decomposition *)
Definition kerV : arr Q := of_rows [:: [:: 2%:~R / 3%:~R; 1 / 3%:~R; - 2%:~R / 3%:~R];
  [:: 2%:~R / 3%:~R; - 2%:~R / 3%:~R; 1 / 3%:~R]; [:: 1 / 3%:~R; 2%:~R / 3%:~R; 2%:~R / 3%:~R]].
Definition kerN : arr Q := of_rows [:: [:: 4%:~R / 3%:~R; 2%:~R / 3%:~R; - 4%:~R / 3%:~R];
  [:: 2%:~R / 3%:~R; - 2%:~R / 3%:~R; 1 / 3%:~R]; [:: 0; 0; 0]].
Definition kersvd (A : arr Q) : arr Q * seq Q * arr Q := (aeye 3, [:: 2%:~R; 1; 0], kerV).

Lemma ker_refuted (spac : Q) : 0 <= spac < 6%:R^-1 ->
  npsvd_ok kerN (kersvd kerN) /\
  if haroldker kersvd spac kerN "right" is Ok K then aany (amul kerN K) else false.
Proof.
move=> /andP[h0 h1]; split.
  split.
  - by split.
  - by apply/aeqP; vm_compute.
  - by apply/aeqP; vm_compute.
  - by split; vm_compute.
  - by apply/aeqP; vm_compute.
rewrite /haroldker /haroldsvd /=.
have -> : smax [:: 2%:~R; 1; 0 : Q] * (maxn 3 3)%:R * spac = 6%:R * spac by congr (_ * _); apply/eqP; vm_compute.
have h2 : 6%:R * spac < 1 by rewrite mulrC -ltr_pdivl_mulr // div1r.
have h3 : 0 <= 6%:R * spac by rewrite mulr_ge0.
rewrite h2 (lt_trans h2) // (le_gtF h3) /=; by vm_compute.
Qed.
