(* transmission_zeros: from the reduced arrays to the zeros. *)
From mathcomp Require Import all_ssreflect all_algebra zify.
From Coq Require Import String.
From Verif Require Import Base BaseTheory Spec ModelState Denote StateTheory StateProps ModelAux AuxTheory ModelSim SpecSim SimTheory ModelKalman KalmanTheory
  ModelFreq FreqTheory ModelLyap SpecLyap LyapTheory TransferTheory ModelMin SpecMin StairTheory ModelTz SpecTz TzTheory.

Set Implicit Arguments.
Unset Strict Implicit.
Unset Printing Implicit Defensive.

Import Order.TTheory GRing.Theory Num.Theory.
Local Open Scope ring_scope.

Section Mat.
Variable L : fieldType.

Lemma gdetMM a b c (X : 'M[L]_(a, b)) (Y : 'M[L]_(b, c)) : a = b -> b = c -> gdet (X *m Y) = gdet X * gdet Y.
Proof. by move=> e1 e2; subst b c; rewrite !gdetE det_mulmx. Qed.
Lemma gdetT a b (X : 'M[L]_(a, b)) : a = b -> gdet X^T = gdet X.
Proof. by move=> e; subst b; rewrite !gdetE det_tr. Qed.

(* the system matrix once C = D X and B = Y D *)
Variables (n m p : nat) (A : 'M[L]_n) (B : 'M[L]_(n, m)) (C : 'M[L]_(p, n)) (D : 'M[L]_(p, m)) (X : 'M[L]_(m, n)) (Y : 'M[L]_(n, p)).
Hypothesis hC : C = D *m X.
Hypothesis hB : B = Y *m D.

Lemma sys_split s : sysmx A B C D s = block_mx 1%:M Y 0 1%:M *m block_mx (A - B *m X - s%:M) 0 0 D *m block_mx 1%:M 0 X 1%:M.
Proof.
rewrite /sysmx !mulmx_block !(mulmx0, mul0mx, mul1mx, mulmx1, addr0, add0r) -hB -hC; congr (block_mx _ _ _ _).
by rewrite addrAC subrK.
Qed.
Lemma sys_rank s : \rank (sysmx A B C D s) = (\rank (A - B *m X - s%:M)%R + \rank D)%N.
Proof.
rewrite sys_split mxrankMfree ?(eqmxMfull (block_mx _ _ _ _)) ?rank_diag_block_mx //.
  by rewrite row_full_unit unitmxE det_ublock !det1 mulr1 unitr1.
by rewrite row_free_unit unitmxE det_lblock !det1 mulr1 unitr1.
Qed.
Lemma sys_det s : p = m -> gdet (sysmx A B C D s) = \det (A - B *m X - s%:M) * gdet D.
Proof.
move=> e; rewrite sys_split gdetM; last by rewrite e.
by rewrite det_ublock det_lblock !det1 !mulr1 mul1r gdet_ublock ?gdetE // e.
Qed.
End Mat.

Section Swap.
Variables (R : realFieldType) (L : fieldType) (f : {rmorphism R -> L}).
Implicit Types (A B C D : arr R).
Local Notation mx := (mxof [rmorphism of @idfun R]).

Definition sysa n m p A B C D s := sysmx (mxof f n n A) (mxof f n m B) (mxof f p n C) (mxof f p m D) s.

Definition swp n m : 'M[L]_(n + m, m + n) := block_mx 0 1%:M 1%:M 0.
Lemma swpK n m : swp n m *m swp m n = 1%:M.
Proof. by rewrite mulmx_block !(mulmx0, mul0mx, mul1mx, mulmx1, addr0, add0r) -scalar_mx_block. Qed.
Lemma swp_free n m : row_free (swp n m).
Proof. by apply/row_freeP; exists (swp m n); apply: swpK. Qed.
Lemma swp_det n m : gdet (swp n m) != 0.
Proof.
have : gdet (swp n m) * gdet (swp m n) = 1 by rewrite -gdetMM 1?addnC // swpK gdetE det1.
by apply: contra_eq_neq => ->; rewrite mul0r eq_sym oner_neq0.
Qed.

Lemma pen_sys n m p A B C D s : pen f n m p A B C D s = sysa n m p A B C D s *m swp n m.
Proof. by rewrite penE mulmx_block !(mulmx0, mul0mx, mul1mx, mulmx1, addr0, add0r). Qed.
Lemma pen_rank n m p A B C D s : \rank (pen f n m p A B C D s) = \rank (sysa n m p A B C D s).
Proof. by rewrite pen_sys mxrankMfree ?swp_free. Qed.
Lemma pen_det n m p A B C D s : p = m -> gdet (pen f n m p A B C D s) = gdet (swp n m) * gdet (sysa n m p A B C D s).
Proof. by move=> e; rewrite pen_sys gdetMM; [exact: mulrC | rewrite e | exact: addnC]. Qed.

Lemma dual_sys n m p A B C D s : shp A = (n, n) -> shp B = (n, m) -> shp C = (p, n) -> shp D = (p, m) ->
  sysa n p m (aT A) (aT C) (aT B) (aT D) s = (sysa n m p A B C D s)^T.
Proof.
move=> [rA cA] [rB cB] [rC cC] [rD cD]; rewrite /sysa /sysmx (mxof_T _ rA cA) (mxof_T _ rB cB) (mxof_T _ rC cC) (mxof_T _ rD cD).
by rewrite tr_block_mx linearB /= tr_scalar_mx.
Qed.
Lemma dual_rank n m p A B C D s : shp A = (n, n) -> shp B = (n, m) -> shp C = (p, n) -> shp D = (p, m) ->
  \rank (pen f n p m (aT A) (aT C) (aT B) (aT D) s) = \rank (sysa n m p A B C D s).
Proof. by move=> *; rewrite pen_rank dual_sys // mxrank_tr. Qed.
Lemma dual_det n m p A B C D s : shp A = (n, n) -> shp B = (n, m) -> shp C = (p, n) -> shp D = (p, m) -> p = m ->
  gdet (pen f n p m (aT A) (aT C) (aT B) (aT D) s) = gdet (swp n p) * gdet (sysa n m p A B C D s).
Proof. by move=> *; rewrite pen_det // dual_sys // gdetT //; congr (_ + _)%N. Qed.
End Swap.

Section Gev.
Variables (R : realFieldType) (L : fieldType) (f : {rmorphism R -> L}).

Lemma poly_ext (P Q : {poly L}) : (forall s, P.[s] = Q.[s]) -> P = Q.
Proof.
move=> h; apply/eqP; rewrite -subr_eq0; apply/negPn/negP => nz.
have := max_poly_roots nz _ (_ : uniq [seq f i%:R | i <- iota 0 (size (P - Q))]); rewrite size_map size_iota ltnn => F.
suff : false by []; apply: F.
  by apply/allP => x _; rewrite rootE hornerD hornerN h subrr.
rewrite map_inj_in_uniq ?iota_uniq // => i j _ _ /fmorph_inj /eqP; rewrite eqr_nat => /eqP //.
Qed.

Lemma size_pencil (ps : seq (L * L)) : (size (\prod_(x <- ps) (x.1 *: 'X - x.2%:P))%R <= (count (fun x => x.1 != 0%R) ps).+1)%N.
Proof.
elim: ps => [|x t IH]; first by rewrite big_nil size_poly1.
rewrite big_cons; apply: leq_trans (size_mul_leq _ _) _ => /=.
have h : (size (x.1 *: 'X - x.2%:P)%R <= (x.1 != 0%R).+1)%N.
  case: eqP => [->|_] /=; first by rewrite scale0r add0r size_opp size_polyC leq_b1.
  apply: leq_trans (size_add _ _) _; rewrite geq_max size_opp; apply/andP; split.
    by apply: leq_trans (size_scale_leq _ _) _; rewrite size_polyX.
  by apply: leq_trans (size_polyC_leq1 _) _.
move: h IH; set a := size _; set b := size _; set d := nat_of_bool _; set e := count _ _; clear; lia.
Qed.

Lemma pencil_prod (ps : seq (L * L)) s : all (fun x => x.1 != 0) ps ->
  \prod_(x <- ps) (s * x.1 - x.2) = \prod_(x <- ps) x.1 * \prod_(x <- ps) (s - x.2 / x.1).
Proof.
elim: ps => [|x t IH] /=; first by rewrite !big_nil mulr1.
move=> /andP[x0 h]; rewrite !big_cons IH // mulrACA; congr (_ * _).
by rewrite mulrBr mulrC [x.1 * (_ / _)]mulrC divfK.
Qed.

(* the generalized eigenvalues of s K - F K with an invertible K *)
Lemma gev n (F K : 'M[L]_n) (ps : seq (L * L)) c : \det K != 0 -> size ps = n -> c != 0 ->
  (forall s, \det (s *: K - F *m K) = c * \prod_(x <- ps) (s * x.1 - x.2)) ->
  [seq (if x.1 != 0 then Some (x.2 / x.1) else None) | x <- ps] = [seq Some z | z <- [seq x.2 / x.1 | x <- ps]] /\
  exists d, d != 0 /\ forall s, \det (F - s%:M) = d * \prod_(z <- [seq x.2 / x.1 | x <- ps]) (s - z).
Proof.
move=> K0 sz c0 h.
have hs s : \det (s *: K - F *m K) = \det (s%:M - F) * \det K by rewrite -det_mulmx mulmxBl mul_scalar_mx.
have hp s : (char_poly F).[s] = \det (s%:M - F).
  rewrite /char_poly -[LHS]/(horner_eval s _) -det_map_mx; congr (\det _).
  by apply/matrixP => i j; rewrite !mxE /= /horner_eval hornerD hornerN hornerC hornerMn hornerX.
have E : \det K *: char_poly F = c *: \prod_(x <- ps) (x.1 *: 'X - x.2%:P).
  apply: poly_ext => s; rewrite !hornerZ hp mulrC -hs h; congr (_ * _).
  rewrite horner_prod; apply: eq_bigr => x _; by rewrite !(hornerD, hornerN, hornerZ) hornerX hornerC mulrC.
have al : all (fun x => x.1 != 0) ps.
  rewrite all_count eqn_leq count_size sz -ltnS.
  have := congr1 (size \o val) E; rewrite /= !size_scale // size_char_poly => ->; exact: size_pencil.
split; first by rewrite -map_comp; apply/eq_in_map => x hx /=; rewrite (allP al _ hx).
have p0 : \prod_(x <- ps) x.1 != 0.
  by elim: (ps) al => [|x t IH] /=; [rewrite big_nil oner_neq0 | move=> /andP[x0 /IH h1]; rewrite big_cons mulf_neq0].
exists ((-1) ^+ n * (c * \prod_(x <- ps) x.1 / \det K)); split.
  by rewrite !mulf_neq0 ?invr_eq0 // signr_eq0.
move=> s; rewrite big_map.
have -> : F - s%:M = (-1) *: (s%:M - F) by rewrite scaleN1r opprB.
rewrite detZ -mulrA; congr (_ * _); apply: (mulIf K0); rewrite -hs h pencil_prod //.
by rewrite mulrAC divfK // mulrA.
Qed.
End Gev.

Section Final.
Variables (R : realFieldType) (L : fieldType) (f : {rmorphism R -> L}).
Variable npsvd : arr R -> arr R * seq R * arr R.
Variable qz : arr R -> arr R -> seq (L * L).
Implicit Types (A B C D : arr R).
Local Notation mx := (mxof [rmorphism of @idfun R]).

Lemma finalP n m p A B C D (X : 'M[R]_(m, n)) (Y : 'M[R]_(n, p)) : wfa A -> wfa B -> wfa C -> wfa D ->
  shp A = (n, n) -> shp B = (n, m) -> shp C = (p, n) -> shp D = (p, m) ->
  mx p n C = mx p m D *m X -> mx n m B = Y *m mx p m D -> final_exact f npsvd qz A B C D ->
  final_regular f npsvd A B C D \/ \rank (mx p m D) = m ->
  exists zs, [/\ tz_final npsvd qz A B C D = [seq Some z | z <- zs], size zs = n &
    exists d, d != 0 /\ forall s, \det (map_mx f (mx n n A - mx n m B *m X) - s%:M) = d * \prod_(z <- zs) (s - z)].
Proof.
move=> wA wB wC wD sA sB sC sD hC hB; rewrite /final_exact /final_regular /tz_final.
have [rA cA] := sA; have [rB cB] := sB; have [rC cC] := sC; have [rD cD] := sD; rewrite rA cD.
have wM : wfa (ahcat D C) by apply: wfa_mk.
case E: (npsvd (ahcat D C)) => [[u s0] v] /= [ok].
have nM : nr (ahcat D C) = p by rewrite /= rD.
have cM : nc (ahcat D C) = (m + n)%N by rewrite /= cD cC.
have [hU hV hM] := svd_mx wM ok; have [[wu su wv sv] _ _ [ss pos so] _] := ok.
rewrite nM cM in hU hV hM; rewrite /= rD cD cC in su sv ss; have [rv cv] := sv.
set w := aroll _ _; set Mq := asubm w _ _ _ _; set Nq := asubm (amul _ _) _ _ _ _.
set V := mx (m + n) (m + n) v in hV hM; set U := mx p p u in hU hM.
pose K := rsubmx V^T; pose Ku := usubmx K; pose Kx := dsubmx K.
have KK : K^T *m K = 1%:M.
  rewrite /K trmx_rsub trmxK mulmx_rsub (_ : _ *m V^T = dsubmx (V *m V^T)); last by rewrite -mul_dsub_mx.
  by rewrite hV scalar_mx_block block_mxEv col_mxKd row_mxKr.
have DCE : mx p (m + n) (ahcat D C) = row_mx (mx p m D) (mx p n C) by rewrite (mxof_hcat _ rD cD cC).
have rk : (\rank (mx p (m + n) (ahcat D C)) <= m)%N.
  rewrite DCE hC -[X in row_mx X _]mulmx1 -mul_mx_row; apply: leq_trans (mxrankM_maxl _ _) _; exact: rank_leq_col.
have ex x : x \in s0 -> x = 0 \/ 0 < x by move=> hx; have := allP pos x hx; rewrite le0r => /orP[/eqP|]; [left | right].
have kz : row_mx (mx p m D) (mx p n C) *m K = 0.
  rewrite -DCE hM /K mulmx_rsub -mulmxA -mulmxA hV mulmx1; apply/matrixP => i j; rewrite [LHS]mxE [LHS]mxE big1 ?mxE // => k _.
  rewrite !mxE; case: eqP => [e|_]; last by rewrite mulr0.
  rewrite (svd_zero so ex) ?mulr0 // e /=.
  by rewrite -(svd_rank hU hV hM ss so (lexx 0) ex) (leq_trans rk) ?leq_addr.
have kz2 : mx p m D *m Ku + mx p n C *m Kx = 0 by rewrite -mul_row_col vsubmxK.
have gX (i j : 'I_n) : get w i j = Kx i j.
  have hi : (i + m < m + n)%N by rewrite addnC ltn_add2l.
  have hj : (j + m < m + n)%N by rewrite addnC ltn_add2l.
  rewrite /w get_mk /= ?rv ?cv; try by apply: leq_trans (ltn_ord _) _; rewrite leq_addl.
  by rewrite !modn_small // get_mk ?rv ?cv // !mxE /= ![(m + _)%N]addnC.
have gU (i : 'I_m) (j : 'I_n) : get w (n + i) j = Ku i j.
  have hi : (n + i < m + n)%N by rewrite addnC ltn_add2r.
  have hj : (j + m < m + n)%N by rewrite addnC ltn_add2l.
  have e1 : ((n + i + m) %% (m + n) = i)%N.
    by rewrite addnAC (addnC n m) modnDl modn_small //; apply: leq_trans (ltn_ord _) (leq_addr _ _).
  rewrite /w get_mk /= ?rv ?cv //; last by apply: leq_trans (ltn_ord _) _; rewrite leq_addl.
  rewrite e1 (modn_small hj) get_mk ?rv ?cv //; last by apply: leq_trans (ltn_ord _) (leq_addr _ _).
  by rewrite !mxE /= [(m + _)%N]addnC.
have hMq : mx n n Mq = Kx by apply/matrixP => i j; rewrite mxE get_subm ?subn0 // !add0n gX.
have hNq : mx n n Nq = mx n n A *m Kx + mx n m B *m Ku.
  apply/matrixP => i j; rewrite mxE get_subm ?subn0 // !add0n.
  have hj : (j < m + n)%N by apply: leq_trans (ltn_ord _) (leq_addl _ _).
  rewrite get_mul /= ?rA ?cA ?cB ?rv ?cv //.
  rewrite sumNE big_split_ord /= !mxE; congr (_ + _); apply: eq_bigr => k _.
    by rewrite get_mk /= ?rA ?cA ?cB ?ltn_ord ?gX // ?mxE //; apply: leq_trans (ltn_ord _) (leq_addr _ _).
  by rewrite [get (ahcat _ _) _ _]get_mk /= ?rA ?cA ?cB ?ltn_add2l // (ltnNge (n + k)) leq_addr /= addKn gU [mxof _ _ _ _ _ _]mxE.
have hN2 : mx n n Nq = (mx n n A - mx n m B *m X) *m Kx.
  rewrite hNq mulmxBl; congr (_ + _); apply/eqP; rewrite -addr_eq0; apply/eqP.
  by rewrite hB -!mulmxA -mulmxDr (mulmxA _ X) -hC kz2 mulmx0.
move=> [sz [c [c0 hq]]] reg; rewrite /= subn0 in sz.
have nq : nr Mq = n by rewrite /= subn0.
rewrite nq in hq; pose F := map_mx f (mx n n A - mx n m B *m X).
have eM : mxof f n n Mq = map_mx f Kx by rewrite mx_map hMq.
have eN : mxof f n n Nq = F *m map_mx f Kx by rewrite mx_map hN2 map_mxM.
have K0 : \det (map_mx f Kx) != 0.
  case: reg => [[t]|rd].
    rewrite eM eN -mul_scalar_mx -mulmxBl det_mulmx; apply: contraNneq => ->; by rewrite mulr0.
  rewrite det_map_mx fmorph_eq0 -unitfE -unitmxE.
  have /row_fullP[G hG] : row_full (mx p m D) by rewrite /row_full rd.
  have kU : Ku = - (X *m Kx).
    by apply/eqP; rewrite -addr_eq0 -[Ku]mul1mx -hG -(mulmxA G) -[X *m Kx]mul1mx -hG -(mulmxA G) -mulmxDr mulmxA -hC kz2 mulmx0.
  have kE : K = col_mx (- X) 1%:M *m Kx by rewrite mul_col_mx mul1mx mulNmx -kU vsubmxK.
  by have := KK; rewrite {2}kE mulmxA => /mulmx1_unit[].
have hq' s : \det (s *: map_mx f Kx - F *m map_mx f Kx) = c * \prod_(x <- qz Mq Nq) (s * x.1 - x.2) by rewrite -eN -eM hq.
have [e d] := gev f K0 sz c0 hq'.
by exists [seq x.2 / x.1 | x <- qz Mq Nq]; rewrite size_map.
Qed.
End Final.

Section Zf.
Variables (R : realFieldType) (L : fieldType) (f : {rmorphism R -> L}).
Implicit Types (A B C D : arr R).
Local Notation mx := (mxof [rmorphism of @idfun R]).

(* zs are the eigenvalues of an F that decides where the system matrix loses rank *)
Definition zf n m p A B C D (zs : seq L) : Prop := exists k (F : 'M[L]_k) rk d,
  [/\ size zs = k, d != 0, forall s, \det (F - s%:M) = d * \prod_(z <- zs) (s - z),
    forall s, \rank (sysa f n m p A B C D s) = (\rank (F - s%:M)%R + rk)%N &
    p = m -> (exists t, \rank (sysa f n m p A B C D t) = (n + m)%N) ->
      exists c, c != 0 /\ forall s, gdet (sysa f n m p A B C D s) = c * \det (F - s%:M)].

Lemma gdet_full a b (M : 'M[L]_(a, b)) : a = b -> \rank M = b -> gdet M != 0.
Proof. by move=> e; subst b => h; rewrite gdetE -unitfE -unitmxE -row_free_unit /row_free h. Qed.

Lemma zf_defl n m p A B C D n' p' A' B' C' D' zs : deflated f m n p A B C D n' p' A' B' C' D' -> zf n' m p' A' B' C' D' zs ->
  zf n m p A B C D zs.
Proof.
move=> [[n'l p'l] _ _ [Rk Dt] _] [k [F [rk [d [sz d0 hd hr hg]]]]]; exists k, F, (rk + (n - n'))%N, d.
have Rk' s : \rank (sysa f n m p A B C D s) = (\rank (sysa f n' m p' A' B' C' D' s) + (n - n'))%N by rewrite -!pen_rank.
split=> // [s|pm [t ht]]; first by rewrite Rk' hr addnA.
have h1 : \rank (sysa f n' m p' A' B' C' D' t) = (n' + m)%N by move: ht; rewrite Rk'; move: n'l; clear; lia.
have p'm : p' = m by have := rank_leq_row (sysa f n' m p' A' B' C' D' t); rewrite h1; move: p'l; rewrite pm; clear; lia.
have [c1 [c10 hc]] := Dt pm p'm; have [c2 [c20 hc2]] := hg p'm (ex_intro _ t h1).
exists ((gdet (swp L n m))^-1 * (c1 * (gdet (swp L n' m) * c2))); split.
  by rewrite !mulf_neq0 ?invr_eq0 ?swp_det.
move=> s; apply: (mulfI (swp_det L n m)); rewrite -pen_det // hc pen_det // hc2 !mulrA mulfV ?swp_det ?mul1r //.
Qed.

Lemma zf_dual n m p A B C D zs : shp A = (n, n) -> shp B = (n, m) -> shp C = (p, n) -> shp D = (p, m) ->
  zf n p m (aT A) (aT C) (aT B) (aT D) zs -> zf n m p A B C D zs.
Proof.
move=> sA sB sC sD [k [F [rk [d [sz d0 hd hr hg]]]]]; exists k, F, rk, d.
have Rk s : \rank (sysa f n p m (aT A) (aT C) (aT B) (aT D) s) = \rank (sysa f n m p A B C D s) by rewrite (dual_sys f s sA sB sC sD) mxrank_tr.
split=> // [s|pm [t ht]]; first by rewrite -Rk hr.
have [|c [c0 hc]] := hg (esym pm); first by exists t; rewrite Rk ht pm.
exists c; split=> // s; by rewrite -hc (dual_sys f s sA sB sC sD) gdetT // pm.
Qed.

Lemma zf_empty m p A B C D : zf 0 m p A B C D [::].
Proof.
have e s : sysa f 0 m p A B C D s = sysa f 0 m p A B C D 0.
  by rewrite /sysa /sysmx; congr (block_mx _ _ _ _); apply/matrixP => -[].
exists 0%N, 0, (\rank (sysa f 0 m p A B C D 0)), 1; split=> //; first exact: oner_neq0.
- by move=> s; rewrite det_mx00 big_nil mulr1.
- by move=> s; rewrite e; have := rank_leq_row (0 - s%:M : 'M[L]_0); rewrite leqn0 => /eqP ->.
move=> pm [t]; rewrite e => ht; exists (gdet (sysa f 0 m p A B C D 0)); split; first by apply: gdet_full; rewrite // pm.
by move=> s; rewrite e det_mx00 mulr1.
Qed.

Lemma zf_final n m p A B C D (X : 'M[R]_(m, n)) (Y : 'M[R]_(n, p)) zs : shp A = (n, n) -> shp B = (n, m) -> shp C = (p, n) -> shp D = (p, m) ->
  mx p n C = mx p m D *m X -> mx n m B = Y *m mx p m D -> size zs = n ->
  (exists d, d != 0 /\ forall s, \det (map_mx f (mx n n A - mx n m B *m X) - s%:M) = d * \prod_(z <- zs) (s - z)) ->
  zf n m p A B C D zs.
Proof.
move=> sA sB sC sD hC hB sz [d [d0 hd]].
exists n, (map_mx f (mx n n A - mx n m B *m X)), (\rank (mx p m D)), d.
have hC' : mxof f p n C = mxof f p m D *m map_mx f X by rewrite !(mx_map f) hC map_mxM.
have hB' : mxof f n m B = map_mx f Y *m mxof f p m D by rewrite !(mx_map f) hB map_mxM.
have Fe : map_mx f (mx n n A - mx n m B *m X) = mxof f n n A - mxof f n m B *m map_mx f X by rewrite map_mxB map_mxM -!(mx_map f).
split=> // [s|pm [t ht]].
  by rewrite /sysa (sys_rank _ hC' hB') Fe (mx_map f p m) mxrank_map.
exists (gdet (mxof f p m D)); split.
  have : gdet (sysa f n m p A B C D t) != 0 by apply: gdet_full; rewrite // pm.
  by rewrite /sysa (sys_det _ hC' hB') //; apply: contraNneq => ->; rewrite mulr0.
by move=> s; rewrite /sysa (sys_det _ hC' hB') // Fe mulrC.
Qed.
End Zf.

Section Main.
Variables (R : realFieldType) (L : fieldType) (f : {rmorphism R -> L}).
Variable npsvd : arr R -> arr R * seq R * arr R.
Variable spac : R.
Variable meps : arr R -> arr R -> arr R -> R.
Variable qz : arr R -> arr R -> seq (L * L).
Hypothesis sp0 : 0 <= spac.
Implicit Types (A B C D : arr R).
Local Notation mx := (mxof [rmorphism of @idfun R]).

Lemma aTK A : wfa A -> aT (aT A) = A.
Proof. by move=> w; apply: arr_eqP; rewrite ?wfa_T //= => i j hi hj; rewrite !get_mk. Qed.

Lemma aany_dims A : aany A -> (0 < nr A)%N /\ (0 < nc A)%N.
Proof. by case/aanyP => i [j [hi hj _]]; split; [apply: leq_ltn_trans hi | apply: leq_ltn_trans hj]. Qed.

(* matrix_rank *)
Lemma rankP m p D : wfa D -> shp D = (p, m) -> (0 < p)%N -> (0 < m)%N -> svd_at npsvd (smax (npsvd D).1.2 * (maxn (nr D) (nc D))%:R * spac) D ->
  exists u s v, haroldsvd npsvd spac D None = Ok (u, s, v, \rank (mx p m D)).
Proof.
move=> w [rD cD] p0 m0 [ok ex]; rewrite /haroldsvd; case E: (npsvd D) => [[u s0] v]; rewrite E /= in ok ex.
have [hU hV hM] := svd_mx w ok; have [[wu su wv sv] _ _ [ss pos so] _] := ok.
have s1 : (s0 == [::]) = false by apply/negbTE; rewrite -size_eq0 ss rD cD; move: p0 m0; clear; lia.
rewrite s1; cbn [bind]; eexists; eexists; eexists; congr (Ok (_, _, _, _)); rewrite -rD -cD (svd_rank hU hV hM ss so _ ex) //.
by rewrite !mulr_ge0 ?smax_ge0 ?ler0n.
Qed.

(* stage 1 *)
Lemma firstP n m p A B C D : wfa A -> wfa B -> wfa C -> wfa D -> shp A = (n, n) -> shp B = (n, m) -> shp C = (p, n) -> shp D = (p, m) -> (0 < n)%N ->
  let r := \rank (mx p m D) in (r <> nr D -> red_exact npsvd spac meps A B C D) ->
  (tz_first npsvd spac meps r A B C D = Ok (tz_empty R) /\ exists p' A' B' C' D', deflated f m n p A B C D 0 p' A' B' C' D') \/
  exists n' p' A' B' C' D', [/\ tz_first npsvd spac meps r A B C D = Ok (A', B', C', D'), (0 < n')%N,
    deflated f m n p A B C D n' p' A' B' C' D' & ((mx p' n' C')^T <= (mx p' m D')^T)%MS].
Proof.
move=> wA wB wC wD sA sB sC sD n0 r ex; rewrite /tz_first; case: eqP => [e|ne].
  right; exists n, p, A, B, C, D; split=> //; first exact: deflated_refl.
  by apply: submx_full; rewrite /row_full mxrank_tr -/r e; case: sD => ->.
have [t0 exl] := ex ne; rewrite /tz_reduce; have [rA _] := sA; rewrite rA in exl *.
by apply: loopP => //; rewrite n0 leqnn.
Qed.

Lemma tzP n m p A B C D : wfa A -> wfa B -> wfa C -> wfa D -> shp A = (n, n) -> shp B = (n, m) -> shp C = (p, n) -> shp D = (p, m) ->
  aany B -> aany C -> tz_exact f npsvd spac meps qz A B C D ->
  (exists t, (n < \rank (sysa f n m p A B C D t))%N) ->
  at_final npsvd spac meps (final_regular f npsvd) A B C D \/ (exists t, \rank (sysa f n m p A B C D t) = (n + m)%N) ->
  exists zs, transmission_zeros npsvd spac meps qz A B C D = Ok [seq Some z | z <- zs] /\ zf f n m p A B C D zs.
Proof.
move=> wA wB wC wD sA sB sC sD aB aC [exD ex] [t0 ht0] reg.
have [rA cA] := sA; have [rB cB] := sB; have [rC cC] := sC; have [rD cD] := sD.
have [n0 m0] : (0 < n)%N /\ (0 < m)%N by rewrite -rB -cB; apply: aany_dims.
have p0 : (0 < p)%N by rewrite -rC; case: (aany_dims aC).
have [u [sg [v ER]]] := rankP wD sD p0 m0 exD; set r := \rank _ in ER.
rewrite /transmission_zeros ER; cbn [bind]; rewrite aB aC /= rD cD.
have Er : res_map snd (haroldsvd npsvd spac D None) = Ok r by rewrite ER.
have := ex r Er; have {reg} : (if tz_direct r p m then final_regular f npsvd A B C D else forall S T, tz_first npsvd spac meps r A B C D = Ok S ->
   tz_second npsvd spac meps S = Ok T -> let: (Ac, Bc, Cc, Dc) := T in final_regular f npsvd Ac Bc Cc Dc) \/
   (exists t, \rank (sysa f n m p A B C D t) = (n + m)%N).
  by case: reg => [/(_ r Er)|]; [rewrite rD cD; left | right].
rewrite rD cD; case: ifP => dir reg.
  have [pm rm] : p = m /\ r = m.
    have rp : (r <= p)%N := rank_leq_row _.
    case/orP: dir => [/and3P[/eqP p1 /eqP m1 r1]|/andP[/eqP e /eqP e2]].
      by split; move: rp; rewrite p1 m1 in r1 *; move: r1; clear; lia.
    by split=> //; rewrite e e2 minnn.
  have /submxP[Z hZ] : ((mx p n C)^T <= (mx p m D)^T)%MS by apply: submx_full; rewrite /row_full mxrank_tr -/r rm pm.
  have /submxP[Y hY] : (mx n m B <= mx p m D)%MS by apply: submx_full; rewrite /row_full -/r rm.
  have hC : mx p n C = mx p m D *m Z^T by apply: trmx_inj; rewrite trmx_mul trmxK.
  move=> exF; have [|zs [E sz hd]] := finalP wA wB wC wD sA sB sC sD hC hY exF; first by right.
  exists zs; rewrite E; split=> //; exact: zf_final hC hY sz hd.
case=> ex1 ex2.
have [[E [p' [A' [B' [C' [D' df]]]]]]|[n1 [p1 [A1 [B1 [C1 [D1 [E n10 df cd]]]]]]]] := firstP wA wB wC wD sA sB sC sD n0 (fun h => ex1 (eq_ind _ (fun x => r <> x) h _ rD)).
  exists [::]; rewrite E /=; split=> //; apply: zf_defl df _; exact: zf_empty.
rewrite E; cbn [bind].
have [[n1l p1l] [sA1 sB1 sC1 sD1] [wA1 wB1 wC1 wD1] [Rk1 _] _] := df.
have [rA1 cA1] := sA1; have [rB1 cB1] := sB1; have [rC1 cC1] := sC1; have [rD1 cD1] := sD1.
have sz1 : asize A1 <> 0%N by rewrite /asize rA1 cA1; move: n10; clear; lia.
case: eqP => // _.
have [[t20 exl2] ex3] := ex2 _ _ _ _ E sz1.
have Rk s : \rank (sysa f n m p A B C D s) = (\rank (sysa f n1 m p1 A1 B1 C1 D1 s) + (n - n1))%N by rewrite -!pen_rank.
have nz : aany (ahcat C1 D1) || (p1 != m).
  case an : (aany _) => //=; apply/negP => /eqP pm.
  have := aany_false (wfa_mk _ _ _) an => z.
  have C10 : mxof f p1 n1 C1 = 0.
    apply/matrixP => i j; have := congr1 (fun X => get X i j) z; rewrite get_azeros get_mk ?rC1 ?cC1 ?rD1 ?cD1 //; last by apply: leq_trans (ltn_ord _) (leq_addr _ _).
    by rewrite ltn_ord !mxE => ->; rewrite rmorph0.
  have D10 : mxof f p1 m D1 = 0.
    apply/matrixP => i j; have := congr1 (fun X => get X i (n1 + j)) z; rewrite get_azeros get_mk ?rC1 ?cC1 ?rD1 ?cD1 ?ltn_add2l //.
    by rewrite (ltnNge (n1 + j)) leq_addr /= addKn !mxE => ->; rewrite rmorph0.
  have : (\rank (sysa f n1 m p1 A1 B1 C1 D1 t0) <= n1)%N.
    rewrite /sysa /sysmx C10 D10 /block_mx row_mx0 rank_col_mx0; exact: rank_leq_row.
  by move: ht0; rewrite Rk; move: n1l; clear; lia.
have sTA : shp (aT A1) = (n1, n1) by rewrite /shp /= rA1 cA1.
have sTB : shp (aT C1) = (n1, p1) by rewrite /shp /= rC1 cC1.
have sTC : shp (aT B1) = (m, n1) by rewrite /shp /= rB1 cB1.
have sTD : shp (aT D1) = (m, p1) by rewrite /shp /= rD1 cD1.
move: reg ex3; rewrite /tz_second rD1 cD1 nz /tz_reduce.
have -> : nr (aT A1) = n1 by rewrite /= cA1.
have en1 : (0 < n1 <= n1)%N by rewrite n10 leqnn.
have exl2' : loop_exact npsvd spac n1 (meps (aT A1) (aT C1) (aT B1)) (aT A1, aT C1, aT B1, aT D1) by move: exl2; rewrite /= cA1.
have [[-> [m2 [A2 [B2 [C2 [D2 df2]]]]]]|[n2 [m2 [a [c [b [d [E2 n20 df2 bd]]]]]]]] := loopP f t20 (wfa_T _) (wfa_T _) (wfa_T _) (wfa_T _) sTA sTB sTC sTD en1 exl2'.
  move=> _ _; exists [::]; split=> //; apply: zf_defl df _; apply: zf_dual => //; apply: zf_defl df2 _; exact: zf_empty.
rewrite E2; cbn [bind] => reg ex3.
have [[n2l m2l] [sa sc sb sd] [wa wc wb wd] [Rk2 _] bcd] := df2.
have [ra ca] := sa; have [rb cb] := sb; have [rc cc] := sc; have [rd cd'] := sd.
have szn : asize (aT a) <> 0%N by rewrite /asize /= ra ca; move: n20; clear; lia.
case: eqP => // _.
have exF := ex3 _ _ _ _ erefl szn.
have sa' : shp (aT a) = (n2, n2) by rewrite /shp /= ra ca.
have sb' : shp (aT b) = (n2, m2) by rewrite /shp /= rb cb.
have sc' : shp (aT c) = (p1, n2) by rewrite /shp /= rc cc.
have sd' : shp (aT d) = (p1, m2) by rewrite /shp /= rd cd'.
have /submxP[Z hZ] : (mx n2 p1 c <= mx m2 p1 d)%MS by apply: bcd; rewrite (mxT sC1) (mxT sD1).
have /submxP[W hW] := bd.
have hC : mx p1 n2 (aT c) = mx p1 m2 (aT d) *m Z^T by rewrite (mxT sc) (mxT sd) hZ trmx_mul.
have hB : mx n2 m2 (aT b) = W *m mx p1 m2 (aT d) by rewrite (mxT sb) (mxT sd).
have back zs : zf f n2 m2 p1 (aT a) (aT b) (aT c) (aT d) zs -> zf f n m p A B C D zs.
  move=> h; apply: zf_defl df _; apply: zf_dual => //; apply: zf_defl df2 _; apply: zf_dual => //.
have [|zs [EF sz hd]] := finalP (wfa_T _) (wfa_T _) (wfa_T _) (wfa_T _) sa' sb' sc' sd' hC hB exF.
  case: reg => [reg|[t ht]]; [left | right].
    have := reg _ _ E; rewrite rD1 cD1 nz /tz_reduce /= cA1 E2 => h; exact: (h _ erefl).
  have h1 : \rank (sysa f n2 m2 p1 (aT a) (aT b) (aT c) (aT d) t) = (n2 + m)%N.
    have := Rk2 t; rewrite dual_rank // -[in X in _ = X](aTK wa) -[in X in _ = X](aTK wb) -[in X in _ = X](aTK wc) -[in X in _ = X](aTK wd).
    by rewrite dual_rank //; have := Rk t; rewrite ht; move: n1l n2l; clear; lia.
  have hC' : mxof f p1 n2 (aT c) = mxof f p1 m2 (aT d) *m map_mx f Z^T by rewrite !(mx_map f) hC map_mxM.
  have hB' : mxof f n2 m2 (aT b) = map_mx f W *m mxof f p1 m2 (aT d) by rewrite !(mx_map f) hB map_mxM.
  have := sys_rank (mxof f n2 n2 (aT a)) hC' hB' t.
  rewrite -/(sysa f n2 m2 p1 (aT a) (aT b) (aT c) (aT d) t) h1 (mx_map f p1 m2) mxrank_map.
  have := rank_leq_row (mxof f n2 n2 (aT a) - mxof f n2 m2 (aT b) *m map_mx f Z^T - t%:M).
  by have := rank_leq_col (mx p1 m2 (aT d)); move: m2l; clear; lia.
by exists zs; rewrite EF; split=> //; apply: back; apply: zf_final hC hB sz hd.
Qed.
End Main.
