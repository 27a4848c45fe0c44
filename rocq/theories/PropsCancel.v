(* C86: what cancellation_distance promises. *)
From mathcomp Require Import all_ssreflect all_algebra zify.
From Verif Require Import Base BaseTheory RingTac ModelCancel SpecCancel CancelTheory.

Set Implicit Arguments.
Unset Strict Implicit.
Unset Printing Implicit Defensive.

Import Order.TTheory GRing.Theory Num.Theory.
Local Open Scope ring_scope.

Section PropsCancel.
Variable C : numClosedFieldType.
Variable rndq : nat -> nat -> arr C.
Variable eig : arr C -> seq C * arr C.
Variable cond : arr C -> C.
Variable svdvals : arr C -> seq C.
Notation cancel := (cancellation_distance rndq eig cond svdvals).
Notation pencil F G p := (row_mx (F - p%:M) G)^T.

(* ---- arrays and matrices ---- *)
Lemma cmxE m n (A : arr C) : cmx m n A = mxof [rmorphism of @idfun C] m n A.
Proof. by apply/matrixP => i j; rewrite !mxE. Qed.

Lemma cd_pencilE n m (F G : arr C) p : shp F = (n, n) -> shp G = (n, m) ->
  shp (cd_pencil F G p) = ((n + m)%N, n) /\ cmx (n + m) n (cd_pencil F G p) = pencil (cmx n n F) (cmx n m G) p.
Proof.
move=> [F1 F2] [G1 G2]; rewrite /cd_pencil /cd_A; split; first by rewrite /shp /= F1 F2 G2.
rewrite !cmxE mxof_sub /= ?F1 ?F2 ?G2 // (@mxof_T _ _ _ n (n + m)) /= ?F1 ?F2 ?G2 // mxof_hcat //.
have -> : row_mx (mxof [rmorphism of @idfun C] n n F - p%:M) (mxof [rmorphism of @idfun C] n m G) =
  row_mx (mxof [rmorphism of @idfun C] n n F) (mxof [rmorphism of @idfun C] n m G) - row_mx p%:M 0.
  by rewrite opp_row_mx add_row_mx oppr0 addr0.
rewrite linearB /=; congr (_ - _); rewrite mxof_scale //= mxof_mk; apply/matrixP => i j; rewrite !mxE /=.
case: splitP => k hk; rewrite !mxE hk.
  by rewrite -val_eqE /= eq_sym mulr_natr.
by rewrite gtn_eqF ?mulr0 // ltn_addr.
Qed.

Lemma cd_squareE n m (F G : arr C) : shp F = (n, n) -> shp G = (n, m) -> shp (rndq (n + m) m) = ((n + m)%N, m) ->
  shp (cd_square rndq F G) = ((n + m)%N, (n + m)%N) /\
  cmx (n + m) (n + m) (cd_square rndq F G) = row_mx (row_mx (cmx n n F) (cmx n m G))^T (cmx (n + m) m (rndq (n + m) m)).
Proof.
move=> [F1 F2] [G1 G2] [Q1 Q2]; rewrite /cd_square /cd_A F1 G2; split; first by rewrite /shp /= F1 F2 G2 Q2.
rewrite !cmxE mxof_hcat //= ?F2 ?G2 //; congr row_mx; rewrite (@mxof_T _ _ _ n (n + m)) /= ?F1 ?F2 ?G2 // mxof_hcat //.
Qed.

Lemma vnormE k (v : arr C) : nr v = k -> vnorm v = vn (cmx k 1 v).
Proof. by move=> <-; rewrite /vnorm /vn sumNE; congr sqrtC; apply: eq_bigr => i _; rewrite mxE. Qed.
Lemma cd_DE n m : cmx (n + m) m (cd_D C (n + m) n) = col_mx 0 1%:M.
Proof.
apply/matrixP => i j; rewrite mxE get_mk ?addKn // !mxE; case: splitP => k hk; rewrite !mxE hk.
  by rewrite ltn_eqF // ltn_addr.
by rewrite eqn_add2l.
Qed.
Lemma asubm_X n m (V : arr C) f (fn : (f < n + m)%N) :
  cmx n 1 (asubm V 0 n f f.+1) = usubmx (col (Ordinal fn) (cmx (n + m) (n + m) V)).
Proof. by apply/matrixP => i j; rewrite ord1 mxE get_mk ?subn0 ?subSnn // !mxE /= add0n addn0. Qed.
Lemma asubm_Y n m (V : arr C) f (fn : (f < n + m)%N) :
  cmx m 1 (asubm V n (n + m) f f.+1) = dsubmx (col (Ordinal fn) (cmx (n + m) (n + m) V)).
Proof. by apply/matrixP => i j; rewrite ord1 mxE get_mk ?addKn ?subSnn // !mxE /= addn0. Qed.

(* upp0[f] *)
Lemma upp0E n m (Q V : arr C) ev f (fn : (f < n + m)%N) : shp Q = ((n + m)%N, m) ->
  let z := col (Ordinal fn) (cmx (n + m) (n + m) V) in
  cd_upp0 (n + m) n Q V ev f = if vn (usubmx z) == 0 then None
    else Some (vn ((cmx (n + m) m Q - ev`_f *: col_mx 0 1%:M) *m dsubmx z) / vn (usubmx z)).
Proof.
move=> [Q1 Q2] z.
have hX : vnorm (asubm V 0 n f f.+1) = vn (usubmx z) by rewrite -(asubm_X V fn); apply: vnormE; rewrite /= subn0.
have hY : vnorm (amul (asub Q (ascale ev`_f (cd_D C (n + m) n))) (asubm V n (n + m) f f.+1)) =
    vn ((cmx (n + m) m Q - ev`_f *: col_mx 0 1%:M) *m dsubmx z).
  rewrite -(asubm_Y V fn) -(cd_DE n m) (@vnormE (n + m)) //; congr vn.
  rewrite !cmxE (@mxof_mul _ _ _ _ m) ?subSnn //=; last by rewrite subSnn.
  by rewrite mxof_sub // mxof_scale //= addKn.
by rewrite /cd_upp0 hX hY.
Qed.

(* the parts of an answer *)
Lemma cancelE n m (F G : arr C) r : shp F = (n, n) -> shp G = (n, m) -> cancel F G = Ok r ->
  let M := cd_square rndq F G in
  let upp := [seq cd_upp0 (n + m) n (rndq (n + m) m) (eig M).2 (eig M).1 x | x <- iota 0 (n + m)] in
  [/\ (0 < n)%N, e_f r = (eig M).1`_(argmin upp) /\ upper1 r = nth None upp (argmin upp),
      upper2 r = last 0 (svdvals (cd_pencil F G (e_f r))), lower0 r = upper2 r / (cond (eig M).2 + 1) &
      radius r = upper2 r * cond (eig M).2].
Proof.
move=> [F1 F2] [G1 G2]; rewrite /cancellation_distance F1 F2 G1 G2 !eqxx /=.
case E: (eig _) => [ev V]; rewrite addKn; case: (eqVneq n 0%N) => //= n0 [<-] /=.
by split => //; rewrite lt0n.
Qed.

(* ---- the claims ---- *)

(* upper2 is the distance from [F | G] to the pairs that are rank deficient at e_f: some perturbation of norm upper2
   makes [F + dF - e_f I | G + dG] rank deficient, and no smaller one does *)
Theorem C86_upper2 n m (F G : arr C) r : shp F = (n, n) -> shp G = (n, m) -> cancel F G = Ok r ->
  svd_ok svdvals (cd_pencil F G (e_f r)) ->
  (exists dF dG, pert_le dF dG (upper2 r) /\ deficient (cmx n n F + dF) (cmx n m G + dG) (e_f r)) /\
  forall dF dG b, pert_le dF dG b -> deficient (cmx n n F + dF) (cmx n m G + dG) (e_f r) -> upper2 r <= b.
Proof.
move=> sF sG h hs; have [_ _ u2 _ _] := cancelE sF sG h.
have [sp pe] := cd_pencilE (e_f r) sF sG; have := hs _ _ sp; rewrite pe -u2.
exact: dist_at.
Qed.

(* upper1 is softer *)
Theorem C86_upper1 n m (F G : arr C) r v : shp F = (n, n) -> shp G = (n, m) -> shp (rndq (n + m) m) = ((n + m)%N, m) ->
  cancel F G = Ok r -> svd_ok svdvals (cd_pencil F G (e_f r)) -> eig_ok eig (cd_square rndq F G) ->
  upper1 r = Some v -> upper2 r <= v.
Proof.
move=> sF sG sQ h hs he hv; have [n0 [ef u1] u2 _ _] := cancelE sF sG h.
have [sp pe] := cd_pencilE (e_f r) sF sG; have hsv := hs _ _ sp; rewrite pe -u2 in hsv.
have [ss se] := cd_squareE sF sG sQ; have [sz sV [uV hV] _] := he _ ss; rewrite se in hV.
move: ef u1; set f := argmin _ => ef u1.
have fn : (f < n + m)%N.
  by rewrite ltnNge; apply/negP => hf; move: u1; rewrite nth_default ?hv // size_map size_iota.
rewrite u1 (nth_map 0%N) ?size_iota // nth_iota // add0n in hv.
move: hv hV ef; set V := (eig _).2; set ev := (eig _).1 => hv hV ef.
pose z := col (Ordinal fn) (cmx (n + m) (n + m) V).
have hz : row_mx (row_mx (cmx n n F) (cmx n m G))^T (cmx (n + m) m (rndq (n + m) m)) *m z = e_f r *: z.
  apply/matrixP => i j; have /matrixP/(_ i (Ordinal fn)) := hV; rewrite mul_mx_diag [in X in _ = X]mxE [X in _ * X]mxE -ef => e.
  rewrite [RHS]mxE [z i j]mxE mulrC -e !mxE; apply: eq_bigr => k _; by rewrite [z k j]mxE.
rewrite -[z]vsubmxK in hz.
move: hv; rewrite (upp0E _ _ fn sQ) -/z -ef; case: eqP => // /eqP x0 [<-].
by apply: upper_le hz hsv _; rewrite -vn_eq0.
Qed.

Lemma min_real (a b : C) : a \is Num.real -> b \is Num.real -> [/\ Num.min a b = a \/ Num.min a b = b, Num.min a b <= a & Num.min a b <= b].
Proof.
move=> ra rb; rewrite minEle; case: ifP => h; first by split => //; left.
split=> //; first by right.
by rewrite ltW // real_ltNge // h.
Qed.
Lemma foldr_min (v : C) vs : all (fun x => x \is Num.real) (v :: vs) ->
  foldr Num.min v vs \in v :: vs /\ forall x, x \in v :: vs -> foldr Num.min v vs <= x.
Proof.
elim: vs => [|a vs ih] /=; first by move=> _; split => [|x]; rewrite inE // => /eqP ->.
case/and3P => rv ra rvs; have [i1 i2] := ih (introT andP (conj rv rvs)).
have rm : foldr Num.min v vs \is Num.real by apply: (allP (introT andP (conj rv rvs) : all _ (v :: vs))).
have [e1 e2 e3] := min_real ra rm; split.
  by case: e1 => ->; move: i1; rewrite !inE ?eqxx ?orbT // => /orP [->|->]; rewrite ?orbT.
move=> x; rewrite !inE => /or3P [/eqP ->|/eqP ->//|hx].
  by apply: le_trans e3 _; apply: i2; rewrite inE eqxx.
by apply: le_trans e3 _; apply: i2; rewrite inE hx orbT.
Qed.
Lemma argminP (s : seq (option C)) w : (forall x, Some x \in s -> x \is Num.real) -> Some w \in s ->
  exists2 v, nth None s (argmin s) = Some v & v <= w.
Proof.
move=> rs hw; rewrite /argmin; have pm x : (x \in pmap id s) = (Some x \in s).
  by rewrite mem_pmap map_id.
case E: (pmap id s) => [|v vs]; first by move: hw; rewrite -pm E.
have [m1 m2] : foldr Num.min v vs \in v :: vs /\ forall x, x \in v :: vs -> foldr Num.min v vs <= x.
  by apply: foldr_min; rewrite -E; apply/allP => x; rewrite pm => /rs.
exists (foldr Num.min v vs); last by apply: m2; rewrite -E pm.
by apply: nth_index; rewrite -pm E.
Qed.

(* the eigenvalue is chosen by upper1: of the eigenvectors (X; Y) with X nonzero, it has the least |(C - l D) Y| / |X| *)
Theorem C86_chosen n m (F G : arr C) r (j : 'I_(n + m)) : shp F = (n, n) -> shp G = (n, m) ->
  shp (rndq (n + m) m) = ((n + m)%N, m) -> cancel F G = Ok r ->
  let z := col j (cmx (n + m) (n + m) (eig (cd_square rndq F G)).2) in
  let ev := (eig (cd_square rndq F G)).1 in
  usubmx z != 0 -> exists2 v, upper1 r = Some v &
    v <= vn ((cmx (n + m) m (rndq (n + m) m) - ev`_j *: col_mx 0 1%:M) *m dsubmx z) / vn (usubmx z).
Proof.
move=> sF sG sQ h z ev z0; have [n0 [ef u1] u2 _ _] := cancelE sF sG h.
rewrite u1; apply: argminP.
  move=> x /mapP [i]; rewrite mem_iota add0n => hi; rewrite (upp0E _ _ hi sQ); case: eqP => // _ [->].
  by rewrite ger0_real // divr_ge0 ?vn_ge0.
apply/mapP; exists (val j); first by rewrite mem_iota /= add0n.
have -> : z = col (Ordinal (ltn_ord j)) (cmx (n + m) (n + m) (eig (cd_square rndq F G)).2) by congr col; apply: val_inj.
rewrite (upp0E _ _ (ltn_ord j) sQ) ifN // vn_eq0.
by move: z0; rewrite /z; congr (usubmx (col _ _) != 0); apply: val_inj.
Qed.

(* wherever [F + dF - p I | G + dG] is rank deficient, p is within K |dF dG| of an eigenvalue that was computed: within
   radius of it when the perturbation is not larger than upper2 *)
Theorem C86_location n m (F G : arr C) r dF dG b p : shp F = (n, n) -> shp G = (n, m) ->
  shp (rndq (n + m) m) = ((n + m)%N, m) -> cancel F G = Ok r ->
  eig_ok eig (cd_square rndq F G) -> cond_ok cond (eig (cd_square rndq F G)).2 ->
  pert_le dF dG b -> b <= upper2 r -> deficient (cmx n n F + dF) (cmx n m G + dG) p ->
  exists2 l, l \in (eig (cd_square rndq F G)).1 & `|l - p| <= radius r.
Proof.
move=> sF sG sQ h he hc hb bu df; have [_ _ _ _ rad] := cancelE sF sG h.
have [ss se] := cd_squareE sF sG sQ; have [sz sV hV _] := he _ ss; have hK := hc _ sV; rewrite se in hV.
have [j hj] := locate hV hK hb df.
exists ((eig (cd_square rndq F G)).1`_j); first by rewrite mem_nth // sz.
move: hj; rewrite mxE => /le_trans; apply; rewrite rad mulrC ler_wpmul2r //.
by case: hK => a [c [a0 c0 _ _ k]]; apply: le_trans k; rewrite mulr_ge0.
Qed.

(* Full statement: no perturbation smaller than lower0 makes [F + dF - p I | G + dG] rank deficient for any p.
   Proved: this holds when e_f is, among the computed eigenvalues, one at which the pencil is nearest to losing rank.
   Missing: the code takes the eigenvalue of least upp0 instead, and C86_lower_refuted shows that then the claim fails. *)
Theorem C86_lower_partial n m (F G : arr C) r dF dG b p : shp F = (n, n) -> shp G = (n, m) ->
  shp (rndq (n + m) m) = ((n + m)%N, m) -> cancel F G = Ok r -> svd_ok svdvals (cd_pencil F G (e_f r)) ->
  eig_ok eig (cd_square rndq F G) -> cond_ok cond (eig (cd_square rndq F G)).2 ->
  (forall l, l \in (eig (cd_square rndq F G)).1 -> exists2 s, smallest_sv (pencil (cmx n n F) (cmx n m G) l) s & upper2 r <= s) ->
  pert_le dF dG b -> deficient (cmx n n F + dF) (cmx n m G + dG) p -> lower0 r <= b.
Proof.
move=> sF sG sQ h hs he hc hmin hb df; have [_ _ u2 low _] := cancelE sF sG h.
have [sp pe] := cd_pencilE (e_f r) sF sG; have := hs _ _ sp; rewrite pe -u2 => -[u20 _ _].
have [ss se] := cd_squareE sF sG sQ; have [sz sV hV _] := he _ ss; have hK := hc _ sV; rewrite se in hV.
rewrite low; apply: (lower hV hK u20 _ hb df) => j u; rewrite mxE.
have [s hsv us] : exists2 s, smallest_sv (pencil (cmx n n F) (cmx n m G) (eig (cd_square rndq F G)).1`_j) s & upper2 r <= s.
  by apply: hmin; rewrite mem_nth // sz.
case: hsv => _ hsv _; apply: le_trans (hsv u); by rewrite ler_wpmul2r ?vn_ge0.
Qed.

(* when the eigenvalues computed are distinct, upper2 is zero exactly when [F - p I | G] loses rank for some p *)
Theorem C86_zero n m (F G : arr C) r : shp F = (n, n) -> shp G = (n, m) -> shp (rndq (n + m) m) = ((n + m)%N, m) ->
  cancel F G = Ok r -> svd_ok svdvals (cd_pencil F G (e_f r)) -> eig_ok eig (cd_square rndq F G) ->
  uniq (eig (cd_square rndq F G)).1 -> (upper2 r = 0 <-> exists p, deficient (cmx n n F) (cmx n m G) p).
Proof.
move=> sF sG sQ h hs he un; have [[dF [dG [hp df]]] _] := C86_upper2 sF sG h hs; split=> [u0|[p]].
  exists (e_f r); case/deficientP: df => u n0; rewrite addrAC -add_row_mx linearD /= mulmxDl => hu.
  apply/deficientP; exists u => //; move: hu.
  have -> : (row_mx dF dG)^T *m u = 0; last by rewrite addr0.
  by apply/eqP; rewrite -vn_eq0 eq_le vn_ge0 andbT; have := hp u; rewrite u0 mul0r.
case/deficientP => u n0 hu.
have [ss se] := cd_squareE sF sG sQ; have [sz sV hV _] := he _ ss; rewrite se in hV.
pose x : 'cV[C]_(n + m) := col_mx u 0.
have x0 : x != 0 by rewrite /x; apply: contra n0 => /eqP; rewrite -(col_mx0 _ n m 1) => /eq_col_mx [-> _].
have hx : row_mx (row_mx (cmx n n F) (cmx n m G))^T (cmx (n + m) m (rndq (n + m) m)) *m x = p *: x.
  move: hu; have -> : row_mx (cmx n n F - p%:M) (cmx n m G) = row_mx (cmx n n F) (cmx n m G) - row_mx p%:M 0.
    by rewrite opp_row_mx add_row_mx oppr0 addr0.
  rewrite linearB /= mulmxBl => /eqP; rewrite subr_eq0 => /eqP hu.
  rewrite mul_row_col mulmx0 addr0 hu tr_row_mx tr_scalar_mx trmx0 mul_col_mx mul_scalar_mx mul0mx.
  by rewrite /x scale_col_mx scaler0.
have dinj : injective ((\row_i (eig (cd_square rndq F G)).1`_i : 'rV[C]_(n + m)) 0).
  by move=> i k /eqP; rewrite !mxE nth_uniq ?sz // => /eqP/val_inj.
have [j [c [_ c0 xE]]] := simple_eig hV dinj x0 hx.
move: xE; set z := col j _ => xE.
have zE : z = c^-1 *: x by rewrite xE scalerA mulVf // scale1r.
have us : usubmx z = c^-1 *: u by rewrite zE linearZ /= /x col_mxKu.
have ds : dsubmx z = 0 by rewrite zE linearZ /= /x col_mxKd scaler0.
have us0 : usubmx z != 0 by rewrite us scaler_eq0 invr_eq0 (negPf c0).
have [v hv] := C86_chosen sF sG sQ h us0; rewrite ds mulmx0 vn0 mul0r => v0.
have uv := C86_upper1 sF sG sQ h hs he hv.
have [_ _ u2 _ _] := cancelE sF sG h; have [sp pe] := cd_pencilE (e_f r) sF sG; have := hs _ _ sp; rewrite -u2 => -[u20 _ _].
by apply/eqP; rewrite eq_le u20 andbT (le_trans uv v0).
Qed.

(* arrays of the wrong shape are refused *)
Theorem C86_errors (F G : arr C) : nr F != nc F \/ nr F != nr G -> cancel F G = Err ValueError.
Proof.
rewrite /cancellation_distance => h; case: eqP => // a; case: eqP => // b; exfalso.
by case: h; rewrite ?a ?b ?eqxx // -a b eqxx.
Qed.
End PropsCancel.
Print Assumptions C86_upper2.
Print Assumptions C86_upper1.
Print Assumptions C86_location.
Print Assumptions C86_lower_partial.
Print Assumptions C86_errors.
Print Assumptions C86_chosen.
Print Assumptions C86_zero.
