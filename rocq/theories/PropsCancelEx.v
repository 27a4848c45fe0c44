(* C86: a pair for which the lower bound of cancellation_distance is wrong; it also meets the hypotheses of the theorems. *)
From mathcomp Require Import all_ssreflect all_algebra zify.
From Verif Require Import Base BaseTheory RingTac ModelCancel SpecCancel CancelTheory PropsCancel.

Set Implicit Arguments.
Unset Strict Implicit.
Unset Printing Implicit Defensive.

Import Order.TTheory GRing.Theory Num.Theory.
Local Open Scope ring_scope.

Section Ex.
Variable C : numClosedFieldType.
Definition k2 : C := 1 + 1.
Definition k4 : C := k2 * k2.
Definition k3 : C := 1 + k2.
Definition k21 : C := k4 * k4 + k4 + 1.
Definition r21 : C := (sqrtC k21)^-1.
Definition r2 : C := (sqrtC k2)^-1.

(* F = [1 0; 0 3], G = [0; -2] *)
Definition xF : arr C := Arr 2 2 [:: [:: 1; 0]; [:: 0; k3]].
Definition xG : arr C := Arr 2 1 [:: [:: 0]; [:: - k2]].
(* the random column came out as (0, 1, 0) *)
Definition xq (_ _ : nat) : arr C := Arr 3 1 [:: [:: 0]; [:: 1]; [:: 0]].
(* the eigenvalues of [A C] are 1, 1 and 2, with eigenvectors (1, 2, -4), (1, -2, 4) and (0, 1, -1), scaled to length 1 *)
Definition xV : arr C := Arr 3 3 [:: [:: r21; r21; 0]; [:: k2 * r21; - (k2 * r21); r2]; [:: - (k4 * r21); k4 * r21; - r2]].
Definition xeig (_ : arr C) : seq C * arr C := ([:: 1; 1; k2], xV).
Definition xsv (_ : arr C) : seq C := [:: sqrtC (k4 + 1); 1].

Lemma k2_gt0 : 0 < k2. Proof. by rewrite addr_gt0 ?ltr01. Qed.
Lemma k4_gt0 : 0 < k4. Proof. by rewrite mulr_gt0 ?k2_gt0. Qed.
Lemma k21_gt0 : 0 < k21. Proof. exact: addr_gt0 (addr_gt0 (mulr_gt0 k4_gt0 k4_gt0) k4_gt0) ltr01. Qed.
Lemma r21_gt0 : 0 < r21. Proof. by rewrite invr_gt0 sqrtC_gt0 k21_gt0. Qed.
Lemma r2_gt0 : 0 < r2. Proof. by rewrite invr_gt0 sqrtC_gt0 k2_gt0. Qed.
Lemma r21E : r21 ^+ 2 * k21 = 1.
Proof. by rewrite /r21 exprVn sqrtCK mulVf ?gt_eqF ?k21_gt0. Qed.
Lemma r2E : r2 ^+ 2 * k2 = 1.
Proof. by rewrite /r2 exprVn sqrtCK mulVf ?gt_eqF ?k2_gt0. Qed.

Lemma xsq_shape : shp (cd_square xq xF xG) = (3%N, 3%N). Proof. by []. Qed.

Lemma sum2 (f : 'I_2 -> C) : \sum_i f i = f 0 + f 1.
Proof. rewrite 2!big_ord_recl big_ord0 addr0; congr (_ + f _); exact: val_inj. Qed.
Lemma sum3 (f : 'I_3 -> C) : \sum_i f i = f 0 + f 1 + f (inord 2).
Proof.
rewrite 3!big_ord_recl big_ord0 addr0 addrA; congr (_ + f _ + f _); apply: val_inj => //=; by rewrite inordK.
Qed.

Lemma k2r : k2 \is Num.real. Proof. exact: gtr0_real k2_gt0. Qed.
Lemma k4r : k4 \is Num.real. Proof. exact: gtr0_real k4_gt0. Qed.
Lemma r21r : r21 \is Num.real. Proof. exact: gtr0_real r21_gt0. Qed.
Lemma r2r : r2 \is Num.real. Proof. exact: gtr0_real r2_gt0. Qed.
Lemma sqr x : x \is Num.real -> `|x : C| ^+ 2 = x ^+ 2. Proof. exact: real_normK. Qed.
Lemma one_sum a b c d e : d ^+ 2 * e = 1 -> a ^+ 2 + b ^+ 2 + c ^+ 2 = d ^+ 2 * e -> a \is Num.real -> b \is Num.real ->
  c \is Num.real -> sqrtC (`|a : C| ^+ 2 + `|b| ^+ 2 + `|c| ^+ 2) = 1.
Proof. by move=> h e1 ra rb rc; rewrite !sqr // e1 h sqrtC1. Qed.

Lemma x_eig : eig_ok xeig (cd_square xq xF xG).
Proof.
move=> n; rewrite xsq_shape => -[<- _]; split => //.
- split.
    rewrite cmxE unit_adet // /adet /get /=.
    rewrite /sumN /= /bump /= !expr0 !expr1 [X in X != 0](_ : _ = - (k4 * (r21 * r21 * r2))).
      by rewrite oppr_eq0 !mulf_neq0 ?gt_eqF ?k2_gt0 ?r21_gt0 ?r2_gt0.
    rewrite expr2 /k4 /k2; move: r21 r2 => x y; mc_ring C.
  apply/matrixP => i j; rewrite mul_mx_diag !mxE sum3 !mxE inordK //.
  case: i => [[|[|[|//]]] hi]; case: j => [[|[|[|//]]] hj]; rewrite /cd_square /cd_A.
  all: try (cbn; rewrite /get /= /k3 /k4; move: r21 r2 k2 => x y z; mc_ring C).

- case=> [[|[|[|//]]] hj]; rewrite /vn sum3 !mxE inordK // /get /=.
  + apply: one_sum r21E _ _ _ _; rewrite ?rpredN ?rpredM ?k2r ?k4r ?r21r // /k21 /k4; move: r21 k2 => x y; mc_ring C.
  + apply: one_sum r21E _ _ _ _; rewrite ?rpredN ?rpredM ?k2r ?k4r ?r21r // /k21 /k4; move: r21 k2 => x y; mc_ring C.
  + apply: one_sum r2E _ _ _ _; rewrite ?rpredN ?rpredM ?rpred0 ?k2r ?k4r ?r2r // /k2; move: r2 => x; mc_ring C.
Qed.

(* the pencil at 2 is [-1 0 0; 0 1 -2] transposed: its smallest singular value is 1 *)
Lemma x_entries : ((get (cd_pencil xF xG k2) 0 0 = -1) * (get (cd_pencil xF xG k2) 0 1 = 0) *
  (get (cd_pencil xF xG k2) 1 0 = 0) * (get (cd_pencil xF xG k2) 1 1 = 1) * (get (cd_pencil xF xG k2) 2 0 = 0) *
  (get (cd_pencil xF xG k2) 2 1 = - k2))%type.
Proof. do !split; rewrite /cd_pencil /cd_A /asub get_mk // !get_mk //=; rewrite /get /= /k3 /k2; mc_ring C. Qed.

Lemma x_pencil (u : 'cV[C]_2) : vn (cmx 3 2 (cd_pencil xF xG k2) *m u) = sqrtC (`|u 0 0| ^+ 2 + (1 + k4) * `|u 1 0| ^+ 2).
Proof.
rewrite /vn sum3; congr sqrtC; rewrite !mxE !sum2 !mxE inordK // !x_entries.
rewrite !mul0r !addr0 !add0r mulN1r mul1r mulNr !normrN normrM (gtr0_norm k2_gt0) /k4.
by move: (`|u 0 0|) (`|u 1 0|) k2 => x y z; mc_ring C.
Qed.

Lemma x_svd : svd_ok xsv (cd_pencil xF xG k2).
Proof.
move=> p q e; have -> : p = 3%N by case: e. have -> : q = 2%N by case: e.
have k0 : 0 <= 1 + k4 by rewrite addr_ge0 ?ler01 ?(ltW k4_gt0).
split; first exact: ler01.
  move=> u; rewrite x_pencil mul1r /vn sum2 ler_sqrtC ?nnegrE ?addr_ge0 ?mulr_ge0 ?exprn_ge0 //.
  by rewrite ler_add2l mulrDl mul1r ler_addl mulr_ge0 ?exprn_ge0 ?(ltW k4_gt0).
exists (\col_i (i == 0)%:R).
  by apply/negP => /eqP/matrixP/(_ 0 0)/eqP; rewrite !mxE eqxx oner_eq0.
by rewrite x_pencil mul1r /vn sum2 !mxE /= normr0 expr0n mulr0.
Qed.

Lemma argmin3 (a b c : C) : c < a -> c < b -> argmin [:: Some a; Some b; Some c] = 2%N.
Proof.
move=> ca cb; rewrite /argmin /=.
have -> : Num.min b (Num.min c a) = c by rewrite (min_l (ltW ca)) (min_r (ltW cb)).
have na : Some a == Some c = false by apply/eqP => -[h]; move: ca; rewrite h ltxx.
have nb : Some b == Some c = false by apply/eqP => -[h]; move: cb; rewrite h ltxx.
by rewrite /= na nb eqxx.
Qed.

Lemma ratio_lt (a b c d : C) : 0 < a -> 0 < b -> 0 < c -> 0 < d -> c * b < a * d -> sqrtC c / sqrtC d < sqrtC a / sqrtC b.
Proof.
move=> a0 b0 c0 d0 h; rewrite ltr_pdivr_mulr ?sqrtC_gt0 // mulrAC ltr_pdivl_mulr ?sqrtC_gt0 //.
by rewrite -!sqrtCM ?nnegrE ?(ltW a0) ?(ltW b0) ?(ltW c0) ?(ltW d0) // ltr_sqrtC ?nnegrE ?mulr_ge0 ?(ltW a0) ?(ltW b0) ?(ltW c0) ?(ltW d0).
Qed.

Lemma x_upp0 j a b c l (ev : seq C) : (j < 2 + 1)%N -> get xV 0 j = a -> get xV 1 j = b -> get xV 2 j = c -> ev`_j = l ->
  a \is Num.real -> b \is Num.real -> c \is Num.real -> l \is Num.real -> 0 < a ^+ 2 + b ^+ 2 ->
  cd_upp0 3 2 (xq 3 1) xV ev j = Some (sqrtC (c ^+ 2 + (l * c) ^+ 2) / sqrtC (a ^+ 2 + b ^+ 2)).
Proof.
move=> hj ga gb gc gl ra rb rc rl ab0; rewrite (@upp0E _ 2 1 _ _ _ _ hj) //; set z := col _ _.
have -> : vn (usubmx z) = sqrtC (a ^+ 2 + b ^+ 2).
  by rewrite /vn sum2 !mxE /= ga gb !sqr.
rewrite sqrtC_eq0 gt_eqF //; congr (Some (_ / _)).
rewrite -(cd_DE C 2 1) /vn sum3; congr sqrtC; rewrite !mxE !big_ord1 !mxE inordK // !get_mk //= addn0 gc gl.
rewrite -[get (xq 3 1) 0 0]/0 -[get (xq 3 1) 1 0]/1 -[get (xq 3 1) 2 0]/0 !mulr0 mulr1 !subr0 sub0r mul0r mul1r mulNr normrN.
by rewrite normr0 expr0n add0r !sqr // rpredM.
Qed.

Lemma sq_gt0 (x : C) : 0 < x -> 0 < x ^+ 2. Proof. exact: exprn_gt0. Qed.

Lemma x_cancel cond : exists2 v, 0 < v &
  cancellation_distance xq xeig cond xsv xF xG = Ok (CDist 1 (Some v) (1 / (cond xV + 1)) k2 (1 * cond xV)).
Proof.
pose ev : seq C := [:: 1; 1; k2].
pose na := (- (k4 * r21)) ^+ 2 + (1 * - (k4 * r21)) ^+ 2; pose da := r21 ^+ 2 + (k2 * r21) ^+ 2.
pose nb := (k4 * r21) ^+ 2 + (1 * (k4 * r21)) ^+ 2; pose db := r21 ^+ 2 + (- (k2 * r21)) ^+ 2.
pose nd := (- r2) ^+ 2 + (k2 * - r2) ^+ 2; pose dd := 0 ^+ 2 + r2 ^+ 2.
have p2 := sq_gt0 r2_gt0; have p21 := sq_gt0 r21_gt0.
have kr : k2 * r21 \is Num.real by rewrite rpredM ?k2r ?r21r.
have kr4 : k4 * r21 \is Num.real by rewrite rpredM ?k4r ?r21r.
have da0 : 0 < da by rewrite addr_gt0 // sq_gt0 // mulr_gt0 ?k2_gt0 ?r21_gt0.
have db0 : 0 < db by rewrite /db sqrrN.
have na0 : 0 < na by rewrite /na mul1r sqrrN; apply: addr_gt0; apply: sq_gt0; rewrite mulr_gt0 ?k4_gt0 ?r21_gt0.
have nb0 : 0 < nb by rewrite /nb mul1r; apply: addr_gt0; apply: sq_gt0; rewrite mulr_gt0 ?k4_gt0 ?r21_gt0.
have dd0 : 0 < dd by rewrite /dd expr0n add0r.
have nd0 : 0 < nd by rewrite /nd mulrN !sqrrN; apply: addr_gt0 => //; apply: sq_gt0; rewrite mulr_gt0 ?k2_gt0 ?r2_gt0.
have h0 : cd_upp0 3 2 (xq 3 1) xV ev 0 = Some (sqrtC na / sqrtC da).
  by apply: x_upp0 => //; rewrite ?r21r ?rpredN ?rpred1.
have h1 : cd_upp0 3 2 (xq 3 1) xV ev 1 = Some (sqrtC nb / sqrtC db).
  by apply: x_upp0 => //; rewrite ?r21r ?rpredN ?rpred1.
have h2 : cd_upp0 3 2 (xq 3 1) xV ev 2 = Some (sqrtC nd / sqrtC dd).
  by apply: x_upp0 => //; rewrite ?rpredN ?rpred0 ?r2r ?k2r.
have k7 : 0 < r21 ^+ 2 * r2 ^+ 2 * (k4 + k2 + 1).
  by apply: mulr_gt0; [exact: mulr_gt0 | exact: addr_gt0 (addr_gt0 k4_gt0 k2_gt0) ltr01].
have l0 : sqrtC nd / sqrtC dd < sqrtC na / sqrtC da.
  apply: ratio_lt => //; rewrite -subr_gt0 [X in 0 < X](_ : _ = r21 ^+ 2 * r2 ^+ 2 * (k4 + k2 + 1)) //.
  rewrite /nd /dd /na /da /k4 /k2; move: r21 r2 => x y; mc_ring C.
have l1 : sqrtC nd / sqrtC dd < sqrtC nb / sqrtC db.
  apply: ratio_lt => //; rewrite -subr_gt0 [X in 0 < X](_ : _ = r21 ^+ 2 * r2 ^+ 2 * (k4 + k2 + 1)) //.
  rewrite /nd /dd /nb /db /k4 /k2; move: r21 r2 => x y; mc_ring C.
have am := argmin3 l0 l1.
exists (sqrtC nd / sqrtC dd); first by rewrite divr_gt0 ?sqrtC_gt0.
by rewrite /cancellation_distance /xeig [iota _ _]/= [map _ _]/= h0 h1 h2 am.
Qed.

(* F = diag(1, 3) and G = (0, -2): [F - I | G] has rank 1 as it stands, so the perturbation 0 is enough; with right answers of
   every library call, lower0, the lower bound on the norm of such a perturbation, is positive *)
Theorem C86_lower_refuted : exists (F G : arr C) rndq eig cond svdvals r,
  [/\ shp F = (2%N, 2%N) /\ shp G = (2%N, 1%N),
      shp (rndq 3%N 1%N) = (3%N, 1%N) /\ vn (cmx 3 1 (rndq 3%N 1%N)) = 1,
      [/\ eig_ok eig (cd_square rndq F G), cond_ok cond (eig (cd_square rndq F G)).2 &
          svd_ok svdvals (cd_pencil F G (e_f r))],
      deficient (cmx 2 2 F) (cmx 2 1 G) 1 &
      cancellation_distance rndq eig cond svdvals F G = Ok r /\ 0 < lower0 r].
Proof.
have [K K0 hK] := conditioned (cmx 3 3 xV).
have [v v0 h] := x_cancel (fun=> K).
exists xF, xG, xq, xeig, (fun=> K), xsv; eexists; split; last (split; first exact: h) => //.
- by [].
- split=> //; rewrite /vn sum3 !mxE inordK // /get /= normr0 normr1 expr0n expr1n add0r addr0 sqrtC1 //.
- split.
  + exact: x_eig.
  + by move=> n [<- _].
  + exact: x_svd.
- exists (\row_i (i == 0)%:R); first by apply/negP => /eqP/matrixP/(_ 0 0)/eqP; rewrite !mxE eqxx oner_eq0.
  split; apply/matrixP => i j; rewrite ord1 !mxE sum2 !mxE /=.
    case: j => [[|[|//]] hj]; rewrite /get /= ?subrr ?mul0r ?mulr0 ?addr0 //.
  by rewrite ord1 /get /= mulr0 mul0r addr0.
- rewrite /= div1r invr_gt0; exact: ltr_paddl K0 ltr01.
Qed.

(* the same pair meets the hypotheses of the other theorems *)
Example C86_ex : exists cond r v, [/\ cancellation_distance xq xeig cond xsv xF xG = Ok r, upper1 r = Some v /\ 0 < v, upper2 r = 1,
  eig_ok xeig (cd_square xq xF xG) /\ cond_ok cond (xeig (cd_square xq xF xG)).2 & svd_ok xsv (cd_pencil xF xG (e_f r)) /\
  deficient (cmx 2 2 xF) (cmx 2 1 xG) 1].
Proof.
have [K K0 hK] := conditioned (cmx 3 3 xV); have [v v0 h] := x_cancel (fun=> K).
exists (fun=> K); eexists; exists v; split; first exact: h; [by []|by []| |].
- by split; [exact: x_eig | move=> n [<- _]].
- split; first exact: x_svd.
  exists (\row_i (i == 0)%:R); first by apply/negP => /eqP/matrixP/(_ 0 0)/eqP; rewrite !mxE eqxx oner_eq0.
  split; apply/matrixP => i j; rewrite ord1 !mxE sum2 !mxE /=.
    case: j => [[|[|//]] hj]; rewrite /get /= ?subrr ?mul0r ?mulr0 ?addr0 //.
  by rewrite ord1 /get /= mulr0 mul0r addr0.
Qed.

(* F = 0, G = 1 and the random column (1, 0): the eigenvalues are 1 and -1, and the pencil is equally far from losing rank
   at both; C86_lower_partial applies *)
Definition yF : arr C := Arr 1 1 [:: [:: 0]].
Definition yG : arr C := Arr 1 1 [:: [:: 1]].
Definition yq (_ _ : nat) : arr C := Arr 2 1 [:: [:: 1]; [:: 0]].
Definition yV : arr C := Arr 2 2 [:: [:: r2; r2]; [:: r2; - r2]].
Definition yeig (_ : arr C) : seq C * arr C := ([:: 1; -1], yV).
Definition ysv (_ : arr C) : seq C := [:: sqrtC k2].

Lemma y_eig : eig_ok yeig (cd_square yq yF yG).
Proof.
move=> n [<- _]; split => //.
- split.
    rewrite cmxE unit_adet // /adet /get /= /sumN /= /bump /= !expr0 !expr1 [X in X != 0](_ : _ = - (k2 * (r2 * r2))).
      by rewrite oppr_eq0 !mulf_neq0 ?gt_eqF ?k2_gt0 ?r2_gt0.
    rewrite /k2; move: r2 => y; mc_ring C.
  apply/matrixP => i j; rewrite mul_mx_diag !mxE sum2 !mxE.
  case: i => [[|[|//]] hi]; case: j => [[|[|//]] hj]; rewrite /cd_square /cd_A.
  all: try (cbn; rewrite /get /=; move: r2 => y; mc_ring C).
- case=> [[|[|//]] hj]; rewrite /vn sum2 !mxE /get /= ?normrN sqr ?r2r // -mulr2n -[X in sqrtC X]mulr_natr -[2%:R]/k2 r2E sqrtC1 //.
Qed.

Lemma y_sv (l : C) : l ^+ 2 = 1 -> l \is Num.real -> smallest_sv (row_mx (cmx 1 1 yF - l%:M) (cmx 1 1 yG))^T (sqrtC k2).
Proof.
move=> l2 lr; have e (u : 'cV[C]_1) : vn ((row_mx (cmx 1 1 yF - l%:M) (cmx 1 1 yG))^T *m u) = sqrtC k2 * vn u.
  have -> : vn u = `|u 0 0| by rewrite /vn big_ord1 sqrCK.
  rewrite tr_row_mx mul_col_mx; apply/eqP; rewrite -(@eqr_expn2 _ 2) ?vn_ge0 ?mulr_ge0 ?sqrtC_ge0 ?(ltW k2_gt0) //.
  rewrite vn_col !vn2 !big_ord1 !mxE !big_ord1 !mxE exprMn sqrtCK /get /= sub0r mulr1n mulNr normrN normrM [(`|l| * _) ^+ 2]exprMn (sqr lr) l2.
  by rewrite mul1r mul1r /k2 mulrDl mul1r.
split; first by rewrite sqrtC_ge0 (ltW k2_gt0).
  by move=> u; rewrite e.
by exists (const_mx 1); [apply/negP => /eqP/matrixP/(_ 0 0)/eqP; rewrite !mxE oner_eq0 | exact: e].
Qed.

Lemma argmin2 (x y : option C) : (argmin [:: x; y] <= 1)%N.
Proof.
case: x y => [a|] [b|] //=; rewrite /argmin /= ?eqxx //.
rewrite minEle; case: (b <= a); [case: (Some a == Some b) => //|]; by rewrite eqxx.
Qed.

Example C86_ex_lower : exists cond r, [/\ cancellation_distance yq yeig cond ysv yF yG = Ok r, 0 < lower0 r,
  eig_ok yeig (cd_square yq yF yG) /\ cond_ok cond (yeig (cd_square yq yF yG)).2, svd_ok ysv (cd_pencil yF yG (e_f r)) &
  (forall l, l \in (yeig (cd_square yq yF yG)).1 ->
     exists2 s, smallest_sv (row_mx (cmx 1 1 yF - l%:M) (cmx 1 1 yG))^T s & upper2 r <= s)].
Proof.
have [K K0 hK] := conditioned (cmx 2 2 yV).
have [v h] : exists v, cancellation_distance yq yeig (fun=> K) ysv yF yG = Ok v by eexists.
exists (fun=> K), v.
have [_ [ef _] u2 low _] := @cancelE _ yq yeig (fun=> K) ysv 1 1 yF yG v erefl erefl h.
have u2E : upper2 v = sqrtC k2 by [].
have e1 : e_f v ^+ 2 = 1 /\ e_f v \is Num.real.
  rewrite ef; set x := argmin _; have : (x <= 1)%N by exact: argmin2.
  by case: x => [|[|//]] _; rewrite /= ?sqrrN expr1n ?rpredN rpred1.
have [e2 er] := e1.
split=> //.
- by rewrite low u2E divr_gt0 ?sqrtC_gt0 ?k2_gt0 //; apply: ltr_paddl K0 ltr01.
- by split; [exact: y_eig | move=> n [<- _]].
- move=> p q; have [sp pe] := @cd_pencilE C 1 1 yF yG (e_f v) erefl erefl.
  rewrite sp => -[e3 e4]; rewrite -e3 -e4 pe; exact: y_sv.
- move=> l; rewrite u2E !inE => /orP [] /eqP ->; exists (sqrtC k2) => //; apply: y_sv; rewrite ?sqrrN ?expr1n ?rpredN ?rpred1 //.
Qed.

(* and so does C86_zero: its eigenvalues are distinct *)
Example C86_ex_zero : uniq (yeig (cd_square yq yF yG)).1.
Proof.
rewrite /= inE andbT; apply/negP => /eqP h.
by move: k2_gt0; rewrite /k2 {2}h subrr ltxx.
Qed.
End Ex.
Print Assumptions C86_lower_refuted.
