(* C53, C54: the solutions returned by lyapunov_eq_solver. *)
From mathcomp Require Import all_ssreflect all_algebra zify.
From Coq Require Import String.
From Verif Require Import Base BaseTheory RingTac AuxTheory TransferTheory StateProps ModelLyap SpecLyap LyapKernel LyapMini
  LyapTheory LyapBlocks.

Set Implicit Arguments.
Unset Strict Implicit.
Unset Printing Implicit Defensive.

Import Order.Theory GRing.Theory Num.Theory.
Local Open Scope ring_scope.

Section Matrices.
Variable R : realFieldType.
Variable n : nat.
Local Notation mx := (mxof [rmorphism of @idfun R]).
Local Notation M f := (\matrix_(i < n, j < n) (f : nat -> nat -> R) i j).
Implicit Types (p q X : nat -> nat -> R).

Lemma mxM (A : arr R) : mx n n A = M (get A).
Proof. by apply/matrixP => i j; rewrite !mxE. Qed.

Lemma W_prod p q X (i j : 'I_n) : W (fun k l i j => p k i * q l j) 0 n 0 n X i j = ((M p)^T *m M X *m M q) i j.
Proof.
rewrite /W exchange_big big_mkord mxE /=; apply: eq_bigr => l _; rewrite big_mkord !mxE mulr_suml.
by apply: eq_bigr => k _; rewrite !mxE mulrAC.
Qed.

Lemma W_lin (K1 K2 : nat -> nat -> nat -> nat -> R) (s : R) X i j :
  W (fun k l i j => K1 k l i j + s * K2 k l i j) 0 n 0 n X i j = W K1 0 n 0 n X i j + s * W K2 0 n 0 n X i j.
Proof.
rewrite /W mulr_sumr -big_split; apply: eq_bigr => k _ /=; rewrite mulr_sumr -big_split; apply: eq_bigr => l _ /=.
by rewrite mulrDl mulrA.
Qed.

Lemma W_K (K1 K2 : nat -> nat -> nat -> nat -> R) X i j : (forall k l i j, K1 k l i j = K2 k l i j) ->
  W K1 0 n 0 n X i j = W K2 0 n 0 n X i j.
Proof. by move=> h; apply: eq_bigr => k _; apply: eq_bigr => l _; rewrite h. Qed.

(* a kernel P' X Q + s U' X V as matrices *)
Lemma eqn_mx (K : nat -> nat -> nat -> nat -> R) p q (s : R) u v Y X :
  (forall k l i j, K k l i j = p k i * q l j + s * (u k i * v l j)) ->
  (forall i j, (i < n)%N -> (j < n)%N -> eqn n K Y X i j) ->
  (M p)^T *m M X *m M q + s *: ((M u)^T *m M X *m M v) + M Y = 0.
Proof.
move=> hK h; apply/matrixP => i j; have := h i j (ltn_ord i) (ltn_ord j); rewrite /eqn (W_K _ _ _ hK) W_lin !W_prod.
move: ((M p)^T *m M X *m M q) ((M u)^T *m M X *m M v) => P Q e.
by rewrite !mxE addrC.
Qed.

Lemma mdelta : M (fun i j => (i == j)%:R) = 1%:M.
Proof. by apply/matrixP => i j; rewrite !mxE. Qed.
End Matrices.

Section Solvers.
Variable R : realFieldType.
Local Notation mx := (mxof [rmorphism of @idfun R]).
Local Notation castid := (fun x : R => x).
Variables (tol : R) (schur : arr R -> arr R * arr R) (qz : arr R -> arr R -> arr R * arr R * arr R * arr R).
Implicit Types (n : nat) (A E Y X : arr R).

Lemma symm_mx n Y : symmetric n Y -> forall i j, (i < n)%N -> (j < n)%N -> get Y i j = get Y j i.
Proof.
move=> /matrixP h i j hi hj; have := h (Ordinal hj) (Ordinal hi); by rewrite !mxE.
Qed.
Lemma mx_symm n Y : (forall i j, (i < n)%N -> (j < n)%N -> get Y i j = get Y j i) -> symmetric n Y.
Proof. by move=> h; apply/matrixP => i j; rewrite !mxE /= h. Qed.

(* the transformed right-hand side and the transformed solution *)
Lemma mx_conj n U Y : square n U -> square n Y -> mx n n (amul (amul (aT U) Y) U) = (mx n n U)^T *m mx n n Y *m mx n n U.
Proof.
by move=> [_ Ur Uc] [_ Yr Yc]; rewrite (@mxof_mul _ _ _ n n n) //= (@mxof_mul _ _ _ n n n) //= (@mxof_T _ _ _ n n).
Qed.
Lemma mx_conjT n U X : square n U -> nr X = n -> nc X = n -> mx n n (amul (amul U X) (aT U)) = mx n n U *m mx n n X *m (mx n n U)^T.
Proof.
by move=> [_ Ur Uc] Xr Xc; rewrite (@mxof_mul _ _ _ n n n) //= (@mxof_mul _ _ _ n n n) //= (@mxof_T _ _ _ n n).
Qed.
Lemma sq_conjT n U X : square n U -> nr X = n -> square n (amul (amul U X) (aT U)).
Proof. by move=> [_ Ur Uc] Xr; split=> //; exact: wfa_mk. Qed.

Lemma sym_conj n (U Y : 'M[R]_n) : Y^T = Y -> (U^T *m Y *m U)^T = U^T *m Y *m U.
Proof. by move=> h; rewrite !trmx_mul trmxK h mulmxA. Qed.


Lemma msol_eqn K n Y X : msol K n n Y X -> forall i j, (i < n)%N -> (j < n)%N -> eqn n K (get Y) (get X) i j.
Proof.
move=> [_ _ _ h] i j hi hj; rewrite /eqn -[RHS](h i j hi hj); congr (_ + _).
by rewrite /W sumNE big_mkord; apply: eq_bigr => k _; rewrite sumNE big_mkord.
Qed.

(* the kernels as matrix equations *)
Lemma eqn_c n A Y X : (forall i j, (i < n)%N -> (j < n)%N -> eqn n (kC A A) (get Y) (get X) i j) -> lyap_c n A Y X.
Proof.
move=> h.
have := @eqn_mx R n (kC A A) (get A) (fun l j => (l == j)%:R) 1 (fun k i => (k == i)%:R) (get A) (get Y) (get X) _ h.
rewrite /lyap_c !mxM mdelta trmx1 mulmx1 mul1mx scale1r => H; rewrite [X in X + _]addrC; apply: H.
by move=> k l i j; rewrite /kC mul1r.
Qed.
Lemma eqn_d n A Y X : (forall i j, (i < n)%N -> (j < n)%N -> eqn n (kD A A) (get Y) (get X) i j) -> lyap_d n A Y X.
Proof.
move=> h.
have := @eqn_mx R n (kD A A) (get A) (get A) (-1) (fun k i => (k == i)%:R) (fun k i => (k == i)%:R) (get Y) (get X) _ h.
rewrite /lyap_d !mxM mdelta trmx1 mulmx1 mul1mx scaleN1r => H; apply: H.
by move=> k l i j; rewrite /kD mulN1r.
Qed.
Lemma eqn_gc n A E Y X : (forall i j, (i < n)%N -> (j < n)%N -> eqn n (kGC A E E A) (get Y) (get X) i j) -> lyap_gc n A E Y X.
Proof.
move=> h.
have := @eqn_mx R n (kGC A E E A) (get A) (get E) 1 (get E) (get A) (get Y) (get X) _ h.
rewrite /lyap_gc !mxM scale1r => H; rewrite [X in X + _]addrC; apply: H.
by move=> k l i j; rewrite /kGC mul1r.
Qed.
Lemma eqn_gd n A E Y X : (forall i j, (i < n)%N -> (j < n)%N -> eqn n (kGD A A E E) (get Y) (get X) i j) -> lyap_gd n A E Y X.
Proof.
move=> h.
have := @eqn_mx R n (kGD A A E E) (get A) (get A) (-1) (get E) (get E) (get Y) (get X) _ h.
rewrite /lyap_gd !mxM scaleN1r => H; apply: H.
by move=> k l i j; rewrite /kGD mulN1r.
Qed.

Lemma sqE n A : square n A -> sq n A. Proof. by case. Qed.

Lemma small_c n A Y X : square n A -> symmetric n Y -> (n < 3)%N -> c_mini A Y None = Ok X ->
  [/\ square n X, symmetric n X & lyap_c n A Y X].
Proof.
move=> qA sY n3 E; have [wA rA cA] := qA.
have n0 : (0 < n)%N by case: n n3 rA cA {qA sY} E => //; rewrite /c_mini /asize => _ -> ->.
have [] := @c_mini_sym _ n A Y X _ (sqE qA) (symm_mx sY) E; first by rewrite n0.
by move=> h sX; have [wX rX cX _] := h; split; [by [] | exact: mx_symm | exact/eqn_c/msol_eqn].
Qed.
Lemma small_d n A Y X : square n A -> symmetric n Y -> (n < 3)%N -> d_mini A Y None = Ok X ->
  [/\ square n X, symmetric n X & lyap_d n A Y X].
Proof.
move=> qA sY n3 E; have [wA rA cA] := qA.
have n0 : (0 < n)%N by case: n n3 rA cA {qA sY} E => //; rewrite /d_mini /asize => _ -> ->.
have [] := @d_mini_sym _ n A Y X _ (sqE qA) (symm_mx sY) E; first by rewrite n0.
by move=> h sX; have [wX rX cX _] := h; split; [by [] | exact: mx_symm | exact/eqn_d/msol_eqn].
Qed.
Lemma small_gc n A E Y X : square n A -> square n E -> symmetric n Y -> (n < 3)%N -> gc_mini A E Y None = Ok X ->
  [/\ square n X, symmetric n X & lyap_gc n A E Y X].
Proof.
move=> qA qE sY n3 Eq; have [wA rA cA] := qA.
have n0 : (0 < n)%N by case: n n3 rA cA {qA qE sY} Eq => //; rewrite /gc_mini /asize => _ -> ->.
have [] := @gc_mini_sym _ n A E Y X _ (sqE qA) (sqE qE) (symm_mx sY) Eq; first by rewrite n0.
by move=> h sX; have [wX rX cX _] := h; split; [by [] | exact: mx_symm | exact/eqn_gc/msol_eqn].
Qed.
Lemma small_gd n A E Y X : square n A -> square n E -> symmetric n Y -> (n < 3)%N -> gd_mini A E Y None = Ok X ->
  [/\ square n X, symmetric n X & lyap_gd n A E Y X].
Proof.
move=> qA qE sY n3 Eq; have [wA rA cA] := qA.
have n0 : (0 < n)%N by case: n n3 rA cA {qA qE sY} Eq => //; rewrite /gd_mini /asize => _ -> ->.
have [] := @gd_mini_sym _ n A E Y X _ (sqE qA) (sqE qE) (symm_mx sY) Eq; first by rewrite n0.
by move=> h sX; have [wX rX cX _] := h; split; [by [] | exact: mx_symm | exact/eqn_gd/msol_eqn].
Qed.

(* the boundaries of the blocks cut a quasi-triangular matrix *)
Lemma quasi_cut (t : R) As : 0 <= t -> quasi_triangular (nr As) As ->
  (forall i, (i.+1 < nr As)%N -> `|get As i.+1 i| <= t -> get As i.+1 i = 0) ->
  forall u k i, bnd_of t As u -> (u <= k < nr As)%N -> (i < u)%N -> get As k i = 0.
Proof.
move=> t0 [q1 q2] q3 u k i /andP[_ bu] hk hi.
case: (ltnP i.+1 k) => h; first by apply: q1; rewrite h; case/andP: hk.
have [ek eu] : k = i.+1 /\ u = i.+1 by move: hk hi h; clear; lia.
rewrite ek; apply: q3; first by rewrite -ek; case/andP: hk.
move: bu; rewrite eu /= -leNgt => /orP[/eqP e|//].
by move: hk; rewrite ek e ltnn andbF.
Qed.

Lemma quasi_noc (t : R) As : 0 <= t -> quasi_triangular (nr As) As ->
  forall i, (i.+2 < nr As)%N -> t < `|get As i.+1 i| -> ~~ (t < `|get As i.+2 i.+1|).
Proof.
move=> t0 [q1 q2] i hi h; rewrite q2 ?normr0 -?leNgt //.
by rewrite -normr_gt0; apply: le_lt_trans h.
Qed.

Lemma bnd_ofn (t : R) As u : bnd_of t As u -> (u <= nr As)%N. Proof. by case/andP. Qed.

Lemma back_c n (A U T Y X : 'M[R]_n) : U^T *m U = 1%:M -> A = U *m T *m U^T ->
  X *m T + T^T *m X + U^T *m Y *m U = 0 ->
  (U *m X *m U^T) *m A + A^T *m (U *m X *m U^T) + Y = 0.
Proof.
move=> o -> h; have o' := mulmx1C o.
have -> : Y = U *m (U^T *m Y *m U) *m U^T by rewrite !mulmxA o' mul1mx -mulmxA o' mulmx1.
have -> : U *m X *m U^T *m (U *m T *m U^T) = U *m (X *m T) *m U^T.
  by rewrite !mulmxA -(mulmxA _ U^T U) o mulmx1.
have -> : (U *m T *m U^T)^T *m (U *m X *m U^T) = U *m (T^T *m X) *m U^T.
  by rewrite !trmx_mul trmxK !mulmxA -(mulmxA _ U^T U) o mulmx1.
by rewrite -!mulmxDl -!mulmxDr h mulmx0 mul0mx.
Qed.

Lemma big_c n A Y X0 X : square n A -> square n Y -> symmetric n Y -> nr X0 = n -> nc X0 = n -> (2 < n)%N ->
  real_schur n A (schur A).1 (schur A).2 -> solve_c castid schur A Y X0 = Ok X ->
  [/\ square n X, symmetric n X & lyap_c n A Y X].
Proof.
move=> qA qY sY r0 c0 n3; have [_ rA _] := qA; rewrite /solve_c rA (ltnNge n 3) n3 /=.
case: (schur A) => As U /= [qS qU oU tS eA] E; have [Xs Es {}E] := bindOk E.
have <- : amul (amul U Xs) (aT U) = X by case: E.
have [_ rS cS] := qS; set Ys := amul (amul (aT U) Y) U in Es.
have sYs : symmetric n Ys by rewrite /symmetric mx_conj //; exact: sym_conj.
have z0 : forall i, (i.+1 < nr As)%N -> `|get As i.+1 i| <= 0 -> get As i.+1 i = 0 by move=> i _; rewrite normr_le0 => /eqP.
have ch : chain n (bnd_of 0 As) 0 (blocks 0 As).
  by rewrite -rS; apply: blocks_chain; apply: quasi_noc; rewrite ?rS.
have [] := @c_rows_inv R castid (fun _ => erefl) n (bnd_of 0 As) As (get Ys) rS _ _ (symm_mx sYs) _ 0 Ys X0 Xs ch (leq0n n) _ _ _ Es.
- by move=> u; rewrite -rS; apply: bnd_ofn.
- by move=> u k i; rewrite -rS; apply: quasi_cut => //; rewrite rS.
- by split=> //=; have [_ _ ->] := qU.
- by [].
- exact: row_init.
move=> [rX cX] [Yf /row_final[sX eX]].
have sX' : symmetric n Xs by apply: mx_symm.
split; first exact: sq_conjT.
- by rewrite /symmetric mx_conjT // -{1}[mx n n U]trmxK sym_conj ?trmxK.
rewrite /lyap_c mx_conjT //; apply: (back_c oU eA).
by have := eqn_c eX; rewrite /lyap_c mx_conj.
Qed.

Lemma conjE n (Q Z S T X : 'M[R]_n) : Q^T *m Q = 1%:M ->
  (Q *m T *m Z^T)^T *m (Q *m X *m Q^T) *m (Q *m S *m Z^T) = Z *m (T^T *m X *m S) *m Z^T.
Proof.
by move=> o; rewrite !trmx_mul trmxK !mulmxA -(mulmxA _ Q^T Q) o mulmx1 -(mulmxA _ Q^T Q) o mulmx1.
Qed.

Lemma backY n (Z Y : 'M[R]_n) : Z^T *m Z = 1%:M -> Y = Z *m (Z^T *m Y *m Z) *m Z^T.
Proof. by move=> o; have o' := mulmx1C o; rewrite !mulmxA o' mul1mx -mulmxA o' mulmx1. Qed.

Lemma kT1 As k l i j : kT [:: (1, As, As)] (-1) k l i j = kD As As k l i j :> R.
Proof. by rewrite /kT big_seq1 /kD /= mul1r mulN1r. Qed.
Lemma kT2 As Es k l i j : kT [:: (1, As, Es); (1, Es, As)] 0 k l i j = kGC As Es Es As k l i j :> R.
Proof. by rewrite /kT !big_cons big_nil /kGC /= !mul1r mul0r !addr0. Qed.
Lemma kT3 As Es k l i j : kT [:: (1, As, As); (-1, Es, Es)] 0 k l i j = kGD As As Es Es k l i j :> R.
Proof. by rewrite /kT !big_cons big_nil /kGD /= !mul1r mul0r !addr0 mulN1r mulNr. Qed.

Lemma msol_K (K1 K2 : nat -> nat -> nat -> nat -> R) p q Y x : (forall k l i j, K1 k l i j = K2 k l i j) ->
  msol K1 p q Y x -> msol K2 p q Y x.
Proof. by move=> h; apply: msol_ext => k l i j _ _ _ _; apply: h. Qed.

Lemma big_d n A Y X0 X : square n A -> square n Y -> symmetric n Y -> nr X0 = n -> nc X0 = n -> (2 < n)%N ->
  real_schur n A (schur A).1 (schur A).2 -> solve_d castid schur A Y X0 = Ok X ->
  [/\ square n X, symmetric n X & lyap_d n A Y X].
Proof.
move=> qA qY sY r0 c0 n3; have [_ rA _] := qA; rewrite /solve_d rA (ltnNge n 3) n3 /=.
case: (schur A) => As U /= [qS qU oU tS eA] E; have [Xs Es {}E] := bindOk E.
have <- : amul (amul U Xs) (aT U) = X by case: E.
have [_ rS cS] := qS; rewrite rS in Es; set Ys := amul (amul (aT U) Y) U in Es.
have sYs : symmetric n Ys by rewrite /symmetric mx_conj //; exact: sym_conj.
have z0 : forall i, (i.+1 < nr As)%N -> `|get As i.+1 i| <= 0 -> get As i.+1 i = 0 by move=> i _; rewrite normr_le0 => /eqP.
have ch : chain n (bnd_of 0 As) 0 (blocks 0 As).
  by rewrite -rS; apply: blocks_chain; apply: quasi_noc; rewrite ?rS.
have [] := @g_rows_inv R castid (fun _ => erefl) n (bnd_of 0 As) _ (-1) (get Ys) _ _ _ _ _ (symm_mx sYs) _ _ _ 0 Ys X0 Xs ch (leq0n n) _ _ _ Es.
- by move=> u; rewrite -rS; apply: bnd_ofn.
- move=> u k i; rewrite -rS => h1 h2 h3; rewrite big_seq1 /= (quasi_cut _ _ z0 h1 h2 h3) ?normr0 //; by rewrite rS.
- by move=> k l i j; rewrite !kT1 /kD mulrC [in X in _ - X]mulrC.
- move=> u v Yt x [_ _ uv _] v2 vn sYt E1.
  have [|M sx] := @d_mini_sym _ (v - u) _ _ _ _ (sq_sub As u v) sYt E1; first by move: uv v2; clear; lia.
  by split=> //; apply: msol_ext M => k l i j hk hl hi hj; rewrite kT1 /kD !get_subm // !eqn_add2l.
- move=> u v c d Yt x [_ _ uv _] v2 [_ _ cd _] d2 vc dn E1.
  have : msol (kD (asubm As u v u v) (asubm As c d c d)) (v - u) (d - c) (asubm Yt u v c d) x.
    by apply: d_mini_gen E1 => //; try exact: sq_sub; move: uv v2 cd d2; clear; lia.
  by apply: msol_ext => k l i j hk hl hi hj; rewrite kT1 /kD !get_subm // !eqn_add2l.
- by split=> //=; have [_ _ ->] := qU.
- by [].
- exact: row_init.
move=> [rX cX] [Yf /row_final[sX eX]].
have sX' : symmetric n Xs by apply: mx_symm.
split; first exact: sq_conjT.
- by rewrite /symmetric mx_conjT // -{1}[mx n n U]trmxK sym_conj ?trmxK.
have e0 : lyap_d n As Ys Xs.
  apply: eqn_d => i j hi hj; have := eX i j hi hj; rewrite /eqn => <-; congr (_ + _).
  by apply: W_K => *; rewrite kT1.
rewrite /lyap_d mx_conjT // [in X in X - _ + _]eA conjE // [X in _ + X](backY _ oU).
by rewrite -mulmxBl -mulmxBr -mulmxDl -mulmxDr; move: e0; rewrite /lyap_d mx_conj // => ->; rewrite mulmx0 mul0mx.
Qed.

Lemma big_gc n A E Y X0 X : 0 <= tol -> square n A -> square n E -> square n Y -> symmetric n Y -> nr X0 = n -> nc X0 = n -> (2 < n)%N ->
  real_qz tol n A E (qz A E).1.1.1 (qz A E).1.1.2 (qz A E).1.2 (qz A E).2 -> solve_gc castid tol qz A E Y X0 = Ok X ->
  [/\ square n X, symmetric n X & lyap_gc n A E Y X].
Proof.
move=> t0 qA qE qY sY r0 c0 n3; have [_ rA _] := qA; rewrite /solve_gc rA (ltnNge n 3) n3 /=.
case: (qz A E) => [[[As Es] Q] Z] /= [[qS qT qQ qZ] [oQ oZ] [tS tT] z0 [eA eE]] Eq; have [Xs Ex {}Eq] := bindOk Eq.
have <- : amul (amul Q Xs) (aT Q) = X by case: Eq.
have [_ rS cS] := qS; set Ys := amul (amul (aT Z) Y) Z in Ex.
have sYs : symmetric n Ys by rewrite /symmetric mx_conj //; exact: sym_conj.
have ch : chain n (bnd_of tol As) 0 (blocks tol As).
  by rewrite -rS; apply: blocks_chain; apply: quasi_noc; rewrite ?rS.
have [] := @g_rows_inv R castid (fun _ => erefl) n (bnd_of tol As) _ 0 (get Ys) _ _ _ _ _ (symm_mx sYs) _ _ _ 0 Ys X0 Xs ch (leq0n n) _ _ _ Ex.
- by move=> u; rewrite -rS; apply: bnd_ofn.
- move=> u k i h1 h2 h3; rewrite !big_cons big_nil /= (@quasi_cut tol As t0 _ _ u) ?rS //.
  by rewrite tT ?normr0 ?addr0 //; move: h2 h3; clear; lia.
- move=> k l i j; rewrite !kT2 /kGC addrC; congr (_ + _); exact: mulrC.
- move=> u v Yt x [_ _ uv _] v2 vn sYt E1.
  have [|M sx] := @gc_mini_sym _ (v - u) _ _ _ _ _ (sq_sub As u v) (sq_sub Es u v) sYt E1; first by move: uv v2; clear; lia.
  by split=> //; apply: msol_ext M => k l i j hk hl hi hj; rewrite kT2 /kGC !get_subm.
- move=> u v c d Yt x [_ _ uv _] v2 [_ _ cd _] d2 vc dn E1.
  have : msol (kGC (asubm As u v u v) (asubm Es c d c d) (asubm Es u v u v) (asubm As c d c d)) (v - u) (d - c) (asubm Yt u v c d) x.
    by apply: gc_mini_gen E1 => //; try exact: sq_sub; move: uv v2 cd d2; clear; lia.
  by apply: msol_ext => k l i j hk hl hi hj; rewrite kT2 /kGC !get_subm.
- by split=> //=; have [_ _ ->] := qZ.
- by [].
- exact: row_init.
move=> [rX cX] [Yf /row_final[sX eX]].
have sX' : symmetric n Xs by apply: mx_symm.
split; first exact: sq_conjT.
- by rewrite /symmetric mx_conjT // -{1}[mx n n Q]trmxK sym_conj ?trmxK.
have e0 : lyap_gc n As Es Ys Xs.
  apply: eqn_gc => i j hi hj; have := eX i j hi hj; rewrite /eqn => <-; congr (_ + _).
  by apply: W_K => *; rewrite kT2.
rewrite /lyap_gc mx_conjT // eA eE !conjE // [X in _ + X](backY _ oZ).
by rewrite -2!mulmxDl -2!mulmxDr; move: e0; rewrite /lyap_gc mx_conj // => ->; rewrite mulmx0 mul0mx.
Qed.

Lemma big_gd n A E Y X0 X : 0 <= tol -> square n A -> square n E -> square n Y -> symmetric n Y -> nr X0 = n -> nc X0 = n -> (2 < n)%N ->
  real_qz tol n A E (qz A E).1.1.1 (qz A E).1.1.2 (qz A E).1.2 (qz A E).2 -> solve_gd castid tol qz A E Y X0 = Ok X ->
  [/\ square n X, symmetric n X & lyap_gd n A E Y X].
Proof.
move=> t0 qA qE qY sY r0 c0 n3; have [_ rA _] := qA; rewrite /solve_gd rA (ltnNge n 3) n3 /=.
case: (qz A E) => [[[As Es] Q] Z] /= [[qS qT qQ qZ] [oQ oZ] [tS tT] z0 [eA eE]] Eq; have [Xs Ex {}Eq] := bindOk Eq.
have <- : amul (amul Q Xs) (aT Q) = X by case: Eq.
have [_ rS cS] := qS; rewrite rS in Ex; set Ys := amul (amul (aT Z) Y) Z in Ex.
have sYs : symmetric n Ys by rewrite /symmetric mx_conj //; exact: sym_conj.
have ch : chain n (bnd_of tol As) 0 (blocks tol As).
  by rewrite -rS; apply: blocks_chain; apply: quasi_noc; rewrite ?rS.
have [] := @g_rows_inv R castid (fun _ => erefl) n (bnd_of tol As) _ 0 (get Ys) _ _ _ _ _ (symm_mx sYs) _ _ _ 0 Ys X0 Xs ch (leq0n n) _ _ _ Ex.
- by move=> u; rewrite -rS; apply: bnd_ofn.
- move=> u k i h1 h2 h3; rewrite !big_cons big_nil /= (@quasi_cut tol As t0 _ _ u) ?rS //.
  by rewrite tT ?normr0 ?addr0 //; move: h2 h3; clear; lia.
- by move=> k l i j; rewrite !kT3 /kGD mulrC [in X in _ - X]mulrC.
- move=> u v Yt x [_ _ uv _] v2 vn sYt E1.
  have [|M sx] := @gd_mini_sym _ (v - u) _ _ _ _ _ (sq_sub As u v) (sq_sub Es u v) sYt E1; first by move: uv v2; clear; lia.
  by split=> //; apply: msol_ext M => k l i j hk hl hi hj; rewrite kT3 /kGD !get_subm.
- move=> u v c d Yt x [_ _ uv _] v2 [_ _ cd _] d2 vc dn E1.
  have : msol (kGD (asubm As u v u v) (asubm As c d c d) (asubm Es u v u v) (asubm Es c d c d)) (v - u) (d - c) (asubm Yt u v c d) x.
    by apply: gd_mini_gen E1 => //; try exact: sq_sub; move: uv v2 cd d2; clear; lia.
  by apply: msol_ext => k l i j hk hl hi hj; rewrite kT3 /kGD !get_subm.
- by split=> //=; have [_ _ ->] := qZ.
- by [].
- exact: row_init.
move=> [rX cX] [Yf /row_final[sX eX]].
have sX' : symmetric n Xs by apply: mx_symm.
split; first exact: sq_conjT.
- by rewrite /symmetric mx_conjT // -{1}[mx n n Q]trmxK sym_conj ?trmxK.
have e0 : lyap_gd n As Es Ys Xs.
  apply: eqn_gd => i j hi hj; have := eX i j hi hj; rewrite /eqn => <-; congr (_ + _).
  by apply: W_K => *; rewrite kT3.
rewrite /lyap_gd mx_conjT // eA eE !conjE // [X in _ + X](backY _ oZ).
by rewrite -mulmxBl -mulmxBr -mulmxDl -mulmxDr; move: e0; rewrite /lyap_gd mx_conj // => ->; rewrite mulmx0 mul0mx.
Qed.
End Solvers.

(* ---------------------------------------------------------------- the claims *)
Section Claims.
Variable R : realFieldType.
Local Notation castid := (fun x : R => x).
Variables (tol : R) (schur : arr R -> arr R * arr R) (qz : arr R -> arr R -> arr R * arr R * arr R * arr R).
Implicit Types (n : nat) (A E Y X : arr R).

(* A, Y, E square of one size, Y symmetric, X0 whatever numpy.empty_like(Y) holds *)
Definition data n A Y (X0 : arr R) := [/\ square n A, square n Y, symmetric n Y & nr X0 = n /\ nc X0 = n].

(* (1): every solution returned for floating-point data *)
Theorem C53_continuous n A Y X0 X form : data n A Y X0 -> real_schur n A (schur A).1 (schur A).2 ->
  form = "c"%string \/ form = "continuous"%string ->
  lyapunov_eq_solver castid tol schur qz A Y None form X0 = Ok X ->
  [/\ square n X, symmetric n X & lyap_c n A Y X].
Proof.
move=> [qA qY sY [r0 c0]] hS hf; have [_ rA _] := qA.
have -> : lyapunov_eq_solver castid tol schur qz A Y None form X0 = solve_c castid schur A Y X0.
  by case: hf => ->; rewrite /lyapunov_eq_solver /= /shp; case: qA => _ -> ->; case: qY => _ -> ->; rewrite !eqxx.
case: (ltnP n 3) => n3; last exact: big_c.
by rewrite /solve_c rA n3; exact: small_c.
Qed.

(* (2) *)
Theorem C53_generalized n A E Y X0 X form : 0 <= tol -> data n A Y X0 -> square n E ->
  real_qz tol n A E (qz A E).1.1.1 (qz A E).1.1.2 (qz A E).1.2 (qz A E).2 ->
  form = "c"%string \/ form = "continuous"%string ->
  lyapunov_eq_solver castid tol schur qz A Y (Some E) form X0 = Ok X ->
  [/\ square n X, symmetric n X & lyap_gc n A E Y X].
Proof.
move=> t0 [qA qY sY [r0 c0]] qE hS hf; have [_ rA _] := qA.
have -> : lyapunov_eq_solver castid tol schur qz A Y (Some E) form X0 = solve_gc castid tol qz A E Y X0.
  by case: hf => ->; rewrite /lyapunov_eq_solver /= /shp; case: qA => _ -> ->; case: qY => _ -> ->; case: qE => _ -> ->; rewrite !eqxx.
case: (ltnP n 3) => n3; last exact: big_gc.
by rewrite /solve_gc rA n3; exact: small_gc.
Qed.

(* (1') *)
Theorem C54_discrete n A Y X0 X form : data n A Y X0 -> real_schur n A (schur A).1 (schur A).2 ->
  form = "d"%string \/ form = "discrete"%string ->
  lyapunov_eq_solver castid tol schur qz A Y None form X0 = Ok X ->
  [/\ square n X, symmetric n X & lyap_d n A Y X].
Proof.
move=> [qA qY sY [r0 c0]] hS hf; have [_ rA _] := qA.
have -> : lyapunov_eq_solver castid tol schur qz A Y None form X0 = solve_d castid schur A Y X0.
  by case: hf => ->; rewrite /lyapunov_eq_solver /= /shp; case: qA => _ -> ->; case: qY => _ -> ->; rewrite !eqxx.
case: (ltnP n 3) => n3; last exact: big_d.
by rewrite /solve_d rA n3; exact: small_d.
Qed.

(* (2') *)
Theorem C54_generalized n A E Y X0 X form : 0 <= tol -> data n A Y X0 -> square n E ->
  real_qz tol n A E (qz A E).1.1.1 (qz A E).1.1.2 (qz A E).1.2 (qz A E).2 ->
  form = "d"%string \/ form = "discrete"%string ->
  lyapunov_eq_solver castid tol schur qz A Y (Some E) form X0 = Ok X ->
  [/\ square n X, symmetric n X & lyap_gd n A E Y X].
Proof.
move=> t0 [qA qY sY [r0 c0]] qE hS hf; have [_ rA _] := qA.
have -> : lyapunov_eq_solver castid tol schur qz A Y (Some E) form X0 = solve_gd castid tol qz A E Y X0.
  by case: hf => ->; rewrite /lyapunov_eq_solver /= /shp; case: qA => _ -> ->; case: qY => _ -> ->; case: qE => _ -> ->; rewrite !eqxx.
case: (ltnP n 3) => n3; last exact: big_gd.
by rewrite /solve_gd rA n3; exact: small_gd.
Qed.

(* anything else is refused, whatever the entries *)
Theorem C53_rejects (cast : R -> R) A Y (E : option (arr R)) form (X0 : arr R) :
  ~ [/\ List.In form [:: "c"; "continuous"; "d"; "discrete"]%string, nr A = nc A, shp A = shp Y &
        (if E is Some e then shp A = shp e else True)] ->
  lyapunov_eq_solver cast tol schur qz A Y E form X0 = Err ValueError.
Proof.
move=> h; rewrite /lyapunov_eq_solver; case: ifP => // h1; case: ifP => // h2; case: ifP => // /andP[/eqP h3 /eqP h4].
case: ifP => // /andP[/eqP h5 h6]; case: h; split=> //.
- by move: h1; do 3 (case/orP; last by move/String.eqb_eq => ->; rewrite /=; tauto); move/String.eqb_eq => ->; left.
- by case: E h2 h6 => // e _ /eqP.
Qed.
End Claims.

Print Assumptions C53_continuous.
Print Assumptions C53_generalized.
Print Assumptions C54_discrete.
Print Assumptions C54_generalized.
Print Assumptions C53_rejects.

(* ---------------------------------------------------------------- examples over the rationals *)
Section Examples.
Local Notation Q := rat_realFieldType.
Local Notation mx := (mxof [rmorphism of @idfun Q]).
Local Notation castid := (fun x : Q => x).

(* a 1x1 and a 2x2 block; the matrix is its own Schur form *)
Definition lA : arr Q := of_rows [:: [:: -1; 2%:R; 1]; [:: 0; -1; 2%:R]; [:: 0; -2%:R; -1]].
Definition lE : arr Q := of_rows [:: [:: 1; 1; 0]; [:: 0; 2%:R; -1]; [:: 0; 0; 1]].
Definition lY : arr Q := of_rows [:: [:: 1; 2%:R; 0]; [:: 2%:R; 3%:R; -1]; [:: 0; -1; 5%:R]].
Definition lA2 : arr Q := of_rows [:: [:: 0; 1; 0]; [:: 0; 0; 2%:R]; [:: 0; -1; 0]].
Definition lE2 : arr Q := of_rows [:: [:: 1; 1; 0]; [:: 0; 1; -1]; [:: 0; 0; 1]].
Definition lschur (A : arr Q) := (A, aeye 3 : arr Q).
Definition lqz (A E : arr Q) := (A, E, aeye 3 : arr Q, aeye 3 : arr Q).
Definition lX0 : arr Q := of_rows [:: [:: 7%:R; 7%:R; 7%:R]; [:: 7%:R; 7%:R; 7%:R]; [:: 7%:R; 7%:R; 7%:R]].

Lemma eye_orth : orthogonal 3 (aeye 3 : arr Q).
Proof. by rewrite /orthogonal mxof_eye trmx1 mulmx1. Qed.
Lemma eye_sq : square 3 (aeye 3 : arr Q). Proof. by split; first exact: wfa_mk. Qed.

Lemma lschur_ok (A : arr Q) : square 3 A -> get A 2 0 = 0 -> get A 1 0 = 0 -> real_schur 3 A (lschur A).1 (lschur A).2.
Proof.
move=> qA a20 a10; split; [by [] | exact: eye_sq | exact: eye_orth | | by rewrite mxof_eye trmx1 mulmx1 mul1mx].
split=> [i j|[|i] //]; last by rewrite a10 eqxx.
by case: i => [|[|[|i]]] //; case: j => [|[|j]] //; rewrite !ltnS ?andbF.
Qed.

Lemma lqz_ok (A E : arr Q) : square 3 A -> square 3 E -> get A 2 0 = 0 -> get A 1 0 = 0 -> 0 < `|get A 2 1| ->
  (forall i j, (j < i < 3)%N -> get E i j = 0) ->
  real_qz 0 3 A E (lqz A E).1.1.1 (lqz A E).1.1.2 (lqz A E).1.2 (lqz A E).2.
Proof.
move=> qA qE a20 a10 a21 tE; split.
- by split; [ | | exact: eye_sq | exact: eye_sq].
- by split; exact: eye_orth.
- split=> //; split=> [i j|[|i] //]; last by rewrite a10 eqxx.
  by case: i => [|[|[|i]]] //; case: j => [|[|j]] //; rewrite !ltnS ?andbF.
- by move=> [|[|i]] // _; rewrite normr_le0 => /eqP.
- by rewrite /= mxof_eye trmx1 !mulmx1 !mul1mx.
Qed.


Lemma lsq a b c d e f g h i : square 3 (of_rows [:: [:: a; b; c]; [:: d; e; f]; [:: g; h; i]] : arr Q).
Proof. by []. Qed.
Lemma lsym a b c d e f : symmetric 3 (of_rows [:: [:: a; b; c]; [:: b; d; e]; [:: c; e; f]] : arr Q).
Proof. by apply: mx_symm => [[|[|[|i]]]] [|[|[|j]]]. Qed.
Lemma ltri a b c d e f i j : (j < i < 3)%N -> get (of_rows [:: [:: a; b; c]; [:: 0; d; e]; [:: 0; 0; f]] : arr Q) i j = 0.
Proof. by case: i => [|[|[|i]]] //; case: j => [|[|j]] //; rewrite !ltnS ?andbF. Qed.

Lemma ldata (A : arr Q) : square 3 A -> data 3 A lY lX0.
Proof. by move=> h; split=> //; exact: lsym. Qed.

Example C53_ex : data 3 lA lY lX0 /\ real_schur 3 lA (lschur lA).1 (lschur lA).2 /\
  is_ok (lyapunov_eq_solver castid 0 lschur lqz lA lY None "c" lX0).
Proof. by split; [exact/ldata/lsq | split; [apply: lschur_ok => //; exact: lsq | vm_compute]]. Qed.

Example C53_ex_generalized : data 3 lA lY lX0 /\
  real_qz 0 3 lA lE (lqz lA lE).1.1.1 (lqz lA lE).1.1.2 (lqz lA lE).1.2 (lqz lA lE).2 /\
  is_ok (lyapunov_eq_solver castid 0 lschur lqz lA lY (Some lE) "c" lX0).
Proof.
split; [exact/ldata/lsq | split; last by vm_compute].
by apply: lqz_ok => //; exact: ltri.
Qed.

Example C54_ex : data 3 lA2 lY lX0 /\ real_schur 3 lA2 (lschur lA2).1 (lschur lA2).2 /\
  is_ok (lyapunov_eq_solver castid 0 lschur lqz lA2 lY None "d" lX0).
Proof.
split.
  exact/ldata/lsq.
split.
  apply: lschur_ok.
  - exact: lsq.
  - by [].
  - by [].
by vm_compute.
Qed.

Example C54_ex_generalized : data 3 lA2 lY lX0 /\
  real_qz 0 3 lA2 lE2 (lqz lA2 lE2).1.1.1 (lqz lA2 lE2).1.1.2 (lqz lA2 lE2).1.2 (lqz lA2 lE2).2 /\
  is_ok (lyapunov_eq_solver castid 0 lschur lqz lA2 lY (Some lE2) "d" lX0).
Proof.
split; [exact/ldata/lsq | split; last by vm_compute].
by apply: lqz_ok => //; exact: ltri.
Qed.

(* An integer Y: numpy.empty_like(Y) is an integer array, and what is stored in it loses its fractional part. *)
Definition trunc (x : Q) : Q := ((-1) ^+ (x < 0)%R * (absz (numq x) %/ absz (denq x))%:R).
Definition iA : arr Q := of_rows [:: [:: -1; 0; 0]; [:: 0; -1; 0]; [:: 0; 0; -1]].
Definition iY : arr Q := aeye 3.

Theorem C53_integer_refuted : exists X,
  [/\ data 3 iA iY lX0, real_schur 3 iA (lschur iA).1 (lschur iA).2,
      lyapunov_eq_solver trunc 0 lschur lqz iA iY None "c" lX0 = Ok X & ~ lyap_c 3 iA iY X].
Proof.
have : (if lyapunov_eq_solver trunc 0 lschur lqz iA iY None "c" lX0 is Ok X then aeq X (azeros 3 3) && wfa X else false) by vm_compute.
case E: (lyapunov_eq_solver _ _ _ _ _ _ _ _ _) => [X|//] /andP[/aeqP h wX]; exists X.
have e : X = azeros 3 3 by apply: h => //; exact: wfa_mk.
split.
- split; [exact: lsq | exact: eye_sq | by rewrite /symmetric mxof_eye trmx1 | by []].
- by apply: lschur_ok; first exact: lsq.
- by [].
rewrite /lyap_c e mxof_zeros mul0mx mulmx0 !add0r mxof_eye => /matrixP/(_ 0 0); rewrite !mxE /= => /eqP.
by rewrite oner_eq0.
Qed.
End Examples.

Print Assumptions C53_integer_refuted.
