(* Lemmas for C45, C46, C64. *)
From mathcomp Require Import all_ssreflect all_algebra zify.
From Verif Require Import Base BaseTheory Spec TfTheory ModelState Denote StateTheory KalmanTheory CtrlTheory ModelPoly PolyTheory ModelTransfer
  ModelCtrl ModelFreq SpecFreq.

Set Implicit Arguments.
Unset Strict Implicit.
Unset Printing Implicit Defensive.

Import Order.TTheory GRing.Theory Num.Theory.
Local Open Scope ring_scope.

(* ------------------------------------------------------------ elimination *)
Section Elim.
Variable L : fieldType.
Variables (n m : nat) (W : nat -> nat -> L).

Fixpoint urow (i j : nat) : L :=
  if i is i'.+1 then W i j - W i i' / urow i' i' * urow i' j else W 0 j.

Definition einv (x : nat) (U : arr L) : Prop :=
  [/\ shp U = (n, n + m)%N,
      forall i j, (i < x)%N -> (i < n)%N -> (i <= j < n + m)%N -> get U i j = urow i j &
      forall i j, (x <= i < n)%N -> (j < n + m)%N -> get U i j = W i j].

Lemma step_inv x U : (0 < x < n)%N -> einv x U -> einv x.+1 (fr_step U x).
Proof.
move=> /andP[x0 xn] [sh h1 h2]; case: sh => [sr sc]; split; first by rewrite /shp /= sr sc.
  move=> i j; rewrite ltnS => ix hin /andP[ij hj]; rewrite get_mk ?sr ?sc //.
  case: eqP => [e|/eqP ne] /=; last by rewrite h1 ?ij //; move: ix ne; clear; lia.
  subst i; rewrite ij; case: x x0 xn h1 h2 hin ij {ix} => // y _ yn h1 h2 _ yj /=.
  have q1 : (y < n + m)%N by move: yn; clear; lia.
  by rewrite (h2 y.+1 j) ?(h2 y.+1 y) ?(h1 y y) ?(h1 y j) //; move: yn yj hj q1; clear; lia.
move=> i j /andP[ix hin] hj; rewrite get_mk ?sr ?sc //.
by case: eqP => [e|_] /=; [move: ix; rewrite e ltnn | rewrite h2 // hin andbT; exact: ltnW].
Qed.

Lemma elimP c : forall x U, (0 < x)%N -> (x + c = n)%N -> einv x U ->
  match fr_elim U x c with
  | Some V => einv n V /\ forall i, (x.-1 <= i < n.-1)%N -> urow i i != 0
  | None => exists i, (i < n.-1)%N /\ urow i i = 0
  end.
Proof.
elim: c => [|c IH] x U x0 e h /=.
  by rewrite addn0 in e; split; rewrite -?e // => i /andP[h1 h2]; move: h1 h2; clear; lia.
have xn : (0 < x < n)%N by move: x0 e; clear; lia.
have eg : get U x.-1 x.-1 = urow x.-1 x.-1.
  by case: h => _ h1 _; rewrite h1 //; move: xn; clear; lia.
rewrite eg; case: eqP => [z|/eqP nz].
  by exists x.-1; split=> //; move: xn; clear; lia.
have := IH x.+1 (fr_step U x) isT; rewrite addSnnS => /(_ e (step_inv xn h)).
case: fr_elim => // V [h1 h2]; split=> // i /andP[i1 i2].
have [e1|ne] := eqVneq i x.-1; first by rewrite e1.
by apply: h2; move: i1 i2 ne xn; clear; lia.
Qed.

(* the LU factorisation behind it *)
Hypothesis hW : forall i j, (i < n)%N -> (j.+1 < i)%N -> W i j = 0.

Definition lmx k : 'M[L]_k := \matrix_(i, j) (if i == j :> nat then 1 else if i == j.+1 :> nat then W i j / urow j j else 0).
Definition umx k : 'M[L]_k := \matrix_(i, j) (if (i <= j)%N then urow i j else 0).

Lemma lmx_mul k q (M : 'M[L]_(k, q)) (i : 'I_k) (j : 'I_q) :
  (lmx k *m M) i j = M i j + (if (i : nat) is i'.+1 then W i i' / urow i' i' * (if insub i' is Some l then M l j else 0) else 0).
Proof.
rewrite mxE (bigD1 i) //= mxE eqxx mul1r; congr (_ + _).
case ei: (i : nat) => [|i'].
  by apply: big1 => l ne; rewrite mxE ei; case: eqP => [e|_]; [case/eqP: ne; apply: val_inj; rewrite /= -e ei | rewrite mul0r].
have hi' : (i' < k)%N by have := ltn_ord i; rewrite ei; exact: ltnW.
rewrite insubT; pose l0 := Ordinal hi'.
rewrite (bigD1 l0) /=; last by apply/eqP => /(congr1 val) /= e; move: ei; rewrite -e; clear; lia.
rewrite mxE /= ei (gtn_eqF (ltnSn _)) eqxx [X in _ + X]big1 ?addr0; last first.
  move=> l /andP[n1 n2]; rewrite mxE; case: eqP => [e|_]; first by case/eqP: n1; apply: val_inj.
  by rewrite ei eqSS; case: eqP => [e|_]; [case/eqP: n2; apply: val_inj | rewrite mul0r].
by congr (_ * M _ _); apply: val_inj.
Qed.

Lemma lu_fact k : (k <= n)%N -> (forall i, (i < k.-1)%N -> urow i i != 0) ->
  \matrix_(i < k, j < k) W i j = lmx k *m umx k.
Proof.
move=> kn h; apply/matrixP => i j; rewrite lmx_mul !mxE.
case ei: (i : nat) => [|i'] /=; first by rewrite addr0.
have hi : (i'.+1 < k)%N by rewrite -ei.
have hi' : (i' < k)%N by apply: ltnW.
rewrite insubT mxE /= -ei; have nz : urow i' i' != 0 by apply: h; move: hi; clear; lia.
case: (leqP i j) => hij.
  by rewrite (_ : (i' <= j)%N) ?ei ?subrK //; move: hij; rewrite ei; clear; lia.
rewrite add0r; case: leqP => hj; last by rewrite mulr0 hW // ?(leq_trans _ kn) // ei.
have -> : (j : nat) = i' by move: hij hj; rewrite ei; clear; lia.
by rewrite divfK.
Qed.

Lemma det_lmx k : \det (lmx k) = 1.
Proof.
rewrite det_trig; first by apply: big1 => i _; rewrite mxE eqxx.
apply/is_trig_mxP => i j ij; rewrite mxE (ltn_eqF ij); case: eqP => // e; move: ij; rewrite e; clear; lia.
Qed.

Lemma det_umx k : \det (umx k) = \prod_(i < k) urow i i.
Proof.
rewrite -det_tr det_trig; first by apply: eq_bigr => i _; rewrite !mxE leqnn.
by apply/is_trig_mxP => i j ij; rewrite !mxE leqNgt ij.
Qed.

Lemma det_lead k : (k <= n)%N -> (forall i, (i < k.-1)%N -> urow i i != 0) ->
  \det (\matrix_(i < k, j < k) W i j) = \prod_(i < k) urow i i.
Proof. by move=> kn h; rewrite lu_fact // det_mulmx det_lmx mul1r det_umx. Qed.

(* the last row of the solution *)
Lemma elim_last (n0 : (0 < n)%N) : (forall i, (i < n)%N -> urow i i != 0) ->
  let M := \matrix_(i < n, j < n) W i j in let B := \matrix_(i < n, j < m) W i (n + j) in
  forall (i : 'I_n) (k : 'I_m), (i : nat) = n.-1 -> (invmx M *m B) i k = urow n.-1 (n + k) / urow n.-1 n.-1.
Proof.
move=> h M B i k ei; pose Bu : 'M[L]_(n, m) := \matrix_(i, j) urow i (n + j).
have eM : M = lmx n *m umx n by apply: lu_fact => // x hx; apply: h; move: hx; clear; lia.
have eB : B = lmx n *m Bu.
  apply/matrixP => x y; rewrite lmx_mul !mxE; case ex: (x : nat) => [|x'] /=; first by rewrite addr0.
  have hx : (x' < n)%N by have := ltn_ord x; rewrite ex; exact: ltnW.
  by rewrite insubT mxE /= subrK.
have uL : lmx n \in unitmx by rewrite unitmxE det_lmx unitr1.
have uU : umx n \in unitmx.
  by rewrite unitmxE det_umx unitfE; apply/prodf_neq0 => x _; apply: h.
have uM : M \in unitmx by rewrite eM unitmx_mul uL uU.
pose X := invmx M *m B.
have eX : umx n *m X = Bu.
  have : M *m X = B by rewrite mulmxA mulmxV // mul1mx.
  by rewrite eM eB -mulmxA => /(congr1 (mulmx (invmx (lmx n)))); rewrite !mulmxA mulVmx // !mul1mx.
rewrite -/X; clearbody X.
have := congr1 (fun Y : 'M[L]_(n, m) => Y i k) eX; rewrite mxE (bigD1 i) //= [umx n i i]mxE [Bu i k]mxE leqnn ei big1 ?addr0.
  by move=> <-; rewrite [_ * X i k]mulrC mulfK // h // ltn_predL.
move=> l nl; rewrite mxE leqNgt ei (_ : (l < n.-1)%N) ?mul0r //.
have := ltn_ord l; have : (l : nat) <> n.-1 by move=> e; case/eqP: nl; apply: val_inj; rewrite /= e.
by move: n0; clear; lia.
Qed.
End Elim.

Section Resp.
Variables (R : realFieldType) (L : fieldType) (f : {rmorphism R -> L}).

(* one frequency: the elimination delivers the last row of (sI - A)^-1 B exactly when no leading principal
   minor of sI - A vanishes *)
Lemma sfrP n (mA mb : arr R) (sc : R) (s : L) :
  shp mA = (n, n) -> nr mb = n -> (0 < n)%N -> upper_hess mA ->
  match state_freq_resp f mA mb sc s with
  | Some r => [/\ forall k, (k <= n)%N -> lead_minor f mA s k != 0, size r = nc mb &
      forall (i : 'I_n) (k : 'I_(nc mb)), (i : nat) = n.-1 ->
        nth 0 r k = (invmx (s%:M - mxof f n n mA) *m mxof f n (nc mb) mb) i k * f sc]
  | None => exists k, (k <= n)%N /\ lead_minor f mA s k = 0
  end.
Proof.
case=> e1 e2 e3 n0 hH; pose W := get (fr_start f mA mb s).
have eW i j : (i < n)%N -> (j < n)%N -> W i j = - f (get mA i j) + (if i == j then s else 0).
  by move=> hi hj; rewrite /W /fr_start get_mk ?e1 ?hj //; apply: leq_trans hj (leq_addr _ _).
have eB i j : (i < n)%N -> (j < nc mb)%N -> W i (n + j)%N = f (get mb i j).
  by move=> hi hj; rewrite /W /fr_start get_mk ?e1 ?ltn_add2l // ltnNge leq_addr /= addKn.
have hW i j : (i < n)%N -> (j.+1 < i)%N -> W i j = 0.
  move=> hi hj; have hj' : (j < n)%N by move: hi hj; clear; lia.
  rewrite eW //.
  by rewrite hH ?e1 // rmorph0 oppr0 add0r gtn_eqF // ltnW.
have mW k : (k <= n)%N -> \matrix_(i < k, j < k) W i j = s%:M - mxof f k k mA.
  move=> hk; apply/matrixP => i j; rewrite !mxE eW ?(leq_trans (ltn_ord _)) // addrC; congr (_ + _).
  by rewrite -val_eqE /=; case: eqP => _; rewrite ?mulr1n ?mulr0n.
have inv1 : einv n (nc mb) W 1 (fr_start f mA mb s).
  split=> //; first by rewrite /shp /= e1.
  by case=> [|i] j.
have := @elimP L n (nc mb) W n.-1 1%N (fr_start f mA mb s) isT; rewrite add1n prednK // => /(_ erefl inv1).
have ld k : (k <= n)%N -> (forall i, (i < k.-1)%N -> urow W i i != 0) -> lead_minor f mA s k = \prod_(i < k) urow W i i.
  by move=> hk h; rewrite /lead_minor -mW // (@det_lead L n).
have zero i : (i < n)%N -> urow W i i = 0 -> exists k, (k <= n)%N /\ lead_minor f mA s k = 0.
  move=> hi z0; have ex : exists i, (i < n)%N && (urow W i i == 0) by exists i; rewrite hi z0 eqxx.
  case: (ex_minnP ex) => k /andP[hk /eqP zk] mk'; exists k.+1; split=> //; rewrite ld //.
    by rewrite big_ord_recr /= zk mulr0.
  move=> x /= hx; apply/negP => zx; have := mk' x; rewrite zx andbT (ltn_trans hx hk) => /(_ isT).
  by rewrite leqNgt hx.
rewrite /state_freq_resp e1; case: fr_elim => [V [iV pv]|[i [hi z0]]] /=; last first.
  by apply: (zero i) => //; apply: leq_trans hi (leq_pred _).
have nn : (n.-1 < n)%N by rewrite ltn_predL.
have gV j : (n.-1 <= j < n + nc mb)%N -> get V n.-1 j = urow W n.-1 j by case: iV => _ h _ hj; apply: h.
have q1 : (n.-1 <= n.-1 < n + nc mb)%N by rewrite leqnn /=; apply: leq_trans nn (leq_addr _ _).
rewrite gV //; case: eqP => [z0|/eqP nz]; first exact: zero z0.
have all_nz i : (i < n)%N -> urow W i i != 0.
  move=> hi; have [e|ne] := eqVneq i n.-1; first by rewrite e.
  by apply: pv; rewrite /=; move: hi ne; clear; lia.
split.
- move=> k hk; rewrite ld // => [|i hi]; last by apply: all_nz; move: hi hk n0; clear; lia.
  by apply/prodf_neq0 => i _; apply: all_nz; apply: leq_trans (ltn_ord i) hk.
- by rewrite size_map size_iota.
move=> i k ei; rewrite (nth_map 0%N) ?size_iota // nth_iota // add0n gV; last first.
  by have := ltn_ord k; move: nn; clear; lia.
rewrite -(@elim_last L n (nc mb) W hW n0 all_nz i k ei) mW //; congr (_ * _); congr ((_ *m _) _ _).
by apply/matrixP => x y; rewrite !mxE eB.
Qed.
End Resp.

(* ------------------------------------------------------------ Hessenberg realisation *)
Section HessT.
Variable R : realFieldType.
Variable qr : arr R -> arr R * arr R.
Variable hess : arr R -> arr R * arr R.
Local Notation mx := (mxof [rmorphism of @idfun R]).

Definition Jmx n : 'M[R]_n := \matrix_(i, j) (i + j == n.-1)%N%:R.

Lemma Jmx_tr n : (Jmx n)^T = Jmx n.
Proof. by apply/matrixP => i j; rewrite !mxE addnC. Qed.

Lemma Jmul n k (M : 'M[R]_(n, k)) i j : (Jmx n *m M) i j = M (rev_ord i) j.
Proof.
rewrite mxE (bigD1 (rev_ord i)) //= big1 ?addr0 => [|l nl]; rewrite mxE /=.
  have -> : (i + (n - i.+1) == n.-1)%N by have := ltn_ord i; clear; lia.
  by rewrite mul1r.
case: eqP => [e|]; last by rewrite mul0r.
case/eqP: nl; apply: val_inj => /=; have := ltn_ord i; move: e; clear; lia.
Qed.

Lemma mulJ n k (M : 'M[R]_(k, n)) i j : (M *m Jmx n) i j = M i (rev_ord j).
Proof. by rewrite -[M *m _]trmxK trM mxE Jmx_tr Jmul mxE. Qed.

Lemma JJ n : Jmx n *m Jmx n = 1%:M.
Proof.
apply/matrixP => i j; rewrite Jmul !mxE /=; congr (nat_of_bool _)%:R.
by apply/eqP/eqP => [e|->]; [apply: val_inj => /=|]; have := ltn_ord i; have := ltn_ord j; [move: e|]; clear; lia.
Qed.

Lemma mx_flipud n k X : shp X = (n, k) -> mx n k (aflipud X) = Jmx n *m mx n k X.
Proof.
case=> e1 e2; apply/matrixP => i j; rewrite Jmul !mxE get_mk ?e1 ?e2 //=; congr (get X _ _).
by have := ltn_ord i; clear; lia.
Qed.
Lemma mx_fliplr n k X : shp X = (k, n) -> mx k n (afliplr X) = mx k n X *m Jmx n.
Proof.
case=> e1 e2; apply/matrixP => i j; rewrite mulJ !mxE get_mk ?e1 ?e2 //=; congr (get X _ _).
by have := ltn_ord j; clear; lia.
Qed.

(* what the core delivers, form 'c' *)
Lemma hess_coreP n k q (a b c : arr R) inv : shp a = (n, n) -> shp b = (n, k) -> shp c = (q, n) ->
  qr_ok b (qr b) -> (let qq := (qr b).1 in let ab := amul (amul (aT qq) a) qq in hess_ok ab (hess ab)) ->
  let: (ah, bh, ch, T) := hess_core qr hess a b c false inv in
  let qq := mx n n (qr b).1 in let ab := amul (amul (aT (qr b).1) a) (qr b).1 in let qh := mx n n (hess ab).2 in
  let P := if inv then qq *m qh *m Jmx n else qq *m qh in
  [/\ [/\ wfa ah, wfa bh & wfa ch] /\ [/\ shp ah = (n, n), shp bh = (n, k), shp ch = (q, n) & shp T = (n, n)],
      P^T *m P = 1%:M,
      [/\ mx n n ah = P^T *m mx n n a *m P, mx n k bh = P^T *m (qq *m qh *m qq^T *m mx n k b) & mx q n ch = mx q n c *m P],
      mx n n T = if inv then Jmx n *m (qq *m qh) else qq *m qh &
      forall i j, (i < n)%N -> (j < n)%N ->
        ((if inv then i.+1 < j else j.+1 < i)%N -> get ah i j = 0) /\
        (forall l, (l < k)%N -> (if inv then n.-1 - i > l else i > l)%N -> get bh i l = 0)].
Proof.
case=> a1 a2 [b1 b2] [c1 c2]; rewrite /hess_core /qr_ok b1 b2; case: (qr b) => qq bh /=.
case=> -[wq [q1 q2] wb [bh1 bh2]] oq eq_ tri; rewrite /hess_ok /=.
set ab := amul _ _; rewrite q2; case: (hess ab) => ah qh /=.
case=> -[wh [h1 h2] wqh [qh1 qh2]] oh eh hs _.
set Q := mx n n qq in oq eq_ *; set H := mx n n qh in oh eh *.
have oq' : Q *m Q^T = 1%:M by apply: mulmx1C.
have oh' : H *m H^T = 1%:M by apply: mulmx1C.
have eab : mx n n ab = Q^T *m mx n n a *m Q.
  rewrite /ab (@mxof_mul _ _ _ n n n) //= ?(@mxof_mul _ _ _ n n n) //= ?q2 ?a2 //.
  by rewrite (@mxof_T _ _ _ n n).
have eah : mx n n ah = (Q *m H)^T *m mx n n a *m (Q *m H).
  have -> : (Q *m H)^T *m mx n n a *m (Q *m H) = H^T *m (Q^T *m mx n n a *m Q) *m H by rewrite trM -!mulmxA.
  by rewrite -eab -eh -!mulmxA oh mulmx1 mulmxA oh mul1mx.
have ebh : mx n k bh = (Q *m H)^T *m (Q *m H *m Q^T *m mx n k b).
  have -> : Q *m H *m Q^T *m mx n k b = Q *m H *m mx n k bh.
    by rewrite -eq_ -!mulmxA [Q^T *m (_ *m _)]mulmxA oq mul1mx.
  by rewrite mulmxA trM -!mulmxA [Q^T *m (Q *m _)]mulmxA oq mul1mx mulmxA oh mul1mx.
have oP : (Q *m H)^T *m (Q *m H) = 1%:M by rewrite trM -!mulmxA [Q^T *m (_ *m _)]mulmxA oq mul1mx oh.
have ech : mx q n (amul (amul c qq) qh) = mx q n c *m (Q *m H).
  by rewrite (@mxof_mul _ _ _ q n n) //= ?(@mxof_mul _ _ _ q n n) // ?q2 ?c2 // mulmxA.
have eT : mx n n (amul qq qh) = Q *m H by rewrite (@mxof_mul _ _ _ n n n).
case: inv => /=; last first.
  split=> //.
  - by split; split; rewrite ?wfa_mk // /shp ?h1 ?h2 ?bh1 ?bh2 //= ?q1 ?c1 ?qh2.
  - move=> i j hi hj; split; first by apply: hs; rewrite h1.
    by move=> l hl; exact: tri.
have sud : shp (aflipud ah) = (n, n) by rewrite /shp /= h1 h2.
split.
- by split; split; rewrite ?wfa_mk // /shp /= ?h1 ?h2 ?bh1 ?bh2 //= ?q1 ?c1 ?qh2.
- by move: (Q *m H) oP => X oX; rewrite trM Jmx_tr -mulmxA [X^T *m _]mulmxA oX mul1mx JJ.
- rewrite trM Jmx_tr; split.
  + by rewrite mx_fliplr // mx_flipud /shp ?h1 ?h2 // eah; move: (Q *m H) => X; rewrite !mulmxA.
  + by rewrite mx_flipud /shp ?bh1 ?bh2 // -[RHS]mulmxA -ebh.
  + by rewrite mx_fliplr /shp /= ?c1 ?qh2 // ech [RHS]mulmxA.
- by rewrite mx_flipud /shp /= ?q1 ?qh2 // eT.
move=> i j hi hj; split=> [ij|l hl il].
  by rewrite !get_mk ?h1 ?h2 //= ?h1 ?h2; [apply: hs; rewrite ?h1 | ]; move: hi hj ij; clear; lia.
by rewrite get_mk ?bh1 ?bh2 //; apply: tri.
Qed.

(* a single compressed column is left alone by the Hessenberg step *)
Lemma hess_single n (a b : arr R) : shp a = (n, n) -> shp b = (n, 1)%N -> (0 < n)%N ->
  qr_ok b (qr b) -> (let qq := (qr b).1 in let ab := amul (amul (aT qq) a) qq in hess_ok ab (hess ab)) ->
  let qq := mx n n (qr b).1 in let ab := amul (amul (aT (qr b).1) a) (qr b).1 in let qh := mx n n (hess ab).2 in
  qq *m qh *m qq^T *m mx n 1 b = mx n 1 b.
Proof.
case=> a1 a2 [b1 b2] n0; rewrite /qr_ok b1 b2; case: (qr b) => qq bh /=.
case=> -[wq [q1 q2] wb [bh1 bh2]] oq eq_ tri; rewrite /hess_ok /=.
set ab := amul _ _; rewrite q2; case: (hess ab) => ah qh /=.
case=> -[wh [h1 h2] wqh [qh1 qh2]] oh _ _ e1.
rewrite -eq_ -!mulmxA [_^T *m (_ *m _)]mulmxA oq mul1mx; congr (_ *m _).
apply/matrixP => i j; rewrite mxE (bigD1 (Ordinal n0)) //= big1 ?addr0.
  rewrite !mxE e1 //= ord1; case: eqP => [->|/eqP i0]; first by rewrite mul1r.
  by rewrite mul0r tri // lt0n.
move=> l nl; rewrite !mxE /= tri ?mulr0 // ord1 lt0n; apply: contra nl => /eqP e; apply/eqP; exact: val_inj.
Qed.

(* the contracts for the matrices that are compressed *)
Definition hess_req (a b : arr R) : Prop :=
  qr_ok b (qr b) /\ let ab := amul (amul (aT (qr b).1) a) (qr b).1 in hess_ok ab (hess ab).
(* Q H Q' for the factors computed from (a, b) *)
Definition hess_rot (a b : arr R) : arr R :=
  let qq := (qr b).1 in amul (amul qq (hess (amul (amul (aT qq) a) qq)).2) (aT qq).

Lemma rotE n k a b : shp a = (n, n) -> shp b = (n, k) -> hess_req a b ->
  let qq := mx n n (qr b).1 in let ab := amul (amul (aT (qr b).1) a) (qr b).1 in let qh := mx n n (hess ab).2 in
  shp (hess_rot a b) = (n, n) /\ mx n n (hess_rot a b) = qq *m qh *m qq^T.
Proof.
case=> a1 a2 [b1 b2] [] /=; rewrite /qr_ok /hess_ok b1 b2 /hess_rot; case: (qr b) => qq bh /=.
case=> -[wq [q1 q2] _ _] _ _ _; rewrite q2; case: (hess _) => ah qh /= [] [_ _ _ [h1 h2]] _ _ _ _.
split; first by rewrite /shp /= q1.
by rewrite (@mxof_mul _ _ _ n n n) //= ?(@mxof_mul _ _ _ n n n) // ?(@mxof_T _ _ _ n n).
Qed.

(* the model that hessenberg_realization(G) really represents *)
Definition hess_ref (G : state R) (formo : bool) : state R :=
  St (sa G) (if formo then sb G else amul (hess_rot (sa G) (sb G)) (sb G))
     (if formo then amul (sc G) (aT (hess_rot (aT (sa G)) (aT (sc G)))) else sc G)
     (azeros (spn G) (smn G)) false (sdt G).

Lemma mkS3 (a b c : arr R) dt : nr a = nc a -> nr b = nr a -> nc c = nr a -> dt_ok dt ->
  mk_state (Some a) (Some b) (Some c) None dt = Ok (St a b c (azeros (nr c) (nc b)) false dt).
Proof.
move=> h1 h2 h3 h6; rewrite /mk_state /st_validate /= h1 eqxx /= h2 h1 eqxx /=.
by rewrite h3 h1 eqxx /= eqxx /= check_dt_ok.
Qed.

Lemma hessS (G : state R) formo inv : wfS G -> sgain G = false ->
  hess_req (if formo then aT (sa G) else sa G) (if formo then aT (sc G) else sb G) ->
  exists K T (P : 'M[R]_(snn G)), [/\ hessenberg_realization qr hess G formo inv = Ok (K, T),
    [/\ wfS K, sgain K = false, sdt K = sdt G & sshape K = sshape G /\ shp T = (snn G, snn G)],
    P^T *m P = 1%:M, @similar R (hess_ref G formo) K P &
    ~~ inv -> mx (snn G) (snn G) T = P].
Proof.
move=> w hg; have [[wa wb wc wd] [e1 e2 e3 e4 e5]] := wfS_dyn w hg.
have hdt := wfS_dt w; set n := snn G; have nE : nr (sa G) = n by [].
case: formo => -[rq rh]; rewrite /hessenberg_realization.
  have sA : shp (aT (sa G)) = (n, n) by rewrite /shp /= e1.
  have sB : shp (aT (sc G)) = (n, spn G) by rewrite /shp /= e3 e4.
  have sC : shp (aT (sb G)) = (smn G, n) by rewrite /shp /= e5 e2.
  have := hess_coreP inv sA sB sC rq rh; have := rotE sA sB (conj rq rh).
  have -> : hess_core qr hess (sa G) (sb G) (sc G) true inv =
    let: (ah, bh, ch, T) := hess_core qr hess (aT (sa G)) (aT (sc G)) (aT (sb G)) false inv in (aT ah, aT ch, aT bh, T).
    by rewrite /hess_core; case: (qr _) => qq bh; case: (hess _) => ah qh; case: inv.
  case: hess_core => [[[ah bh] ch] T] /=; set Q := mx n n _; set H := mx n n _.
  case=> sW eW [[[wh wbh wch] [[h1 h2] [b1 b2] [c1 c2] sT]] oP [eA eB eC] eT _].
  rewrite mkS3 //=; [|by rewrite h1 h2|by rewrite c2 h2|by rewrite b1 h2].
  set P := (if inv then _ else _) in oP eA eB eC.
  have uP : P \in unitmx by have [_ ->] := mulmx1_unit oP.
  have iP : invmx P = P^T by rewrite -[RHS]mulmx1 -[1%:M](mulmxV uP) mulmxA oP mul1mx.
  eexists; exists T, P; split; first reflexivity.
  - split=> //=; first by apply: wfS_mk; rewrite ?wfa_mk //= ?h1 ?h2 ?c1 ?c2 ?b1 ?b2.
    by rewrite /sshape /= c1 b2.
  - by [].
  - rewrite /similar /=; split=> //.
      rewrite iP; split.
      + rewrite (@mxof_T _ _ _ n n) // eA (@mxof_T _ _ _ n n) //.
        by rewrite !trM !trmxK mulmxA.
      + by rewrite (@mxof_T _ _ _ (smn G) n) // eC (@mxof_T _ _ _ n (smn G)) // trM trmxK.
      + rewrite (@mxof_T _ _ _ n (spn G)) // eB -eW (@mxof_mul _ _ _ (spn G) n n) //=; last by case: sW.
        rewrite (@mxof_T _ _ _ n n (hess_rot _ _)); try by case: sW.
        by rewrite (@mxof_T _ _ _ (spn G) n) // !trM !trmxK.
    by rewrite /spn /smn /= c1 b2.
  - by move=> ni; rewrite eT /P (negbTE ni).
have sA : shp (sa G) = (n, n) by rewrite /shp /= e1.
have sB : shp (sb G) = (n, smn G) by rewrite /shp e2 e5.
have sC : shp (sc G) = (spn G, n) by rewrite /shp e3 e4.
have := hess_coreP inv sA sB sC rq rh; have := rotE sA sB (conj rq rh).
case: hess_core => [[[ah bh] ch] T] /=; set Q := mx n n _; set H := mx n n _.
case=> sW eW [[[wh wbh wch] [[h1 h2] [b1 b2] [c1 c2] sT]] oP [eA eB eC] eT _].
rewrite mkS3 //=; [|by rewrite h1 h2|by rewrite b1 h1|by rewrite c2 h1].
set P := (if inv then _ else _) in oP eA eB eC.
have uP : P \in unitmx by have [_ ->] := mulmx1_unit oP.
have iP : invmx P = P^T by rewrite -[RHS]mulmx1 -[1%:M](mulmxV uP) mulmxA oP mul1mx.
eexists; exists T, P; split; first reflexivity.
- split=> //=; first by apply: wfS_mk; rewrite ?wfa_mk //= ?h1 ?h2 ?c1 ?c2 ?b1 ?b2.
  by rewrite /sshape /= c1 b2.
- by [].
- rewrite /similar /=; split=> //.
    rewrite iP; split=> //; rewrite -/n eB -eW (@mxof_mul _ _ _ n n (smn G)) //; by case: sW.
  by rewrite /spn /smn /= c1 b2.
by move=> ni; rewrite eT /P (negbTE ni).
Qed.
End HessT.

Section FreqRow.
Variables (R : realFieldType) (L : fieldType) (f : {rmorphism R -> L}).
Variable qr : arr R -> arr R * arr R.
Variable hess : arr R -> arr R * arr R.
Local Notation mx := (mxof [rmorphism of @idfun R]).

Lemma last_row n (M : 'M[L]_n) (rw cl : nat -> L) (i : 'I_n) : i = n.-1 :> nat ->
  (forall k, (k < n.-1)%N -> rw k = 0) ->
  (\row_(k < n) rw k *m M *m \col_(k < n) cl k) 0 0 = (M *m \col_(k < n) cl k) i 0 * rw n.-1.
Proof.
move=> ei h; rewrite -mulmxA; move: (M *m _) => X.
rewrite mxE (bigD1 i) //= big1 ?addr0; first by rewrite mxE ei mulrC.
move=> k nk; rewrite mxE h ?mul0r //; move: nk; rewrite -val_eqE /= ei; case: k => k /=; clear; lia.
Qed.

Lemma fr_row (G : state R) i s : wfS G -> sgain G = false -> (0 < snn G)%N -> (i < spn G)%N ->
  hess_req qr hess (aT (sa G)) (aT (arows (sc G) [:: i])) ->
  let: (aa, bb, cc, _) := hess_core qr hess (sa G) (sb G) (arows (sc G) [:: i]) true true in
  nr aa = snn G /\
  match state_freq_resp f aa bb (get cc 0 (nc cc).-1) s with
  | Some r => [/\ forall k, (k <= snn G)%N -> lead_minor f aa s k != 0, regS f G s, size r = smn G &
      forall j, (j < smn G)%N -> nth 0 r j + f (get (sd G) i j) = ev f G s i j]
  | None => exists k, (k <= snn G)%N /\ lead_minor f aa s k = 0
  end.
Proof.
move=> w hg n0 hi [rq rh]; have [[wa wb wc wd] [e1 e2 e3 e4 e5]] := wfS_dyn w hg.
set n := snn G in n0 *; have nE : nr (sa G) = n by [].
set c := arows (sc G) [:: i] in rq rh *.
have sA : shp (aT (sa G)) = (n, n) by rewrite /shp /= e1.
have sB : shp (aT c) = (n, 1)%N by rewrite /shp /= e3.
have sC : shp (aT (sb G)) = (smn G, n) by rewrite /shp /= e5 e2.
have := hess_coreP true sA sB sC rq rh; have := hess_single sA sB n0 rq rh.
have -> : hess_core qr hess (sa G) (sb G) c true true =
  let: (ah, bh, ch, T) := hess_core qr hess (aT (sa G)) (aT c) (aT (sb G)) false true in (aT ah, aT ch, aT bh, T).
  by rewrite /hess_core; case: (qr _) => qq bh; case: (hess _) => ah qh.
case: hess_core => [[[ah bh] ch] T] /=; set Q := mx n n _; set H := mx n n _.
move=> e0 [[[wh wbh wch] [[h1 h2] [b1 b2] [c1 c2] _]] oP [eA eB eC] _ hz].
rewrite e0 in eB; set P := Q *m H *m Jmx R n in oP eA eB eC.
have uP : P \in unitmx by have [_ ->] := mulmx1_unit oP.
have iP : invmx P = P^T by rewrite -[RHS]mulmx1 -[1%:M](mulmxV uP) mulmxA oP mul1mx.
pose Gi := St (sa G) (sb G) c (azeros 1 (smn G)) false None.
pose Ki := St (aT ah) (aT ch) (aT bh) (azeros 1 (smn G)) false None.
have sim : @similar R Gi Ki P.
  rewrite /similar /=; split=> //; rewrite iP; split.
  - by rewrite (@mxof_T _ _ _ n n) // eA (@mxof_T _ _ _ n n) // !trM !trmxK mulmxA.
  - by rewrite (@mxof_T _ _ _ (smn G) n) // eC (@mxof_T _ _ _ n (smn G)) // trM trmxK.
  - by rewrite (@mxof_T _ _ _ n 1) // eB (@mxof_T _ _ _ 1 n) // trM !trmxK.
have [rg vl] := similar_tf f s sim.
have sK : snn Ki = n by rewrite /Ki /snn /= h2.
split; first by rewrite h2.
have hH : upper_hess (aT ah).
  move=> x y hx hy; rewrite /= h2 in hx; have hy' : (y < n)%N by move: hx hy; clear; lia.
  by rewrite get_mk ?h1 ?h2 //; case: (hz y x hy' hx) => h _; exact: h.
have sa' : shp (aT ah) = (n, n) by rewrite /shp /= h1 h2.
have := @sfrP R L f n (aT ah) (aT ch) (get (aT bh) 0 (nr bh).-1) s sa' c2 n0 hH.
case: state_freq_resp => [r [m1 m2 m3]|[k [hk mk0]]]; last by exists k.
have rK : regS f Ki s.
  by rewrite /regS /regular sK unitmxE unitfE; exact: (m1 n).
split=> //.
- by have : regS f Gi s by rewrite -rg.
- by rewrite m2 /= c1.
move=> j hj; have eG : ev f G s i j = f (get (sd G) i j) + ev f Gi s 0 j.
  rewrite /ev /=; congr (_ + _); rewrite get_mk // rmorph0 add0r; congr ((_ *m _ *m _) 0 0).
  by apply/matrixP => x y; rewrite !mxE get_mk // e3.
rewrite eG addrC; congr (_ + _).
have hj' : (j < nc (aT ch))%N by rewrite /= c1.
have hl : (n.-1 < n)%N by rewrite ltn_predL.
rewrite -vl // /ev /= get_mk // rmorph0 add0r (m3 (Ordinal hl) (Ordinal hj')) //.
have zr k : (k < n.-1)%N -> f (get (aT bh) 0 k) = 0.
  move=> hk; have hk' : (k < n)%N by move: hk; clear; lia.
  rewrite get_mk ?b1 ?b2 //; case: (hz k k hk' hk') => _ -> //; first exact: rmorph0.
  by move: hk; clear; lia.
move: sK; move: (snn Ki) => q eq; subst q; rewrite (@last_row _ _ (fun k => f (get (aT bh) 0 k)) (fun k => f (get (aT ch) k j)) (Ordinal hl)) //.
rewrite b1; congr (_ * _); rewrite !mxE; apply: eq_bigr => k _; by rewrite !mxE.
Qed.
End FreqRow.
