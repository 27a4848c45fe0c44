(* Correctness lemmas for haroldpoly, haroldpolyadd, haroldpolymul, haroldpolydiv
   and haroldcompanion (ModelPoly.v). *)
From mathcomp Require Import all_ssreflect all_algebra zify.
From Verif Require Import Base BaseTheory Spec ModelPoly PolyTheory.

Set Implicit Arguments.
Unset Strict Implicit.
Unset Printing Implicit Defensive.

Import GRing.Theory.
Local Open Scope ring_scope.

Section Ops.
Variable F : fieldType.
Implicit Types (p q r s x num den : seq F) (c d : F).

(* ------------------------------------------------------------- haroldpoly *)
Lemma poly_innerP p rx y : (y < size p)%N ->
  size (poly_inner p rx y) = size p /\
  forall i, nth 0 (poly_inner p rx y) i =
    if (0 < i <= y)%N then nth 0 p i - nth 0 p i.-1 * rx else nth 0 p i.
Proof.
elim: y p => [|y IH] p hy /=; first by split=> // i; case: i.
set p' := set_nth _ _ _ _.
have sp' : size p' = size p by rewrite size_set_nth; slia F.
have hn i : nth 0 p' i = if i == y.+1 then nth 0 p y.+1 - nth 0 p y * rx else nth 0 p i.
  by rewrite nth_set_nth /=.
have [|-> h] := IH p' ; first by slia F.
split=> // i; rewrite h !hn.
case: (eqVneq i y.+1) => [->|ne]; first by rewrite /= ltnn leqnn.
have -> : (i.-1 == y.+1) = (i == y.+2) by case: (i).
case: (eqVneq i y.+2) => [->|ne2]; first by rewrite /= !ltnn ltnNge leqnSn.
have -> : (i <= y.+1)%N = (i <= y)%N by rewrite leq_eqVlt (negbTE ne).
by [].
Qed.

Lemma poly_outerP rs p (x k : nat) : (0 < x)%N -> (x + k = size rs)%N -> size p = (size rs).+1 ->
  (forall i, (x < i)%N -> nth 0 p i = 0) ->
  polyhi p = \prod_(i < x) ('X - (nth 0 rs i)%:P) * 'X^k ->
  size (poly_outer p rs x k) = (size rs).+1 /\
  polyhi (poly_outer p rs x k) = \prod_(i < size rs) ('X - (nth 0 rs i)%:P).
Proof.
elim: k p x => [|k IH] p x x0 hk sp h0 hp /=.
  by move: hk hp; rewrite addn0 => ex; rewrite {}ex mulr1.
set rx := nth 0 rs x; set p1 := set_nth _ _ _ _.
have sp1 : size p1 = size p by rewrite size_set_nth; slia F.
have hn i : nth 0 p1 i = if i == x.+1 then - nth 0 p x * rx else nth 0 p i.
  by rewrite nth_set_nth.
have [|sp2 h2] := @poly_innerP p1 rx x; first by slia F.
set p2 := poly_inner _ _ _ in sp2 h2 *.
have hn2 i : (0 < i)%N -> nth 0 p2 i = nth 0 p i - nth 0 p i.-1 * rx.
  move=> i0; rewrite h2 !hn i0 /=.
  case: (eqVneq i x.+1) => [->|ne].
    by rewrite ltnn /= (h0 x.+1) // sub0r mulNr.
  have -> : (i.-1 == x.+1) = (i == x.+2) by case: (i) i0.
  case: (leqP i x) => hi; first by rewrite (_ : i == _ = false) //; apply/eqP; slia F.
  by rewrite !h0 ?mul0r ?subr0 //; slia F.
have ss : size p2 = (size rs).+1 by slia F.
apply: IH => //; try slia F.
  by move=> i hi; rewrite hn2 ?h0 ?mul0r ?subr0 //; slia F.
have X0 : ('X : {poly F}) != 0 by rewrite polyX_eq0.
apply: (mulIf X0).
rewrite -mulrA -exprSr big_ord_recr /= [RHS]mulrAC -hp -/rx.
apply/polyP => i; rewrite coefMX mulrBr coefB coefMX coefMC !coef_polyhi ss sp.
case: i => [|i] /=; first by rewrite sub0r subn1 /= (h0 (size rs)) ?mul0r ?oppr0 //; slia F.
rewrite !ltnS; case: (ltngtP i (size rs)) => hi.
- by rewrite hn2 ?subn_gt0 ?ltnS // -subnS.
- by rewrite mul0r subr0.
- rewrite hi subnn mul0r subr0 h2 //= hn.
  by [].
Qed.

Lemma haroldpolyP (rs : seq F) :
  size (haroldpoly rs) = (size rs).+1 /\
  polyhi (haroldpoly rs) = \prod_(r <- rs) ('X - r%:P).
Proof.
rewrite /haroldpoly (big_nth 0) big_mkord; case: eqP => [->|/eqP n0].
  by rewrite big_ord0 polyhi1.
set p := set_nth _ _ 1%N _.
have e : p = [:: 1, - nth 0 rs 0 & nseq (size rs).-1 0] by rewrite /p; case: (size rs) n0.
have sp : size p = (size rs).+1 by rewrite e /= size_nseq; slia F.
apply: poly_outerP => //; first by rewrite add1n prednK ?lt0n.
  by move=> [|[|i]] // _; rewrite e /= nth_nseq if_same.
rewrite big_ord_recl big_ord0 mulr1 e !polyhi_cons polyhi_nseq0 addr0 /= size_nseq.
by rewrite scale1r scaleNr mulrBl mul_polyC exprS.
Qed.

(* ---------------------------------------------------------- haroldpolyadd *)
Lemma polyhi_add_tail s x : (size x <= size s)%N ->
  size (add_tail s x) = size s /\ polyhi (add_tail s x) = polyhi s + polyhi x.
Proof.
move=> h; rewrite /add_tail size_mkseq; split=> //.
apply/polyP => k; rewrite coefD !coef_polyhi size_mkseq.
case: (ltnP k (size s)) => hk; last by rewrite ifF ?addr0 //; slia F.
rewrite nth_mkseq; last by slia F.
case: (ltnP k (size x)) => hx.
  by rewrite ifF; [congr (_ + nth 0 x _); slia F|slia F].
by rewrite ifT ?addr0 //; slia F.
Qed.

Lemma maxsize_ge (l : seq (seq F)) x : x \in l -> (size x <= maxsize l)%N.
Proof.
rewrite /maxsize; elim: l => //= y l IH; rewrite inE => /orP[/eqP->|/IH h]; first exact: leq_maxl.
by rewrite (leq_trans h) // leq_maxr.
Qed.

Lemma maxsize_le (l : seq (seq F)) n : (forall x, x \in l -> (size x <= n)%N) -> (maxsize l <= n)%N.
Proof.
rewrite /maxsize; elim: l => //= y l IH h; rewrite geq_max h ?mem_head //=.
by apply: IH => x hx; apply: h; rewrite inE hx orbT.
Qed.

Lemma maxsize_in (l : seq (seq F)) : l != [::] -> exists2 x, x \in l & size x = maxsize l.
Proof.
rewrite /maxsize; elim: l => //= y [|z l] IH _; first by exists y; rewrite ?mem_head //= maxn0.
have [//|x hx ex] := IH; case: (leqP (size y) (foldr maxn 0%N [seq size i | i <- z :: l])) => h.
  by exists x; [rewrite inE hx orbT|rewrite ex].
by exists y; rewrite ?mem_head.
Qed.

Lemma polyaddP (args : seq (seq F)) tz s : haroldpolyadd args tz = Ok s ->
  polyhi s = \sum_(p <- args) polyhi p /\
  size s = maxsize (if tz then [seq trimf x | x <- args] else args).
Proof.
rewrite /haroldpolyadd; case: eqP => // _; set tr := if tz then _ else _ => -[<-].
have -> : \sum_(p <- args) polyhi p = \sum_(p <- tr) polyhi p.
  rewrite /tr; case: tz {tr} => //; rewrite big_map.
  by apply: eq_bigr => p _; rewrite polyhi_trimf.
have main (l : seq (seq F)) s0 : all (fun x => size x <= size s0)%N l ->
  polyhi (foldl (@add_tail F) s0 l) = polyhi s0 + \sum_(p <- l) polyhi p /\
  size (foldl (@add_tail F) s0 l) = size s0.
  elim: l s0 => [|x l IH] s0 /=; first by rewrite big_nil addr0.
  move=> /andP[h1 h2]; have [e1 e2] := polyhi_add_tail h1.
  have [|e3 e4] := IH (add_tail s0 x); first by rewrite e1.
  by rewrite e3 e4 e2 e1 big_cons addrA.
have [|-> ->] := main tr (nseq (maxsize tr) 0).
  by apply/allP => x hx; rewrite size_nseq maxsize_ge.
by rewrite polyhi_nseq0 add0r size_nseq.
Qed.

(* ---------------------------------------------------------- haroldpolymul *)
Lemma convolve_nil p q : (convolve p q == [::]) = (p == [::]) || (q == [::]).
Proof.
case: (altP (p =P _)) => [->|p0] //=; case: (altP (q =P _)) => [->|q0] /=.
  by rewrite /convolve orbT.
rewrite -size_eq0 size_convolve // -subn1 subn_eq0 -ltnS -addn1; apply/negbTE.
by move: p0 q0; rewrite -!size_eq0; slia F.
Qed.

Lemma mul_loopP p (xs : seq (seq F)) :
  (p != [::] \/ head [::] xs = [::]) ->
  exists2 q, mul_loop p xs = Ok q & polyhi q = polyhi p * \prod_(x <- xs) polyhi x.
Proof.
elim: xs p => [|x xs IH] p h /=; first by exists p => //; rewrite big_nil mulr1.
rewrite big_cons; case: eqP => [/size0nil->|/eqP x0].
  by exists [::] => //; rewrite polyhi_nil mul0r mulr0.
rewrite size_eq0 in x0; have p0 : p != [::] by case: h => //= h; rewrite h in x0.
rewrite /np_convolve (negbTE p0) (negbTE x0) /=.
have [|q -> eq] := IH (convolve p x); first by left; rewrite convolve_nil (negbTE p0).
by exists q => //; rewrite eq polyhi_convolve mulrA.
Qed.

Lemma has_polyhi p : has (fun c => c != 0) p = (polyhi p != 0).
Proof.
elim: p => [|c p IH] /=; first by rewrite polyhi_nil eqxx.
case: eqP => [->|/eqP c0] /=; first by rewrite IH polyhi_cons scale0r add0r.
by rewrite -size_poly_eq0 size_polyhi_trim.
Qed.

(* success and value; the only failures are: no argument, and a vanishing first argument
   followed by a non-vanishing one *)
Lemma polymulP (args : seq (seq F)) tz :
  let tr := if tz then [seq trimf x | x <- args] else args in
  tr != [::] -> head [::] tr != [::] \/ head [::] (behead tr) = [::] ->
  exists2 q, haroldpolymul args tz = Ok q & polyhi q = \prod_(p <- args) polyhi p /\ q != [::].
Proof.
move=> tr; rewrite /haroldpolymul -/tr => n0 h.
have e : \prod_(p <- args) polyhi p = \prod_(p <- tr) polyhi p.
  rewrite /tr; case: tz {tr n0 h} => //; rewrite big_map.
  by apply: eq_bigr => p _; rewrite polyhi_trimf.
case: tr n0 h e => // p xs _ /= h ->; have [q -> hq] := mul_loopP h.
rewrite /= has_polyhi; case: eqP => [e|/eqP ne]; last first.
  by exists q; rewrite // big_cons hq; split=> //; apply: contraNneq ne => ->; rewrite polyhi_nil.
by exists [:: 0]; rewrite // big_cons -hq e polyhi1.
Qed.

Lemma polymul_zero_first (args : seq (seq F)) p x :
  polyhi p = 0 -> polyhi x != 0 -> haroldpolymul [:: p, x & args] true = Err ValueError.
Proof.
move=> p0 x0; rewrite /haroldpolymul /=.
have -> : trimf p = [::] by apply/eqP; rewrite trimf_nil p0.
have : trimf x != [::] by rewrite trimf_nil.
by rewrite -size_eq0 => /negbTE->.
Qed.

(* ---------------------------------------------------------- haroldpolydiv *)
Lemma size_lfilt num den k : size (lfilt num den k) = k.
Proof. by elim: k => //= k IH; rewrite size_rcons IH. Qed.

Lemma nth_lfilt num den k i : (i < k)%N -> nth 0 (lfilt num den k) i = nth 0 (lfilt num den i.+1) i.
Proof.
elim: k => // k IH; rewrite ltnS leq_eqVlt => /orP[/eqP->//|h].
by rewrite /= nth_rcons size_lfilt h IH.
Qed.

Lemma lfiltE num den k i : nth 0 den 0 != 0 -> (i < k)%N ->
  sumN i.+1 (fun j => nth 0 den j * nth 0 (lfilt num den k) (i - j)) = nth 0 num i.
Proof.
move=> d0 hi; rewrite sumNE big_ord_recl /= subn0.
have -> : \sum_(j < i) nth 0 den (bump 0 j) * nth 0 (lfilt num den k) (i - bump 0 j) =
          sumN i (fun j => nth 0 den j.+1 * nth 0 (lfilt num den i) (i - j.+1)).
  rewrite sumNE; apply: eq_bigr => j _; rewrite /bump add1n; have := ltn_ord j => hj.
  by rewrite nth_lfilt ?(@nth_lfilt _ _ i) //; slia F.
rewrite nth_lfilt // [lfilt _ _ i.+1]/= nth_rcons size_lfilt ltnn eqxx.
by rewrite mulrC divfK // subrK.
Qed.

Lemma deconvolveP num den : nth 0 den 0 != 0 ->
  exists q r, [/\ deconvolve num den = Ok (q, r), polyhi num = polyhi q * polyhi den + polyhi r &
                 (size (polyhi r) < size (polyhi den))%N].
Proof.
move=> d0; rewrite /deconvolve.
have dn : head 1 den != 0 by case: den d0 => //=; rewrite ?eqxx.
have sd : size (polyhi den) = size den by rewrite size_polyhi_trim.
have den0 : den != [::] by apply: contraNneq d0 => ->.
case: ltnP => hs.
  exists [::], num; split=> //; first by rewrite polyhi_nil mul0r add0r.
  by rewrite sd (leq_ltn_trans (size_polyhi_le _)).
rewrite (negbTE d0); set q := lfilt _ _ _; set c := convolve _ _; set r := mkseq _ _.
have sdp : (0 < size den)%N by rewrite lt0n size_eq0.
have q0 : q != [::] by rewrite -size_eq0 size_lfilt.
have sc : size c = size num by rewrite size_convolve // size_lfilt; slia F.
have er : polyhi r = polyhi num - polyhi c.
  apply/polyP => k; rewrite coefB !coef_polyhi sc size_mkseq; case: ltnP => hk; last by rewrite subr0.
  by rewrite nth_mkseq //; slia F.
exists q, r; split=> //.
  by rewrite er polyhi_convolve mulrC addrC subrK.
rewrite sd -(prednK sdp) ltnS; apply/leq_sizeP => k hk; rewrite coef_polyhi size_mkseq.
case: ltnP => // hk2; rewrite nth_mkseq; last by slia F.
rewrite /c /convolve (negbTE den0) (negbTE q0) /= nth_mkseq; last by rewrite size_lfilt; slia F.
by rewrite lfiltE ?subrr //; slia F.
Qed.

Lemma polydivP num den : nth 0 den 0 != 0 ->
  exists q r, [/\ haroldpolydiv num den = Ok (q, r),
     polyhi num = polyhi q * polyhi den + polyhi r,
     (size (polyhi r) < size (polyhi den))%N &
     (head 1 q != 0) && (head 1 r != 0)].
Proof.
move=> d0; have [q [r [E e h]]] := deconvolveP num d0.
exists (trimf q), (trimf r); rewrite /haroldpolydiv E /= !polyhi_trimf; split=> //.
by rewrite !lead_trimf.
Qed.

(* -------------------------------------------------------- haroldcompanion *)
Lemma companionP c p : c != 0 -> p != [::] ->
  exists A : arr F, [/\ haroldcompanion (c :: p) = Ok A, wfa A, nr A = size p, nc A = size p &
    forall (L : fieldType) (f : {rmorphism F -> L}),
      char_poly (mxof f (size p) (size p) A) = map_poly f (c^-1 *: polyhi (c :: p))].
Proof.
move=> c0 p0; have sp : (0 < size p)%N by rewrite lt0n size_eq0.
rewrite /haroldcompanion /= (negbTE c0) size_rev size_map size_eq0 (negbTE p0).
eexists; split; first reflexivity; rewrite ?wfa_mk // => L f.
set P := map_poly f _.
have sP : size P = (size p).+1.
  by rewrite size_map_poly size_scale ?invr_eq0 // size_polyhi_trim.
have mP : P \is monic.
  apply/monicP; rewrite lead_coef_map lead_coefZ lead_coef_polyhi //.
  by rewrite mulVf // rmorph1.
rewrite -[RHS](companionmxK mP) /companionmx.
have e : size p = (size P).-1 by rewrite sP.
case: _ / e (sP) => sP'.
congr char_poly; apply/matrixP => i j; rewrite !mxE get_mk //.
case: eqP => _; last by rewrite eq_sym rmorph_nat.
rewrite nth_rev ?size_map ?ltn_ord // (nth_map 0); last by have := ltn_ord j; slia F.
rewrite coef_map coefZ coef_polyhi /= ltnS ltnW // subSS rmorphN; congr (- f (_ * _)).
have := ltn_ord j => hj; rewrite -[(size p - j)%N]prednK ?subn_gt0 //= ; congr nth; slia F.
Qed.

Lemma companion_const c : c != 0 -> haroldcompanion [:: c] = Ok (azeros 1 0).
Proof. by move=> c0; rewrite /haroldcompanion /= (negbTE c0). Qed.

Lemma companion_trim p : trimf p != [::] -> haroldcompanion p = haroldcompanion (trimf p).
Proof.
move=> t0; rewrite /haroldcompanion.
have -> : trimf (trimf p) = trimf p by rewrite trimf_id // lead_trimf.
have -> : size p == 0%N = false by apply: contraNF t0 => /nilP->.
by rewrite size_eq0 (negbTE t0).
Qed.

Lemma companion_zero p : p != [::] -> polyhi p = 0 -> haroldcompanion p = Err IndexError.
Proof.
move=> p0 h; rewrite /haroldcompanion size_eq0 (negbTE p0).
by have -> : trimf p = [::] by apply/eqP; rewrite trimf_nil h.
Qed.

(* ---- the statements of PropsPoly.v *)
Lemma haroldpoly_full (rs : seq F) :
  [/\ size (haroldpoly rs) = (size rs).+1, nth 0 (haroldpoly rs) 0 = 1 &
      polyhi (haroldpoly rs) = \prod_(r <- rs) ('X - r%:P)].
Proof.
have [hs hp] := haroldpolyP rs; split=> //.
have : (polyhi (haroldpoly rs))`_(size rs) = 1.
  have m : \prod_(r <- rs) ('X - r%:P) \is @monic F by exact: monic_prod_XsubC.
  by rewrite hp; move/monicP: m; rewrite lead_coefE size_prod_XsubC.
by rewrite coef_polyhi hs ltnSn subnn.
Qed.

Lemma polyadd_full (args : seq (seq F)) (tz : bool) : args != [::] ->
  exists2 s, haroldpolyadd args tz = Ok s & polyhi s = \sum_(p <- args) polyhi p.
Proof.
move=> h; have [s E] : exists s, haroldpolyadd args tz = Ok s.
  by rewrite /haroldpolyadd (negbTE h); eexists.
by exists s => //; have [] := polyaddP E.
Qed.

Lemma polyadd_trimmed_iff (args : seq (seq F)) s : haroldpolyadd args true = Ok s ->
  (head 1 s != 0) = (size (\sum_(p <- args) polyhi p)%R == foldr maxn 0%N [seq size (polyhi p) | p <- args]).
Proof.
move=> E; have [<- hs] := polyaddP E.
have -> : foldr maxn 0%N [seq size (polyhi p) | p <- args] = size s.
  rewrite hs /maxsize -map_comp; congr foldr; apply: eq_map => p /=.
  by rewrite -polyhi_trimf size_polyhi_trim // lead_trimf.
apply/idP/eqP => [h|h]; first exact: size_polyhi_trim.
case: s h {E hs} => [|c s] h /=; first exact: oner_neq0.
apply: contra_eq_neq h => ->; rewrite polyhi_cons scale0r add0r.
by rewrite neq_ltn ltnS size_polyhi_le.
Qed.

Lemma polymul_full p (args : seq (seq F)) : polyhi p != 0 ->
  exists2 q, haroldpolymul (p :: args) true = Ok q & polyhi q = polyhi p * \prod_(x <- args) polyhi x /\ q != [::].
Proof.
move=> h; have := @polymulP (p :: args) true; rewrite big_cons; apply=> //=.
by left; rewrite trimf_nil.
Qed.

Lemma polymul_full_notrim p (args : seq (seq F)) : p != [::] ->
  exists2 q, haroldpolymul (p :: args) false = Ok q & polyhi q = polyhi p * \prod_(x <- args) polyhi x /\ q != [::].
Proof.
by move=> h; have := @polymulP (p :: args) false; rewrite big_cons; apply=> //=; left.
Qed.

Lemma polymul_zero_result (args : seq (seq F)) tz q :
  haroldpolymul args tz = Ok q -> \prod_(x <- args) polyhi x = 0 -> q = [:: 0].
Proof.
rewrite /haroldpolymul; set tr := if tz then _ else _.
have -> : \prod_(p <- args) polyhi p = \prod_(p <- tr) polyhi p.
  rewrite /tr; case: tz {tr} => //; rewrite big_map.
  by apply: eq_bigr => p _; rewrite polyhi_trimf.
case: tr => // p xs; rewrite big_cons; case E: (mul_loop p xs) => [r|//] /= [<-] h.
have {E}hr : polyhi r = 0; last by rewrite has_polyhi hr eqxx.
elim: xs p E h => [|x xs IH] p /=; first by move=> [<-]; rewrite big_nil mulr1.
case: eqP => [_ [<-] _|_]; first by rewrite polyhi_nil.
rewrite /np_convolve; case: ifP => // /norP[p0 x0] /= E.
by rewrite big_cons mulrA -polyhi_convolve //; exact: IH.
Qed.

Lemma trimf_nseq k (p : seq F) : trimf (nseq k 0 ++ p) = trimf p.
Proof. by elim: k => //= k IH; rewrite eqxx. Qed.

Lemma companion_const_full k c : c != 0 ->
  exists A : arr F, haroldcompanion (nseq k 0 ++ [:: c]) = Ok A /\ (nr A * nc A)%N = 0%N.
Proof.
move=> c0; exists (azeros 1 0); split=> //.
have t : trimf (nseq k 0 ++ [:: c]) = [:: c] by rewrite trimf_nseq /= (negbTE c0).
by rewrite companion_trim t // companion_const.
Qed.

Lemma companion_full k c p : c != 0 -> p != [::] ->
  exists A : arr F, [/\ haroldcompanion (nseq k 0 ++ c :: p) = Ok A, nr A = size p, nc A = size p &
    char_poly (\matrix_(i < size p, j < size p) get A i j) = c^-1 *: polyhi (c :: p)].
Proof.
move=> c0 p0; have [A [E w h1 h2 h]] := companionP c0 p0.
exists A; split=> //.
  have t : trimf (nseq k 0 ++ c :: p) = c :: p by rewrite trimf_nseq /= (negbTE c0).
  by rewrite companion_trim t.
have := h F [rmorphism of idfun]; rewrite map_poly_id // => <-.
Qed.

End Ops.

Lemma polyadd_untrimmed :
  exists (args : seq (seq rat_fieldType)) s, [/\ args != [::], haroldpolyadd args true = Ok s & head 1 s = 0].
Proof.
exists [:: [:: 1; 1]; [:: -1; 1]]; eexists; split; [by []|reflexivity|].
by apply/eqP; vm_compute.
Qed.
