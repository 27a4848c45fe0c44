(* Proofs about the automatic frequency grid. *)
From mathcomp Require Import all_ssreflect all_algebra zify.
From Verif Require Import Base BaseTheory Denote StateTheory TransferTheory ModelState ModelHorizon SpecHorizon HorizonTheory ModelFreq ModelGrid SpecGrid RingTac.

Set Implicit Arguments.
Unset Strict Implicit.
Unset Printing Implicit Defensive.

Import Order.Theory GRing.Theory Num.Theory.
Local Open Scope ring_scope.

Section Grid.
Variable R : realFieldType.
Variables (pi eps sqeps sp100 sp1000 : R) (spc rt log10 exp10 : R -> R).
Variables (cabs : R * R -> R) (clog : R * R -> R * R) (flr : R -> int).
Variable geom : R -> R -> nat -> bool -> seq R.
Variable uniq : seq (R * R) -> seq (R * R).
Hypothesis pw : pow10_like exp10 log10.
Hypothesis ge : geom_like geom.
Hypothesis un : uniq_like uniq.
Hypothesis fl : floor_like flr.
Hypothesis ab : abs_like cabs.
Hypothesis lg : clog_like cabs clog.
Hypothesis rt0 : forall x, (0 <= x -> 0 <= rt x) /\ (0 < x -> 0 < rt x).
Hypothesis spc0 : forall x, 0 <= spc x.
Hypothesis pi0 : 0 < pi.
Hypothesis sq0 : 0 < sqeps.

Local Notation modes := (grid_modes pi sp1000 cabs clog uniq).
Local Notation grid := (auto_grid pi eps sqeps sp100 sp1000 spc rt log10 exp10 cabs clog flr geom uniq).
Local Notation around := (around log10 exp10 flr geom).
Local Notation extras := (extras sqeps spc rt log10 exp10 cabs flr geom).
Local Notation center := (center sqeps spc rt cabs).
Local Notation sp := (splane pi sp1000 cabs clog).

Lemma e10_gt0 x : 0 < exp10 x. Proof. by case: pw. Qed.
Lemma e10_le x y : (exp10 x <= exp10 y) = (x <= y). Proof. by case: pw. Qed.
Lemma e10_lt x y : (exp10 x < exp10 y) = (x < y). Proof. by rewrite !ltNge e10_le. Qed.
Lemma e10K x : 0 < x -> exp10 (log10 x) = x. Proof. by case: pw => _ _ h _ _; apply: h. Qed.
Lemma e10S x : exp10 (x + 1) = 10%:R * exp10 x. Proof. by case: pw. Qed.
Lemma l10_le x y : 0 < x -> 0 < y -> (log10 x <= log10 y) = (x <= y).
Proof. by move=> hx hy; rewrite -e10_le !e10K. Qed.
Lemma l10_lt x y : 0 < x -> 0 < y -> (log10 x < log10 y) = (x < y).
Proof. by move=> hx hy; rewrite !ltNge l10_le. Qed.
Lemma e10_inj x y : exp10 x = exp10 y -> x = y.
Proof. by move=> h; apply/eqP; rewrite eq_le -(e10_le x) -(e10_le y) h lexx. Qed.

Lemma floorP x : rfloor flr x <= x < rfloor flr x + 1. Proof. exact: fl. Qed.
Lemma ceilP x : x <= rceil flr x < x + 1.
Proof.
have /andP[h1 h2] := fl (- x); rewrite /rceil mulrNz ler_oppr h1 /=.
by rewrite ltr_oppl opprD ltr_subl_addr.
Qed.

Lemma logsp_gt0 a b n x : x \in logsp exp10 a b n -> 0 < x.
Proof. by case/mapP=> k _ ->; apply: e10_gt0. Qed.
Lemma logsp_start a b n : (0 < n)%N -> exp10 a \in logsp exp10 a b n.
Proof. by move=> n0; apply/mapP; exists 0%N; rewrite ?mem_iota // mul0r addr0. Qed.
Lemma logsp_end a b n : (1 < n)%N -> exp10 b \in logsp exp10 a b n.
Proof.
move=> n0; apply/mapP; exists n.-1; first by rewrite mem_iota add0n ltn_predL (ltnW n0).
have k0 : n.-1%:R != 0 :> R by rewrite pnatr_eq0; lia.
by rewrite mulrCA (mulfV k0) mulr1 addrC subrK.
Qed.

Lemma around_gt0 x w n y : y \in around x w n -> 0 < y.
Proof.
rewrite /ModelGrid.around mem_cat => /orP[|/mapP[z _ ->]]; last exact: e10_gt0.
case: w => [w|]; first rewrite mem_filter => /andP[_].
  by case/mapP=> z _ ->; apply: e10_gt0.
by case/mapP=> z _ ->; apply: e10_gt0.
Qed.

Lemma around_center x w n : 0 < x -> (0 < n)%N -> x \in around x w n.
Proof.
move=> x0 n0; rewrite /ModelGrid.around mem_cat; apply/orP; right; apply/mapP.
set sh := `|_| + 1; exists (log10 x + sh); last by rewrite addrK e10K.
have h : 0 < log10 x + sh.
  rewrite /sh addrA; have /andP[_ h] := ceilP (log10 x).
  have: - `|rceil flr (log10 x)| < log10 x + 1 by rewrite (le_lt_trans _ h) // ler_oppl -normrN ler_norm.
  by rewrite -subr_gt0 opprK addrAC.
apply: ge => //; apply: mulr_gt0 => //; apply: (lt_le_trans h).
rewrite ler_add2r l10_le // ?mulr_gt0 // ?addr_gt0 ?ltr01 ?divr_gt0 ?ltr0n //.
by rewrite ler_pemulr ?ltW // ltr_addl divr_gt0 ?ltr0n.
Qed.

Lemma extrasP ms : (forall y, y \in extras ms -> 0 < y) /\
  (forall x, x \in ms -> 0 < center x -> center x \in extras ms).
Proof.
rewrite /ModelGrid.extras; set F := fun acc x => _.
have inc (s : seq (R * R)) acc y : y \in acc -> y \in foldl F acc s.
  by elim: s acc => //= x s IH acc hy; apply: IH; rewrite mem_cat hy.
split.
  suff h (s : seq (R * R)) acc : (forall y, y \in acc -> 0 < y) -> forall y, y \in foldl F acc s -> 0 < y.
    by apply: h.
  elim: s acc => //= x s IH acc ha y; apply: IH => {}y; rewrite mem_cat => /orP[/ha //|]; exact: around_gt0.
suff h acc x : x \in ms -> 0 < center x -> center x \in foldl F acc ms by move=> x; apply: h.
elim: ms acc => // y s IH acc; rewrite inE => /orP[/eqP -> c0|hx c0] /=; last exact: IH.
apply: inc; rewrite mem_cat around_center ?orbT // /extra_num.
by case: ifP => // _; case: (_ - _) => // n; rewrite leq_max.
Qed.
Lemma extras_gt0 ms y : y \in extras ms -> 0 < y.
Proof. exact: (extrasP _).1. Qed.

(* ---- the modes ---- *)
Definition kept (dt : option R) (x : R * R) : bool := ~~ integrator dt x && ~~ (x.2 < 0).

Lemma modesP dt pz x : x \in pz -> kept dt x -> sp dt x \in modes dt pz.
Proof.
move=> hx /andP[h1 h2]; rewrite /grid_modes.
set q := filter _ pz; have hq : x \in uniq q by rewrite un mem_filter hx h2 !andbT.
case eq: (uniq q) hq => [//|y s] hq; rewrite -eq in hq *.
by case: dt q h1 eq hq => [h|] q h1 eq hq //; apply: map_f.
Qed.

Lemma cabs_half (a : R) : 0 < a -> 0 < cabs (a, 0).
Proof. by move=> h; have [_ _ _ ->] := ab; rewrite normr_gt0 gt_eqF. Qed.

Lemma clog_neq0 x : x != (0, 0) -> x != (1, 0) -> clog x != (0, 0).
Proof.
move=> x0 x1; apply: contra x1 => /eqP e; have [] := lg x0; rewrite e eqxx /= => /esym/eqP c1 /esym/andP[a0 /eqP b0].
case: x b0 a0 c1 {x0 e} => a b /= -> a0; have [_ _ _ ->] := ab; by rewrite gtr0_norm // => ->.
Qed.

Lemma cabs_pos z : z != (0, 0) -> 0 < cabs z.
Proof. by move=> z0; rewrite lt_def (cabs_ge ab) andbT (cabs_eq0 ab). Qed.
Lemma cdiv_neq0 (z : R * R) (h : R) : 0 < h -> z != (0, 0) -> 0 < cabs (z.1 / h, z.2 / h).
Proof.
move=> h0 z0; apply: cabs_pos; apply: contra z0.
by rewrite xpair_eqE /= !mulf_eq0 invr_eq0 (gt_eqF h0) !orbF => /andP[/eqP e1 /eqP e2]; rewrite [z]surjective_pairing e1 e2.
Qed.

Lemma modes_gt0 dt pz m : (if dt is Some h then 0 < h else true) -> 0 <= sp1000 -> m \in modes dt pz -> 0 < cabs m.
Proof.
move=> hd s0; rewrite /grid_modes; set q := filter _ pz; set q' := (if uniq q is [::] then _ else _).
have hq x : x \in q' -> ~~ integrator dt x.
  rewrite /q'; case eq: (uniq q) => [|y s]; last first.
    by rewrite -eq un mem_filter => /andP[/andP[]].
  rewrite /integrator; case: (dt) => [h|]; rewrite !inE => /orP[] /eqP ->; apply/eqP => -[/eqP].
  - by rewrite invr_eq1 (eqr_nat R 100 1).
  - by rewrite lt_eqF // (lt_trans _ (@ltr01 R)) // oppr_lt0 divr_gt0 ?ltr0n.
  - by rewrite invr_eq0 pnatr_eq0.
  - by rewrite pnatr_eq0.
case: dt hd q q' hq => [h|] hd q q' hq.
  case/mapP=> x /hq nx ->; case: ifP => hs; last by apply: cabs_half; rewrite divr_gt0.
  apply: cdiv_neq0 => //; apply: clog_neq0 => //; apply: contraTneq hs => ->.
  by have [_ _ -> _] := ab; rewrite -leNgt.
by move=> /hq nx; apply: cabs_pos.
Qed.

Lemma last_max (T : eqType) (k : T -> R) y (t : seq T) x : path (fun a b => k a <= k b) y t -> x \in y :: t -> k x <= k (last y t).
Proof.
elim: t x y => [|z t IH] x y /=; first by rewrite inE => _ /eqP ->.
case/andP=> yz so; rewrite inE => /orP[/eqP ->|hx]; last exact: IH.
by apply: (le_trans yz); apply: IH => //; rewrite inE eqxx.
Qed.

Lemma by_freq_mem ms : by_freq cabs ms =i ms. Proof. exact: mem_sort. Qed.
Lemma by_freq_ends ms x : x \in ms ->
  cabs (head (0, 0) (by_freq cabs ms)) <= cabs x <= cabs (last (0, 0) (by_freq cabs ms)).
Proof.
rewrite -(by_freq_mem ms).
have so : sorted (fun x y => cabs x <= cabs y) (by_freq cabs ms) by apply: sort_sorted => a b; apply: le_total.
have tr : transitive (fun x y : R * R => cabs x <= cabs y) by move=> b a c; apply: le_trans.
case: (by_freq cabs ms) so => // y s so hx; apply/andP; split; last exact: (last_max so hx).
by move: hx; rewrite inE => /orP[/eqP ->|hx] //; move/(order_path_min tr)/allP/(_ x hx): so.
Qed.

(* ---- the grid ---- *)
Lemma cleanP (w ps : seq R) (e : R) x :
  (x \in foldl (fun w p => [seq x <- w | ~~ (`|x - p| < e)]) w ps) =
  (x \in w) && all (fun p => e <= `|x - p|) ps.
Proof.
elim: ps w => [|p ps IH] w /=; first by rewrite andbT.
by rewrite IH mem_filter -leNgt andbCA andbA [_ && (x \in w)]andbC -andbA andbCA.
Qed.
Lemma clean_sorted (w ps : seq R) (e : R) : sorted <=%O w ->
  sorted <=%O (foldl (fun w p => [seq x <- w | ~~ (`|x - p| < e)]) w ps).
Proof. by elim: ps w => //= p ps IH w so; apply: IH; apply: sorted_filter => //; apply: le_trans. Qed.

Definition ends dt pz := grid_ends pi sp100 log10 cabs flr dt (by_freq cabs (modes dt pz)).

Lemma gridP dt pz n W : grid false dt pz n = Ok W ->
  exists N, [/\ (if n is Some n then N = n else 15%:R * - flr (- ((ends dt pz).1 - (ends dt pz).2)) = N :> int),
    sorted <=%O W &
    forall w, w \in W = [&& (w \in logsp exp10 (ends dt pz).2 (ends dt pz).1 N) || (w \in extras (by_freq cabs (modes dt pz)))
        || (if dt is Some _ then w \in logsp exp10 ((ends dt pz).1 + log10 (3%:R / 4%:R)) (199%:R / 200%:R * (ends dt pz).1) 15 else false),
      (if dt is Some h then w <= 199%:R / 200%:R * (pi / h) else true) &
      all (fun m => (damp cabs m < sqeps) ==> (100%:R * eps <= `|w - cabs m|)) (modes dt pz)]].
Proof.
rewrite /auto_grid -/(ends dt pz); case: (ends dt pz) => ud ld; set ms := by_freq _ _ => E.
have [N eN {}E] := bindOk E; case: E => <-; exists N; split.
- by case: (n) eN => [k [->]|] //; case: (_ * _) => // k [->].
- apply: clean_sorted; set s := sort _ _.
  have so : sorted <=%O s by apply: sort_sorted; apply: le_total.
  by case: (dt) => // h; case: ifP => // _; apply: sorted_filter => //; apply: le_trans.
move=> w; rewrite cleanP; set s := sort _ _.
have -> : all (fun p => 100%:R * eps <= `|w - p|) [seq cabs x | x <- ms & damp cabs x < sqeps] =
    all (fun m => (damp cabs m < sqeps) ==> (100%:R * eps <= `|w - cabs m|)) (modes dt pz).
  by rewrite all_map all_filter; apply: (eq_all_r (by_freq_mem _)).
rewrite andbA; congr (_ && _).
have so : sorted <=%O s by apply: sort_sorted; apply: le_total.
have es : (w \in s) = (w \in logsp exp10 ld ud N) || (w \in extras ms)
        || (if dt is Some _ then w \in logsp exp10 (ud + log10 (3%:R / 4%:R)) (199%:R / 200%:R * ud) 15 else false).
  by rewrite mem_sort !mem_cat orbA; case: (dt) => //=.
rewrite -es; case: (dt) => [h|]; last by rewrite andbT.
case: ifP => [_|/negbT]; first by rewrite mem_filter andbC.
rewrite -leNgt => hl; case hw: (w \in s) => //=; apply/esym; apply: le_trans hl.
by clear es; move: (s) so hw => s'; case: s' => // y t so' hw'; apply: (@last_max _ id y t w).
Qed.

(* the end points of the grid *)
Hypothesis s100 : 0 < sp100.
Hypothesis s1000 : 0 <= sp1000.
Definition dt_ok (dt : option R) : Prop := if dt is Some h then 0 < h else True.

Lemma dt_okb dt : dt_ok dt -> if dt is Some h then 0 < h else true. Proof. by case: dt. Qed.

Lemma modes_nil dt pz : modes dt pz != [::].
Proof. by rewrite /grid_modes; case: (uniq _) => [|y s]; case: dt. Qed.

Lemma mode_ex dt pz : exists m, m \in modes dt pz.
Proof. by case: (modes dt pz) (modes_nil dt pz) => // m s _; exists m; rewrite inE eqxx. Qed.

Lemma last_pos dt pz : dt_ok dt -> 0 < cabs (last (0, 0) (by_freq cabs (modes dt pz))).
Proof.
move=> /dt_okb hd; have [m hm] := mode_ex dt pz; have /andP[_ h] := by_freq_ends hm.
by apply: lt_le_trans h; apply: modes_gt0 hm.
Qed.

Lemma e10N x : exp10 (x - 1) = exp10 x / 10%:R.
Proof. by rewrite -{2}[x](subrK 1) e10S mulrAC mulfV ?mul1r // pnatr_eq0. Qed.

(* one decade below the slowest mode, one above the fastest *)
Lemma low_end pz : exp10 (ends None pz).2 <= Num.max (cabs (head (0, 0) (by_freq cabs (modes None pz)))) sp100 / 10%:R.
Proof.
rewrite /ends /grid_ends /=; set a := Num.max _ _.
have a0 : 0 < a by rewrite lt_maxr s100 orbT.
rewrite e10N ler_pmul2r ?invr_gt0 ?ltr0n // -[X in _ <= X](e10K a0) e10_le; by case/andP: (floorP (log10 a)).
Qed.
Lemma high_end pz : Num.min (cabs (last (0, 0) (by_freq cabs (modes None pz)))) (10%:R ^+ 16) * 10%:R <= exp10 (ends None pz).1.
Proof.
rewrite /ends /grid_ends [X in _ <= exp10 X.1]/=; set a := Num.min _ _.
have a0 : 0 < a by rewrite lt_minr (@last_pos None) // exprn_gt0 ?ltr0n.
rewrite e10S mulrC ler_pmul2l ?ltr0n // -[X in X <= _](e10K a0) e10_le; by case/andP: (ceilP (log10 a)).
Qed.

Lemma disc_ends h pz : 0 < h ->
  1 <= (ends (Some h) pz).1 - (ends (Some h) pz).2 /\ exp10 (ends (Some h) pz).1 <= pi / h.
Proof.
move=> h0; rewrite /ends /grid_ends; set ud := Num.min _ _; set ld := _ - 1.
split; last first.
  have n0 : 0 < pi / h by rewrite divr_gt0.
  by rewrite -[X in _ <= X](e10K n0) e10_le /= le_minl lexx orbT.
rewrite /=; case: ifP => [_|/negbT]; last by rewrite -leNgt.
have /andP[h1 _] := floorP (ud - 2%:R).
rewrite -(ler_add2r (rfloor flr (ud - 2%:R))) subrK; apply: (le_trans (_ : _ <= 1 + (ud - 2%:R))); first by rewrite ler_add2l.
by rewrite addrCA ger_addl subr_le0 ler1n.
Qed.

Lemma modes_inv dt pz x m : x \in pz -> kept dt x -> m \in modes dt pz -> exists y, [/\ y \in pz, kept dt y & m = sp dt y].
Proof.
move=> hx kx; rewrite /grid_modes; set q := filter _ pz.
have hq : x \in uniq q by case/andP: kx => h1 h2; rewrite un mem_filter hx h2 !andbT.
case eq: (uniq q) hq => [//|z s] _; rewrite -eq.
have inv y : y \in uniq q -> y \in pz /\ kept dt y by rewrite un mem_filter => /andP[h1 h2].
by case: dt q eq inv {kx} => [h|] q eq inv; [case/mapP=> y /inv[h1 h2] ->; exists y | move=> /inv[h1 h2]; exists m].
Qed.
End Grid.
