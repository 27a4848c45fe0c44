(* Lemmas on the generated time grid. *)
From mathcomp Require Import all_ssreflect all_algebra zify.
From Coq Require Import String.
From Verif Require Import Base ModelState ModelObject ModelDiscrete ModelSim ModelHorizon SpecHorizon RingTac.

Set Implicit Arguments.
Unset Strict Implicit.
Unset Printing Implicit Defensive.

Import Order.Theory GRing.Theory Num.Theory.
Local Open Scope ring_scope.

Section HorizonTheory.
Variable R : realFieldType.
Implicit Types (tf ts : R) (s : seq R).

Lemma rmax_in s : s != [::] -> rmax s \in s.
Proof.
case: s => // x s _; rewrite /rmax /=.
have h (t : seq R) : foldr Num.max x t \in x :: t.
  elim: t => [|y t IH] /=; first by rewrite inE.
  rewrite /Num.max; case: ifP => _; last by rewrite !inE eqxx orbT.
  by move: IH; rewrite !inE => /orP[->|->]; rewrite ?orbT.
by rewrite /Num.max; case: ifP => _; [exact: h | rewrite inE eqxx].
Qed.
Lemma rmin_in s : s != [::] -> rmin s \in s.
Proof.
case: s => // x s _; rewrite /rmin /=.
have h (t : seq R) : foldr Num.min x t \in x :: t.
  elim: t => [|y t IH] /=; first by rewrite inE.
  rewrite /Num.min; case: ifP => _; first by rewrite !inE eqxx orbT.
  by move: IH; rewrite !inE => /orP[->|->]; rewrite ?orbT.
by rewrite /Num.min; case: ifP => _; [rewrite inE eqxx | exact: h].
Qed.
Lemma rmax_ge s x : x \in s -> x <= rmax s.
Proof.
rewrite /rmax; elim: s (head 0 s) => //= y s IH z; rewrite inE le_maxr => /orP[/eqP->|h]; first by rewrite lexx.
by rewrite IH // orbT.
Qed.
Lemma rmin_le s x : x \in s -> rmin s <= x.
Proof.
rewrite /rmin; elim: s (head 0 s) => //= y s IH z; rewrite inE le_minl => /orP[/eqP->|h]; first by rewrite lexx.
by rewrite IH // orbT.
Qed.


Lemma omaxs_some (s : seq (option R)) : s != [::] -> all isSome s ->
  exists2 t, omaxs s = Some t & forall x, Some x \in s -> x <= t.
Proof.
rewrite /omaxs; case: s => // [[z|]] // s _ /andP[_] /=.
have h (r : seq (option R)) : all isSome r -> exists2 t, foldr (@omax R) (Some z) r = Some t & forall x, Some x \in r -> x <= t.
  elim: r => [|[y|] r IH] //=; first by exists z.
  move=> /IH[t -> ht] /=; exists (Num.max y t) => // x; rewrite inE le_maxr => /orP[/eqP[->]|/ht ->]; rewrite ?lexx // orbT //.
move=> /h[t -> ht] /=; exists (Num.max z t) => // x; rewrite inE le_maxr => /orP[/eqP[->]|/ht ->]; rewrite ?lexx // orbT //.
Qed.
Lemma omaxs_none (s : seq (option R)) : None \in s -> omaxs s = None.
Proof.
rewrite /omaxs; elim: s (head None s) => //= a s IH z; rewrite inE => /orP[/eqP<-|/IH->] //; by case: a.
Qed.

Section Floor.
Variable flr : R -> int.
Hypothesis fl : floor_like flr.

Lemma flr_int (k : int) : flr k%:~R = k.
Proof.
have /andP[h1 h2] := fl k%:~R; apply/eqP; rewrite eq_le -(ler_int R) h1 /= -ltz_addr1 -(ltr_int R).
by rewrite intrD.
Qed.

(* the last point of the grid is the first multiple of ts that is at least tf *)
Lemma arange_lenP tf ts : 0 < ts -> 0 <= tf ->
  exists N, [/\ arange_len flr tf ts = N.+1, tf <= N%:R * ts & N%:R * ts < tf + ts].
Proof.
move=> s0 t0; rewrite /arange_len.
have -> : (tf + ts) / ts = tf / ts + 1 by rewrite mulrDl divff // gt_eqF.
have /andP[h1 h2] := fl (- (tf / ts + 1)).
set k := flr _ in h1 h2 *.
have q0 : 0 <= tf / ts by rewrite divr_ge0 // ltW.
have kn : k < 0.
  rewrite -(ltr_int R) (le_lt_trans h1) // oppr_lt0 (lt_le_trans ltr01) // ler_addr //.
case: k kn h1 h2 => // k _; rewrite NegzE => h1 h2.
have kE : (- (k.+1)%:Z)%:~R = - (k%:R + 1) :> R by rewrite rmorphN /= -pmulrn -addn1 natrD.
rewrite kE ler_opp2 ler_add2r in h1; rewrite kE [X in _ < X + _]opprD addrNK ltr_opp2 in h2.
exists k; split; first by rewrite opprK.
  by rewrite -ler_pdivr_mulr.
by rewrite -ltr_pdivl_mulr // mulrDl divff // gt_eqF.
Qed.
Lemma arange_lenZ (k : nat) ts : 0 < ts -> arange_len flr (ts * k%:R) ts = k.+1.
Proof.
move=> s0; have [|N [-> h1 h2]] := @arange_lenP (ts * k%:R) ts s0; first by rewrite mulr_ge0 ?ler0n // ltW.
rewrite mulrC ler_pmul2r // ler_nat in h1.
by move: h2; rewrite -[X in _ < _ + X]mulr1 -mulrDr [X in X < _]mulrC ltr_pmul2l // -[1]/(1%:R) -natrD ltr_nat; lia.
Qed.
End Floor.

Section Lists.
Variables (T : Type) (U : eqType) (F : T -> U).
Lemma mapInP (s : seq T) (u : U) : u \in [seq F x | x <- s] <-> exists2 x, List.In x s & u = F x.
Proof.
elim: s => [|y s IH] /=; first by rewrite in_nil; split=> // -[].
rewrite inE; split.
  by case/orP => [/eqP->|/IH[x hx ->]]; [exists y; [left|] | exists x; [right|]].
by case=> x [->|hx] e; [rewrite e eqxx | apply/orP; right; apply/IH; exists x].
Qed.
Lemma filterIn (P : pred T) (s : seq T) (x : T) : List.In x s -> P x -> List.In x [seq y <- s | P y].
Proof. by elim: s => //= y s IH [->|/IH{}IH] h; [rewrite h; left | case: ifP => _; [right|]; apply: IH]. Qed.
End Lists.

Section Cont.
Variables (pi se ln100 : R) (cabs : R * R -> R) (flr : R -> int).
Hypothesis fl : floor_like flr.
Hypothesis ab : abs_like cabs.
Hypotheses (pi0 : 0 < pi) (se0 : 0 < se) (ln0 : 0 < ln100).

Lemma cabs_ge z : 0 <= cabs z.
Proof. by have [h _ _ _] := ab; apply: le_trans (h z). Qed.
Lemma cabs_eq0 z : (cabs z == 0) = (z == (0, 0)).
Proof.
have [h1 h2 h3 _] := ab; apply/eqP/eqP => [e|->] //.
have := h1 z; have := h2 z; rewrite e !normr_le0 => /eqP e2 /eqP e1.
by rewrite [z]surjective_pairing e1 e2.
Qed.
Lemma cabs_gt z : z.2 != 0 -> 0 < cabs z.
Proof. by move=> h; rewrite lt_def cabs_ge andbT cabs_eq0; apply: contra h => /eqP->. Qed.

Lemma relevantP step (ms : seq (mode R)) m : List.In m ms -> matters cabs se step ms m -> mpole m \in (relevant se cabs step ms).1.
Proof.
move=> hm mt; pose ok (x : mode R) := `|msens x| <= 1 / se.
pose size0 (x : mode R) := if ok x then mv x * mw x * msens x else 0.
pose size1 (x : mode R) := if cabs (mpole x) != 0 then size0 x / (if step then cabs (mpole x) else 1) else 0.
pose dc (x : mode R) := if (mpole x).2 != 0 then size1 x * 2%:R else size1 x.
pose big := rmax [seq dc x | x <- ms].
rewrite -[(relevant _ _ _ _).1]/[seq mpole x | x <- ms & (10%:R^-1 * big < dc x) || ~~ ok x].
apply/mapInP; exists m => //; apply: filterIn => //.
have okP (x : mode R) : well se x <-> ok x by rewrite /well /ok div1r.
have dcE (x : mode R) : dc x = if ok x then mode_size cabs step x else 0.
  rewrite /dc /size1 /size0 /mode_size; case: (ok x); case: (cabs (mpole x) == 0) => //=; case: ((mpole x).2 == 0) => //=; rewrite ?mul0r ?mulr1 //.
case hok: (ok m); last by rewrite orbT.
rewrite orbF dcE hok; case: mt => [nw|[hs p0]]; first by case: nw; apply/okP.
rewrite mulrC ltr_pdivr_mulr ?ltr0n // mulrC.
have /mapInP[m' h1 ->] : big \in [seq dc x | x <- ms].
  by apply: rmax_in; case: (ms) hm.
rewrite dcE; case: ifP => [/okP h2|_]; first exact: hs.
by rewrite mulr_gt0 // ltr0n.
Qed.

Lemma cont_timeP psub origin tf ts : cont_time pi se ln100 cabs flr psub origin = (tf, ts) ->
  [/\ 0 < ts, 100%:R * ts <= tf, tf < (100%:R * 100%:R + 1) * ts &
   forall x : R * R, x \in psub -> x != (0, 0) ->
    [/\ undamped se x -> 5%:R * (2%:R * pi / cabs x) <= tf,
        ~~ undamped se x -> ln100 <= `|x.1| * tf,
        ts <= 2%:R * pi / cabs x / 25%:R \/ tf = 100%:R * 100%:R * ts &
        ~~ undamped se x -> ts * `|x.1| * 50%:R <= ln100 \/ tf = 100%:R * 100%:R * ts]].
Proof.
rewrite /cont_time; set osc := [seq _ <- _ | _ ]; set rest := [seq _ <- _ | _]; set A := _ ++ _; set B := _ ++ _.
have oscP (x : R * R) : x \in osc = (x \in psub) && undamped se x by rewrite mem_filter andbC.
have restP (x : R * R) : x \in rest = [&& x \in psub, ~~ undamped se x & x != (0, 0)] by rewrite mem_filter andbC cabs_eq0.
have cA (x : R * R) : (x \in osc -> 5%:R * 2%:R * pi / cabs x \in A) /\ (x \in rest -> ln100 / `|x.1| \in A).
  by split=> h; rewrite mem_cat; apply/orP; [left | right]; apply: map_f.
have cB (x : R * R) : (x \in osc -> 2%:R * pi / 25%:R / cabs x \in B) /\
     (x \in rest -> Num.min (ln100 / `|x.1| / 50%:R) (2%:R * pi / 25%:R / cabs x) \in B).
  by split=> h; rewrite mem_cat; apply/orP; [left | right]; apply: map_f.
have oc (x : R * R) : x \in osc -> 0 < cabs x by rewrite oscP => /and3P[_ h _]; apply: cabs_gt.
have rc (x : R * R) : x \in rest -> 0 < cabs x /\ 0 < `|x.1|.
  rewrite restP => /and3P[_ h1 h2]; rewrite lt_def cabs_eq0 h2 cabs_ge normr_gt0; split=> //.
  apply: contra h2 => /eqP e; move: h1; rewrite /undamped e normr0 (ltW se0) andbT negbK => /eqP e2.
  by rewrite [x]surjective_pairing e e2.
have pA a : a \in A -> 0 < a.
  rewrite mem_cat => /orP[]/mapP[x hx ->]; first by rewrite divr_gt0 ?oc // !mulr_gt0 // ltr0n.
  by rewrite divr_gt0 //; have [] := rc _ hx.
have pB a : a \in B -> 0 < a.
  rewrite mem_cat => /orP[]/mapP[x hx ->]; first by rewrite !divr_gt0 ?oc // ?mulr_gt0 // ltr0n.
  by rewrite lt_minr !divr_gt0 // ?mulr_gt0 ?ltr0n //; have [] := rc _ hx.
have sB : size B = size A by rewrite !size_cat !size_map.
have n100 : 0 < 100%:R :> R by rewrite ltr0n.
case: (posnP (size A)) => [/size0nil eA|sA].
  rewrite eA => -[<- <-].
  have r0 : 0 < 5%:R * 5%:R / min_points R by rewrite divr_gt0 ?mulr_gt0 // ltr0n.
  split=> //.
  - by rewrite /min_points mulrC divfK // gt_eqF.
  - have -> : (100%:R * 100%:R + 1) * (5%:R * 5%:R / min_points R) = 100%:R * (5%:R * 5%:R) + 5%:R * 5%:R / min_points R.
      rewrite mulrDl mul1r; congr (_ + _); rewrite -mulrA [X in 100%:R * X]mulrC divfK //; apply/negbT; exact: gt_eqF.
    by rewrite ltr_spaddr // ler_pmull ?mulr_gt0 ?ltr0n // ler1n.
  - move=> x hx x0; exfalso; case hu: (undamped se x).
      have /(cA x).1 : x \in osc by rewrite oscP hx hu.
      by rewrite eA.
    have /(cA x).2 : x \in rest by rewrite restP hx hu x0.
    by rewrite eA.
have -> : (if A is [::] then (5%:R * 5%:R, 5%:R * 5%:R / min_points R) else
   let tfinal := rmax A * (if origin then 5%:R else 1) in let dt := rmin B in
   let dt0 := if max_points R < (flr (tfinal / dt))%:~R then tfinal / max_points R else dt in
   let tfinal0 := if (flr (tfinal / dt0))%:~R < min_points R then dt0 * min_points R else tfinal in (tfinal0, dt0)) =
  let tfinal := rmax A * (if origin then 5%:R else 1) in let dt := rmin B in
   let dt0 := if max_points R < (flr (tfinal / dt))%:~R then tfinal / max_points R else dt in
   let tfinal0 := if (flr (tfinal / dt0))%:~R < min_points R then dt0 * min_points R else tfinal in (tfinal0, dt0).
  by case: (A) sA.
have nA : A != [::] by rewrite -size_eq0 -lt0n.
have nB : B != [::] by rewrite -size_eq0 sB -lt0n.
set c := if origin then _ else _; have c1 : 1 <= c by rewrite /c; case: (origin) => //; rewrite ler1n.
cbv zeta; set T := rmax A * c; set D := rmin B.
have T0 : 0 < T by rewrite mulr_gt0 ?(lt_le_trans ltr01 c1) // pA // rmax_in.
have D0 : 0 < D by rewrite pB // rmin_in.
have TA a : a \in A -> a <= T.
  by move=> /rmax_ge h; apply: (le_trans h); rewrite ler_pmulr // pA // rmax_in.
have DB a : a \in B -> D <= a by apply: rmin_le.
set D1 := if max_points R < _ then _ else _.
have M0 : 0 < max_points R by rewrite /max_points mulr_gt0.
have [D10 D1P D1M] : [/\ 0 < D1, D1 = D \/ T = max_points R * D1 & T < (max_points R + 1) * D1].
  rewrite /D1; case: (ltP (max_points R)) => h; split.
  - by rewrite divr_gt0.
  - by right; rewrite mulrC divfK // gt_eqF.
  - by rewrite mulrDl mul1r [_ * (T / _)]mulrC divfK ?gt_eqF // ltr_addl divr_gt0.
  - by [].
  - by left.
  - rewrite -ltr_pdivr_mulr //; have /andP[_ h2] := fl (T / D); apply: (lt_le_trans h2).
    by rewrite ler_add2r.
case=> <- <-; set T1 := if _ then _ else _.
have [T1T T1L T1M] : [/\ T <= T1, 100%:R * D1 <= T1 & T1 < (max_points R + 1) * D1 /\ (T = max_points R * D1 -> T1 = T)].
  rewrite /T1; case: (ltP _ (min_points R)) => h; split.
  - rewrite mulrC -ler_pdivr_mulr // ltW //; have /andP[_ h2] := fl (T / D1).
    have h3 : (flr (T / D1) + 1)%:~R <= min_points R.
      by rewrite -[min_points R]/((100%:Z)%:~R) ler_int lez_addr1; move: h; rewrite -[min_points R]/((100%:Z)%:~R) ltr_int.
    by apply: (lt_le_trans h2); rewrite -[X in _ + X]/(1%:~R) -intrD.
  - by rewrite mulrC.
  - have mm : min_points R <= max_points R by rewrite /max_points ler_pmulr // ler1n.
    split; first by rewrite mulrC ltr_pmul2r // (le_lt_trans mm) // ltr_addl ltr01.
    move=> e; exfalso; move: h; rewrite e mulfK ?gt_eqF //.
    rewrite ltNge; apply/negP; rewrite negbK.
    have -> : max_points R = (100%:Z * 100%:Z)%:~R by rewrite intrM.
    by rewrite flr_int // intrM -[_%:~R]/(100%:R : R) ler_pmulr // ler1n.
  - by [].
  - have /andP[h2 _] := fl (T / D1); rewrite -ler_pdivl_mulr //; exact: (le_trans h h2).
  - by split.
split=> //; first exact: T1M.1.
move=> x hx x0; have [T1m T1e] := T1M; split.
- move=> hu; have hx' : x \in osc by rewrite oscP hx.
  by apply: le_trans T1T; apply: TA; rewrite !mulrA; apply: (cA x).1.
- move=> hu; have hx' : x \in rest by rewrite restP hx hu.
  rewrite mulrC -ler_pdivr_mulr; last by have [] := rc _ hx'.
  by apply: le_trans T1T; apply: TA; apply: (cA x).2.
- case: D1P => e; last by right; rewrite T1e // e.
  left; rewrite e mulrAC; case hu: (undamped se x).
    by apply: DB; apply: (cB x).1; rewrite oscP hx.
  have hx' : x \in rest by rewrite restP hx hu.
  by apply: (le_trans (DB _ ((cB x).2 hx'))); rewrite le_minl lexx orbT.
- move=> hu; have hx' : x \in rest by rewrite restP hx hu.
  case: D1P => e; last by right; rewrite T1e // e.
  left; rewrite e; have [_ p1] := rc _ hx'.
  rewrite mulrAC -ler_pdivl_mulr // -ler_pdivl_mulr ?ltr0n //.
  by apply: (le_trans (DB _ ((cB x).2 hx'))); rewrite le_minl lexx.
Qed.
End Cont.

Section Disc.
Variables (pi se ln100 : R) (cabs : R * R -> R) (clog : R * R -> R * R) (flr : R -> int).
Hypothesis fl : floor_like flr.
Hypothesis ab : abs_like cabs.
Hypothesis lg : clog_like cabs clog.
Hypotheses (pi0 : 0 < pi) (se0 : 0 < se) (se1 : se < 1) (ln0 : 0 < ln100).
Variable dt : R.
Hypothesis dt0 : 0 < dt.
Local Notation disc := (disc_time pi se ln100 cabs clog dt).

(* all the poles well outside the unit disc are negative *)
Definition bad_unstable (p : seq (R * R)) : bool :=
  has (fun x => 1 + se <= cabs x) p && all (fun x => (1 + se <= cabs x) ==> negreal se x) p.
(* a pole on the unit circle that is taken for a negative real one *)
Definition bad_minus_one (p : seq (R * R)) : bool := has (fun x => negreal se x && (cabs x == 1)) p.

Lemma cdiv_eq0 z : (cabs (cdiv z dt) == 0) = (z == (0, 0)).
Proof.
rewrite (cabs_eq0 ab) /cdiv; case: z => a b; rewrite !xpair_eqE /= !mulf_eq0 invr_eq0 (gt_eqF dt0) !orbF //.
Qed.
Lemma c1_eq0 z : z != (0, 0) -> (`|(cdiv (clog z) dt).1| == 0) = (cabs z == 1).
Proof. by move=> z0; rewrite normr_eq0 /= mulf_eq0 invr_eq0 (gt_eqF dt0) orbF; have [-> _] := lg z0. Qed.

Lemma quot_some (a b : R) : b != 0 -> quot a b = Some (a / b).
Proof. by move=> h; rewrite /quot (negbTE h). Qed.

(* the first part: poles well outside the unit disc *)
Definition time_u (p_u : seq (R * R)) : res (option R) :=
  if p_u is [::] then Ok (Some 5%:R)
  else
    let q := filter (predC (negreal se)) p_u in
    guard q != [::] else ValueError;
    Ok (omax (Some 5%:R) (omaxs [seq quot ln100 (cabs (cdiv (clog x) dt)) | x <- q])).
Definition time_nr t (p_nr : seq (R * R)) : option R :=
  if p_nr is [::] then t else omax t (omaxs [seq quot ln100 `|(cdiv (clog x) dt).1| | x <- p_nr]).
Definition time_w t (p : seq (R * R)) : option R :=
  if p is [::] then t else omax t (quot (5%:R * 2%:R * pi) (rmin [seq cabs (cdiv (clog x) dt) | x <- p])).
Definition time_r t (p : seq (R * R)) : option R :=
  if p is [::] then t else omax t (quot ln100 (rmin [seq `|(cdiv (clog x) dt).1| | x <- p])).

Definition unst x := 1 + se <= cabs x.
Definition integ (x : R * R) := (x.1 - 1 < se) && (`|x.2| < se).
Definition pure x := `|cabs x - 1| < se.
Definition stable_nz p := [seq x <- filter (predC unst) p | ~~ (cabs x < se)].
Definition notneg p := filter (predC (negreal se)) (stable_nz p).
Definition waves p := filter (predC integ) (notneg p).
Lemma discE p : disc p = do t <- time_u (filter unst p);
  let t := time_nr t (filter (negreal se) (stable_nz p)) in
  let t := time_r (time_w t (filter pure (waves p))) (filter (predC pure) (waves p)) in
  Ok (if filter integ (notneg p) is [::] then t else omap (fun x => x * 5%:R) t).
Proof. by []. Qed.

Lemma time_u_bad p : bad_unstable p -> time_u (filter unst p) = Err ValueError.
Proof.
case/andP=> h1 /allP h2; rewrite /time_u.
have -> : [seq x <- [seq x <- p | unst x] | predC (negreal se) x] = [::].
  apply/eqP; rewrite -[_ == _]negbK -has_filter; apply/hasP => -[x]; rewrite mem_filter => /andP[hu hx] /=.
  by have := h2 x hx; rewrite -/(unst x) hu /= => ->.
by case E: (filter unst p) => [|y s] //; move: h1; rewrite has_filter -/unst E.
Qed.

Lemma unst_log x : unst x -> cabs (cdiv (clog x) dt) != 0.
Proof.
move=> hu; rewrite cdiv_eq0; have x0 : x != (0, 0).
  rewrite -(cabs_eq0 ab) gt_eqF // (lt_le_trans _ hu) // addr_gt0 ?ltr01 //.
apply/eqP => e; have [h _] := lg x0; move: h; rewrite e eqxx => /esym/eqP h.
by move: hu; rewrite /unst h ger_addl leNgt se0.
Qed.
Lemma time_u_ok p : ~~ bad_unstable p -> exists t, [/\ time_u (filter unst p) = Ok (Some t), 5%:R <= t &
  forall x, x \in p -> unst x -> ~~ negreal se x -> ln100 <= cabs (cdiv (clog x) dt) * t].
Proof.
rewrite /bad_unstable negb_and -all_predC => h; rewrite /time_u.
case E: (filter unst p) => [|y s].
  exists 5%:R; split=> // x hx hu; have : x \in filter unst p by rewrite mem_filter hu.
  by rewrite E.
rewrite -E; set q := filter _ (filter _ _).
have q0 : q != [::].
  case/orP: h => [|/allPn[x hx]].
    by move/allP=> h; have : y \in filter unst p by [rewrite E mem_head]; rewrite mem_filter => /andP[hu /h /=]; rewrite -/(unst y) hu.
  rewrite negb_imply => /andP[hu hn]; rewrite -has_filter; apply/hasP; exists x => //.
  by rewrite mem_filter hx andbT.
rewrite q0.
have [|| T hT mT] := @omaxs_some [seq quot ln100 (cabs (cdiv (clog x) dt)) | x <- q].
- by case: (q) q0.
- apply/allP => z /mapP[x hx ->]; rewrite quot_some //; apply: unst_log.
  by move: hx; rewrite !mem_filter => /and3P[].
exists (Num.max 5%:R T); rewrite hT; split=> //; first by rewrite le_maxr lexx.
move=> x hx hu hn; have l0 := unst_log hu.
have lp : 0 < cabs (cdiv (clog x) dt) by rewrite lt_def l0 (cabs_ge ab).
rewrite mulrC -ler_pdivr_mulr // le_maxr; apply/orP; right; apply: mT.
by apply/mapP; exists x; [rewrite !mem_filter /= hn hu | rewrite quot_some].
Qed.

Lemma stable_nzP x p : x \in stable_nz p -> [/\ x \in p, ~~ unst x & x != (0, 0)].
Proof.
rewrite !mem_filter => /and3P[h1 h2 h3]; split=> //.
by apply: contra h1 => /eqP->; have [_ _ -> _] := ab.
Qed.

Lemma time_nr_bad t p : bad_minus_one p -> time_nr t (filter (negreal se) (stable_nz p)) = None.
Proof.
move/hasP=> [x hx /andP[hn /eqP h1]].
have hx' : x \in filter (negreal se) (stable_nz p).
  rewrite !mem_filter hn hx /= h1 -leNgt (ltW se1) /= /unst h1 andbT ger_addl -ltNge //.
have x0 : x != (0, 0) by have [] := stable_nzP (mem_subseq (filter_subseq _ _) hx').
rewrite /time_nr; case E: (filter (negreal se) _) => [|y s]; first by rewrite E in hx'.
rewrite -E omaxs_none; first by case: t.
by apply/mapP; exists x => //; rewrite /quot c1_eq0 // h1 eqxx.
Qed.
Lemma time_nr_ok T p : ~~ bad_minus_one p -> exists t, [/\ time_nr (Some T) (filter (negreal se) (stable_nz p)) = Some t, T <= t &
  forall x, x \in p -> ~~ unst x -> se <= cabs x -> negreal se x -> ln100 <= `|(cdiv (clog x) dt).1| * t].
Proof.
move=> nb; rewrite /time_nr; set q := filter _ _.
have qP x : x \in q -> [/\ x \in p, x != (0, 0) & `|(cdiv (clog x) dt).1| != 0].
  rewrite mem_filter => /andP[hn /stable_nzP[h1 h2 h3]]; split=> //; rewrite c1_eq0 //.
  by move/hasPn/(_ _ h1): nb; rewrite hn.
case E: q => [|y s].
  exists T; split=> // x hx hu hs hn; have : x \in q by rewrite !mem_filter hn hx /= -leNgt hs hu.
  by rewrite E.
rewrite -E; have [|| U hU mU] := @omaxs_some [seq quot ln100 `|(cdiv (clog x) dt).1| | x <- q].
- by rewrite E.
- by apply/allP => z /mapP[x /qP[h1 h2 h3] ->]; rewrite quot_some.
exists (Num.max T U); rewrite hU; split=> //; first by rewrite le_maxr lexx.
move=> x hx hu hs hn; have hq : x \in q by rewrite !mem_filter hn hx /= -leNgt hs hu.
have [_ _ l0] := qP x hq.
rewrite mulrC -ler_pdivr_mulr ?lt_def ?l0 ?normr_ge0 // le_maxr; apply/orP; right; apply: mU.
by apply/mapP; exists x => //; rewrite quot_some.
Qed.

Lemma wavesP x p : x \in waves p -> [/\ x \in p, x != (0, 0), ~~ unst x & ~~ integ x].
Proof. by rewrite mem_filter => /andP[h1]; rewrite mem_filter => /andP[_ /stable_nzP[]]. Qed.
Lemma wave_log x p : x \in waves p -> cabs (cdiv (clog x) dt) != 0.
Proof.
case/wavesP=> hx x0 hu hi; rewrite cdiv_eq0; apply/eqP => e.
have [h1 h2] := lg x0; move: h1 h2; rewrite e !eqxx => /esym/eqP c1 /esym/andP[p1 /eqP p2].
move: hi; rewrite /integ p2 normr0 se0 andbT ltr_subl_addl => /negP; apply; rewrite (le_lt_trans _ (_ : 1 < 1 + se)) ?ltr_addl //.
by have [h _ _ _] := ab; have := h x; rewrite c1 gtr0_norm.
Qed.
Lemma time_w_ok T p : exists t, [/\ time_w (Some T) (filter pure (waves p)) = Some t, T <= t &
  forall x, x \in waves p -> pure x -> 5%:R * 2%:R * pi <= cabs (cdiv (clog x) dt) * t].
Proof.
rewrite /time_w; set q := filter _ _; case E: q => [|y s].
  exists T; split=> // x hx hp; have : x \in q by rewrite mem_filter hp.
  by rewrite E.
rewrite -E; set m := rmin _.
have /mapP[z hz mz] : m \in [seq cabs (cdiv (clog x) dt) | x <- q] by apply: rmin_in; rewrite E.
have m0 : m != 0 by rewrite mz; apply: (@wave_log _ p); move: hz; rewrite mem_filter => /andP[].
have mp : 0 < m by rewrite lt_def m0 mz (cabs_ge ab).
rewrite quot_some // /=; eexists; split; first by [].
  by rewrite le_maxr lexx.
move=> x hx hp; have hm : m <= cabs (cdiv (clog x) dt) by apply: rmin_le; apply: map_f; rewrite mem_filter hp.
have l0 : 0 < cabs (cdiv (clog x) dt) by apply: lt_le_trans hm.
rewrite [X in _ <= X]mulrC -ler_pdivr_mulr // le_maxr; apply/orP; right.
by rewrite ler_pmul2l ?lef_pinv // !mulr_gt0 // ltr0n.
Qed.
Lemma time_r_ok T p : exists t, [/\ time_r (Some T) (filter (predC pure) (waves p)) = Some t, T <= t &
  forall x, x \in waves p -> ~~ pure x -> ln100 <= `|(cdiv (clog x) dt).1| * t].
Proof.
rewrite /time_r; set q := filter _ _; case E: q => [|y s].
  exists T; split=> // x hx hp; have : x \in q by rewrite mem_filter /= hp.
  by rewrite E.
have qP x : x \in q -> `|(cdiv (clog x) dt).1| != 0.
  rewrite mem_filter => /andP[hp /wavesP[h1 h2 h3 _]]; rewrite c1_eq0 //.
  by apply: contra hp => /eqP e; rewrite /= /pure e subrr normr0.
rewrite -E; set m := rmin _.
have /mapP[z hz mz] : m \in [seq `|(cdiv (clog x) dt).1| | x <- q] by apply: rmin_in; rewrite E.
have m0 : m != 0 by rewrite mz; apply: qP.
have mp : 0 < m by rewrite lt_def m0 mz normr_ge0.
rewrite quot_some // -[omax _ _]/(Some _); eexists; split; first by [].
  by rewrite le_maxr lexx.
move=> x hx hp; have hm : m <= `|(cdiv (clog x) dt).1| by apply: rmin_le; apply: map_f; rewrite mem_filter /= hp.
have l0 : 0 < `|(cdiv (clog x) dt).1| by apply: lt_le_trans hm.
rewrite [X in _ <= X]mulrC -ler_pdivr_mulr // le_maxr; apply/orP; right.
by rewrite ler_pmul2l ?lef_pinv.
Qed.

Lemma in_waves x p : x \in p -> cabs x < 1 + se -> se <= `|x.2| -> x \in waves p.
Proof.
move=> hx h1 h2; rewrite !mem_filter /= hx /integ /negreal /unst [`|x.2| < se]ltNge h2 !andbF /= -ltNge h1 andbT -leNgt.
by have [_ h _ _] := ab; rewrite (le_trans h2) // h.
Qed.

Lemma discP p : ~~ bad_unstable p -> ~~ bad_minus_one p -> exists t, [/\ disc p = Ok (Some t), 5%:R <= t &
  forall x, x \in p -> cabs x < 1 + se -> se <= `|x.2| ->
    if pure x then 5%:R * (2%:R * pi) <= cabs (cdiv (clog x) dt) * t else ln100 <= `|(cdiv (clog x) dt).1| * t].
Proof.
move=> b1 b2; rewrite discE.
have [t1 [-> t1P _]] := time_u_ok b1; have [t2 [e2 t2P _]] := time_nr_ok t1 b2.
have [t3 [e3 t3P w3]] := time_w_ok t2 p; have [t4 [e4 t4P w4]] := time_r_ok t3 p.
rewrite [bind _ _]/= e2 e3 e4.
have t4L : 5%:R <= t4 by rewrite (le_trans t1P) // (le_trans t2P) // (le_trans t3P).
have [t5 -> t5P] : exists2 t5, (if [seq x <- notneg p | integ x] is [::] then Some t4
     else omap (fun x => x * 5%:R) (Some t4)) = Some t5 & t4 <= t5.
  have t40 : 0 <= t4 by rewrite (le_trans _ t4L) // ler0n.
  by case: (filter _ _) => [|y s]; [exists t4 | exists (t4 * 5%:R) => //; rewrite ler_pemulr // ler1n].
exists t5; split=> //; first exact: le_trans t5P.
move=> x hx h1 h2; have hw := in_waves hx h1 h2; case: ifP => hp.
  by rewrite mulrA; apply: (le_trans (w3 x hw hp)); rewrite ler_wpmul2l ?(cabs_ge ab) // (le_trans t4P).
by apply: (le_trans (w4 x hw (negbT hp))); rewrite ler_wpmul2l.
Qed.

Lemma disc_bad1 p : bad_unstable p -> disc p = Err ValueError.
Proof. by move=> h; rewrite discE time_u_bad. Qed.
Lemma disc_bad2 p : ~~ bad_unstable p -> bad_minus_one p -> disc p = Ok None.
Proof.
move=> b1 b2; rewrite discE; have [t1 [-> _ _]] := time_u_ok b1; rewrite [bind _ _]/= time_nr_bad //.
have w q : time_w None q = None by case: q.
have r q : time_r None q = None by case: q.
by rewrite w r; case: (filter _ _).
Qed.

(* positive poles inside the unit disc are all taken for integrators *)
Lemma disc_pos p : (forall x, x \in p -> [/\ x.2 = 0, 0 <= x.1 & x.1 < 1]) ->
  disc p = Ok (Some (if has (fun x => se <= x.1) p then 5%:R * 5%:R else 5%:R)).
Proof.
move=> hp; have cE x : x \in p -> cabs x = x.1.
  by case: x => a b /hp[/= -> h _]; have [_ _ _ ->] := ab; rewrite ger0_norm.
have e0 (P : pred (R * R)) (s : seq (R * R)) : (forall x, x \in s -> ~~ P x) -> filter P s = [::].
  by move=> h; apply/eqP; rewrite -[_ == _]negbK -has_filter; apply/hasPn.
have e1 (P : pred (R * R)) (s : seq (R * R)) : (forall x, x \in s -> P x) -> filter P s = s.
  by move=> h; apply/all_filterP/allP.
have u0 : filter unst p = [::].
  apply: e0 => x hx; rewrite /unst cE // -ltNge; have [_ _ h] := hp x hx; by rewrite (lt_trans h) // ltr_addl.
have s0 : stable_nz p = [seq x <- p | se <= x.1].
  rewrite /stable_nz (e1 (predC unst)) => [|x hx]; first by apply: eq_in_filter => x hx; rewrite cE // -leNgt.
  by rewrite /= /unst cE // -ltNge; have [_ _ h] := hp x hx; rewrite (lt_trans h) // ltr_addl.
have sp x : x \in stable_nz p -> [/\ x.2 = 0, 0 <= x.1 & x.1 < 1] by rewrite s0 mem_filter => /andP[_ /hp].
have n0 : filter (negreal se) (stable_nz p) = [::].
  by apply: e0 => x /sp[_ h _]; rewrite /negreal ltNge h.
have n1 : notneg p = stable_nz p by apply: e1 => x /sp[_ h _]; rewrite /= /negreal ltNge h.
have i1 x : x \in stable_nz p -> integ x.
  by move=> /sp[e _ h]; rewrite /integ e normr0 se0 andbT (lt_trans _ se0) // subr_lt0.
have w0 : waves p = [::] by rewrite /waves n1; apply: e0 => x /i1 /= ->.
rewrite discE u0 n0 w0 n1 (e1 integ) // [bind _ _]/= /= s0 has_filter.
by case: (filter _ _).
Qed.
End Disc.
End HorizonTheory.
