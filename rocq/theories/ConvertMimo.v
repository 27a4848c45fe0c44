(* transfer_to_state, several inputs or outputs. *)
From mathcomp Require Import all_ssreflect all_algebra zify.
From Verif Require Import Base BaseTheory Spec ModelPoly PolyTheory PolyOps LcmTheory ModelState Denote StateTheory
  ModelTransfer DenoteT TransferTheory TransferOps ConvertTheory ConvertOps.

Set Implicit Arguments.
Unset Strict Implicit.
Unset Printing Implicit Defensive.

Import Order.TTheory GRing.Theory Num.Theory.
Local Open Scope ring_scope.

Section Mimo.
Variable R : realFieldType.
Variable lcmf : seq (row R) -> res (row R * seq (row R)).
Variable eps : R.
Implicit Types (num den : seq R) (G : tf R) (N D : pmat R).

(* one entry: D + n/d with d monic *)
Lemma tts_entryP num den : head 0 den != 0 -> (size (polyhi num) <= size den)%N ->
  exists Q n d, [/\ tts_entry eps num den = Ok (Q, n, d), head 0 d = 1, (size (polyhi n) < size d)%N,
    [/\ size d = 1%N -> n = [:: 0], num != [::] -> n != [::] &
        ((size num < size den) || (size (polyhi num) == size den) || (size den == 1))%N ->
        (size n <= (size d).-1)%N || (size n == 1%N)] &
    ((1 < size den)%N -> size (polyhi num) = size den -> above eps (polyhi num %% polyhi den)) ->
    forall (L : fieldType) (f : {rmorphism R -> L}) s, pev f den s != 0 ->
      pev f d s != 0 /\ f Q + pev f n s / pev f d s = pev f num s / pev f den s].
Proof.
move=> h0 hn; rewrite /tts_entry.
have td : trimf den = den by rewrite trimf_id //; case: (den) h0 => //=; rewrite eqxx.
have hd1 : size (polyhi den) = size den by rewrite size_polyhi_trim //; case: (den) h0 => //=; rewrite eqxx.
have den0 : den == [::] = false by apply: contraNF h0 => /eqP->; rewrite eqxx.
have M (d : seq R) : head 0 d != 0 -> head 0 [seq (head 0 d)^-1 * x | x <- d] = 1.
  by case: d => [|c d] /= c0; rewrite ?mulVf //; rewrite eqxx in c0.
have V (L : fieldType) (f : {rmorphism R -> L}) s (n d : seq R) (c : R) : c != 0 ->
  pev f [seq c^-1 * x | x <- n] s / pev f [seq c^-1 * x | x <- d] s = pev f n s / pev f d s.
  by move=> c0; rewrite !pev_scale -mulf_div divff ?mul1r // fmorph_eq0 invr_eq0.
have V1 (L : fieldType) (f : {rmorphism R -> L}) s (d : seq R) (c : R) : c != 0 -> pev f d s != 0 ->
  pev f [seq c^-1 * x | x <- d] s != 0.
  by move=> c0 hd; rewrite pev_scale mulf_neq0 // fmorph_eq0 invr_eq0.
rewrite td size_trimf; case: ifP => hs1.
  have [q eq] : exists q, (if (0 < size (polyhi num))%N then div11 (trimf num) den else Ok 0) = Ok q /\
     polyhi num = q *: polyhi den.
    case: ifP => hs; last first.
      exists 0; split=> //; move/negbT: hs; rewrite -leqNgt leqn0 size_poly_eq0 => /eqP->; by rewrite scale0r.
    have st : size (trimf num) = 1%N by apply/eqP; rewrite size_trimf eqn_leq hs andbT -(eqP hs1).
    move: hs1 h0 st; rewrite /div11 -(polyhi_trimf num); case: (den) => [|a []] //; case: (trimf num) => [|b []] //= _ a0 _.
    exists (b / a); rewrite a0; split=> //; by rewrite !polyhi1 -mul_polyC -polyCM divfK.
  case: eq => -> eq /=; rewrite den0 /= h0.
  eexists _, _, _; split; first reflexivity; rewrite ?M //.
  - by rewrite /= mulr0 polyhi1 size_map (eqP hs1) size_poly0.
  - by split; rewrite /= ?mulr0 ?orbT.
  move=> _ L f s hd; split; first exact: V1.
  rewrite /= mulr0 pev1 rmorph0 mul0r addr0 /pev eq map_polyZ hornerZ mulfK //.
have hs2 : (1 < size den)%N by move: hs1 den0; case: (den) => [|a []].
case: ifP => hlt.
  rewrite /= den0 /= h0; eexists _, _, _; split; first reflexivity; rewrite ?M //.
  - by rewrite polyhi_scale size_scale ?invr_eq0 // size_map.
  - split; rewrite ?size_map.
    + by move=> e; rewrite e in hs2.
    + by case: (num).
    rewrite (ltn_eqF hlt) !orbF => /lt_pred -> //.
  by move=> _ L f s hd; split; [exact: V1 | rewrite rmorph0 add0r V].
have hsz : size (polyhi num) = size den by apply/eqP; rewrite eqn_leq hn leqNgt hlt.
have hd0 : nth 0 den 0 != 0 by rewrite nth0.
have [q [r [-> e hr /andP[hq hr1]]]] := polydivP (trimf num) hd0; rewrite polyhi_trimf in e.
have er : polyhi r = polyhi num %% polyhi den by rewrite e modpD modp_mull add0r modp_small.
have sc : size (clean eps r) = size r by rewrite size_map.
have hc : ((1 < size den)%N -> size (polyhi num) = size den -> above eps (polyhi num %% polyhi den)) -> clean eps r = r.
  by move=> ha; rewrite clean_above // er; exact: ha.
have sr : (size r < size den)%N by rewrite -(size_polyhi_trim hr1) -hd1.
rewrite [bind _ _]/=; move: (clean eps r) sc hc => r' sr' hc.
have hr' : (size (polyhi r') < size den)%N by apply: leq_ltn_trans sr; rewrite -sr' size_polyhi_le.
have sq : size q = 1%N by rewrite -(size_polyhi_trim hq); apply: (quot_const hr); rewrite -e hsz hd1.
rewrite sq eqxx /= has_polyhi; case: q sq hq e => [|q0 []] // _ hq e; rewrite polyhi1 mul_polyC in e.
case: ifP => hnz.
  rewrite /= oner_neq0; eexists _, _, _; split; first reflexivity; rewrite /= ?invr1 ?mulr1 ?mulr0 //.
  - by rewrite polyhi1 size_poly0.
  move=> /hc er' L f s hd; rewrite !pev1 rmorph1 oner_neq0 rmorph0 mul0r addr0; split=> //.
  rewrite er' in hnz; move: e; rewrite (eqP (negbNE hnz)) addr0 => e; by rewrite [pev f num s]/pev e map_polyZ hornerZ mulfK.
rewrite /= den0 /= h0; eexists _, _, _; split; first reflexivity; rewrite ?M //.
- by rewrite polyhi_scale size_scale ?invr_eq0 // size_map.
- split; rewrite ?size_map.
  + by move=> e1; rewrite e1 in hs2.
  + by move=> _; case: (r') hnz => //=; rewrite polyhi_nil eqxx.
  by move=> _; rewrite sr' lt_pred.
move=> /hc -> L f s hd; split; [exact: V1 | rewrite V //].
rewrite [pev f num s]/pev e rmorphD hornerD /= map_polyZ hornerZ mulrDl mulfK //.
Qed.

Lemma mon_size (d : seq R) : head 0 d = 1 -> size (polyhi d) = size d.
Proof. by move=> h; rewrite size_polyhi_trim //; case: d h => [_|c d /= ->]; exact: oner_neq0. Qed.

(* what the tall case of the realisation has to deliver *)
Definition tall_ok p m N D (x : arr R * arr R * arr R) : Prop :=
  let: (A, B, C) := x in exists n,
  [/\ [/\ nr A = n & nc A = n] /\ [/\ nr B = n & nc B = m], nr C = p /\ nc C = n, [/\ wfa A, wfa B & wfa C] &
    forall (L : fieldType) (f : {rmorphism R -> L}) (s : L),
      (forall i j, (i < p)%N -> (j < m)%N -> pev f (ent D i j) s != 0) ->
      s%:M - mxof f n n A \in unitmx /\
      forall i j, (i < p)%N -> (j < m)%N ->
        ((\row_(k < n) f (get C i k)) *m invmx (s%:M - mxof f n n A) *m (\col_(k < n) f (get B k j))) 0 0 =
        pev f (ent N i j) s / pev f (ent D i j) s].

Definition prep p m N D : Prop := forall i j, (i < p)%N -> (j < m)%N ->
  [/\ head 0 (ent D i j) = 1, (size (polyhi (ent N i j)) < size (ent D i j))%N & size (ent D i j) = 1%N -> ent N i j = [:: 0]].

Lemma nth_degs (ds : seq (seq R)) j : (j < size ds)%N -> nth 0%N (degs ds) j = (size (nth [::] ds j)).-1.
Proof. by move=> h; rewrite (nth_map [::]). Qed.

Lemma coef_over num k t : (size (polyhi num) <= k)%N -> (k <= t)%N -> nth 0 (rev num) t = 0.
Proof. by move=> h1 h2; rewrite -coef_Poly nth_default //; apply: leq_trans h2. Qed.

(* common part of the two branches: the blocks ds, any B with the right entries *)
Lemma blk_ok p m N D N' ds (B C : arr R) : (0 < p)%N -> size ds = m -> all (fun d => head 0 d == 1) ds ->
  (forall i j, (i < p)%N -> (j < m)%N -> (size (polyhi (ent N' i j)) < size (nth [::] ds j))%N) ->
  (forall (L : fieldType) (f : {rmorphism R -> L}) (s : L),
      (forall i j, (i < p)%N -> (j < m)%N -> pev f (ent D i j) s != 0) ->
      forall j, (j < m)%N -> pev f (nth [::] ds j) s != 0 /\ forall i, (i < p)%N ->
      pev f (ent N' i j) s / pev f (nth [::] ds j) s = pev f (ent N i j) s / pev f (ent D i j) s) ->
  nr B = sumn (degs ds) -> nc B = m -> wfa B ->
  (forall k j, (k < sumn (degs ds))%N -> (j < m)%N -> get B k j = (blkE ds j k)%:R) ->
  fill_cols (azeros p (nr (blkA ds))) N' p 0 0 (degs ds) = Ok C ->
  tall_ok p m N D (blkA ds, B, C).
Proof.
move=> hp sds hmon hN hval b1 b2 wB hB E; have [a1 a2] := blkA_dims ds.
set n := sumn (degs ds) in a1 a2 b1 hB.
have [||||c1 c2 wC _ hC] := fill_colsP E.
- exact: wfa_mk.
- by [].
- move=> i j hi _; case: (ltnP j n) => hj; last by apply: get_out_c; rewrite ?wfa_mk // a1.
  by rewrite get_mk // a1.
- move=> i z t hi; rewrite size_map sds => hz; rewrite add0n nth_degs ?sds // => ht.
  by apply: (@coef_over _ (size (nth [::] ds z)).-1) => //; apply: lt_pred; exact: hN.
exists n; split=> //; first by rewrite c2 a1.
- by split=> //; exact: wfa_blkA.
have hd0 : all (fun d => head 0 d != 0) ds.
  by apply: sub_all hmon => d /eqP->; exact: oner_neq0.
move=> L f s hD.
have hds : all (fun d => pev f d s != 0) ds.
  apply/(all_nthP [::]) => j; rewrite sds => hj; by case: (hval L f s hD j hj).
have [hu _] := blk_inv hd0 hds; split=> // i j hi hj.
have [_ hv] := hval L f s hD j hj; rewrite -hv //.
rewrite (@blk_tf R L f ds s j (ent N' i j) (fun k => f (get C i k)) (fun k => f (get B k j))) //.
- by rewrite sds.
- by apply/eqP; move/(all_nthP [::]): hmon; apply; rewrite sds.
- exact: hN.
- move=> t ht; congr (f _); have := hC i j t hi; rewrite !add0n size_map sds; apply=> //.
    by rewrite nth_degs ?sds.
  have := offs_le ds j.+1; rewrite offsS ?sds // -/n => hle; rewrite a1; apply: leq_trans hle; by rewrite ltn_add2l.
by move=> k hk; rewrite hB // rmorph_nat.
Qed.

Lemma adiag_nseqB (d : seq R) m k j : (1 < size d)%N -> (k < sumn (degs (nseq m d)))%N -> (j < m)%N ->
  let b := mk (size d).-1 1 (fun i _ => (i == (size d).-2)%:R) in
  get (adiag (nseq m b)) k j = (blkE (nseq m d) j k)%:R :> R.
Proof.
move=> hd + + b; have hb i : (i < (size d).-1)%N -> get b i 0 = (i == (size d).-2)%:R by move=> hi; rewrite get_mk.
have dims m' : nr (adiag (nseq m' b)) = sumn (degs (nseq m' d)) /\ nc (adiag (nseq m' b)) = m'.
  by elim: m' => //= m' [-> ->].
elim: m k j => [|m IH] k j //= hk hj; have [d1 d2] := dims m.
rewrite (@get_diag2 _ (size d).-1 1 (sumn (degs (nseq m d))) m) //.
rewrite /blkE; case: j hj => [|j] hj /=; rewrite ?offs_cons ?offs0 ?addn0.
  case: ltnP => h /=.
    rewrite get_mk //; congr (_%:R); move: h hd; clear; slia R.
  by rewrite (_ : (_ == _ :> nat) = false) ?andbF //; apply/eqP; move: h hd; clear; slia R.
case: ltnP => h /=.
  rewrite ltnS in hj; rewrite nth_nseq hj (_ : (_ == _ :> nat) = false) ?andbF //; apply/eqP.
  rewrite offsS ?size_nseq // nth_nseq hj; move: h hd; clear; slia R.
rewrite subSS subn0 IH //; last by rewrite ltn_subLR.
rewrite /blkE; congr ((_ && _)%:R); rewrite -subSn // -(eqn_add2l (size d).-1) subnKC //; exact: leqW.
Qed.

Lemma tts_commonP p m N D (d : seq R) x : (0 < p)%N -> (1 < size d)%N -> prep p m N D ->
  (forall i j, (i < p)%N -> (j < m)%N -> ent D i j = d) -> head 0 d = 1 ->
  tts_common N d p m = Ok x -> tall_ok p m N D x.
Proof.
move=> hp hd hprep hD h1; rewrite /tts_common companion_compm ?h1 ?oner_neq0 // [bind _ _]/=.
rewrite eqxx; set b := mk _ 1 _; case E: (fill_cols _ _ _ _ _ _) => [C|] // [<-].
have eA : adiag (nseq m (compm d)) = blkA (nseq m d) by rewrite /blkA map_nseq.
have dims m' : nr (adiag (nseq m' b)) = sumn (degs (nseq m' d)) /\ nc (adiag (nseq m' b)) = m'.
  by elim: m' => //= m' [-> ->].
have eD : nseq m (size d).-1 = degs (nseq m d) by rewrite /degs map_nseq.
have [d1 d2] := dims m; rewrite eA; apply: (@blk_ok p m N D N) => //.
- by rewrite size_nseq.
- by rewrite all_nseq h1 eqxx orbT.
- by move=> i j hi hj; rewrite nth_nseq hj; case: (hprep i j hi hj) => _; rewrite hD.
- move=> L f s hs j hj; rewrite nth_nseq hj; split=> [|i hi]; last by rewrite hD.
  by rewrite -(hD 0%N j hp hj); apply: hs.
- by case: (m) => //= m'; exact: wfa_mk.
- by move=> k j hk hj; exact: adiag_nseqB.
- by rewrite -eA -eD.
Qed.

Lemma lcm_nonzero (L : fieldType) (f : {rmorphism R -> L}) (args : seq (seq R)) (l : seq R) s :
  is_lcm args (polyhi l) -> all (fun d => pev f d s != 0) args -> pev f l s != 0.
Proof.
move=> hl ha; set P := \prod_(d <- args) polyhi d.
have hP : polyhi l %| P.
  apply/hl => p hp; rewrite /P (big_rem p) //=; exact: dvdp_mulr.
have : (map_poly f P).[s] != 0.
  rewrite /P; move: ha; clear; elim: args => [|d args IH] /=; first by rewrite big_nil rmorph1 hornerC oner_neq0.
  by case/andP=> h /IH h'; rewrite big_cons rmorphM hornerM mulf_neq0.
by case/dvdpP: hP => u ->; rewrite rmorphM hornerM; apply: contraNneq => e; rewrite -/(pev f l s) e mulr0.
Qed.

Lemma tts_lcm_colP N D p m col : lcm_okf lcmf -> (0 < p)%N -> prep p m N D -> (col < m)%N ->
  exists l, [/\ head 0 l = 1, is_lcm [seq ent D i col | i <- iota 0 p] (polyhi l),
    ((forall i, (i < p)%N -> ent N i col != [::]) -> exists ns, tts_lcm_col lcmf N D p col = Ok (l, ns)) &
    forall x, tts_lcm_col lcmf N D p col = Ok x -> x.1 = l /\
      forall i, (i < p)%N -> exists mu : seq R,
        [/\ polyhi (nth [::] x.2 i) = polyhi (ent N i col) * polyhi mu, polyhi mu * polyhi (ent D i col) = polyhi l, polyhi l != 0 &
            (size (nth [::] x.2 i) <= (size l).-1)%N || (size (nth [::] x.2 i) == 1%N)]].
Proof.
move=> hl hp hprep hcol; set args := [seq ent D i col | i <- iota 0 p].
have ga : all (@good R) args.
  apply/allP => d /mapP[i]; rewrite mem_iota add0n /= => hi ->; case: (hprep i col hi hcol) => h1 _ _.
  by rewrite /good; case: (ent D i col) h1 => [/eqP|c t /= ->]; rewrite ?oner_neq0 // eq_sym oner_eq0.
have a0 : args != [::] by rewrite -size_eq0 size_map size_iota -lt0n.
have [l [ms [El l1 hlc sm hm]]] := hl _ a0 ga.
have sa : size args = p by rewrite size_map size_iota.
have l0 : polyhi l != 0 by apply: head_polyhi; rewrite l1 oner_neq0.
have hmu i : (i < p)%N -> nth [::] ms i != [::] /\ polyhi (nth [::] ms i) * polyhi (ent D i col) = polyhi l.
  move=> hi; have := hm i; rewrite sa => /(_ hi)[h1 h2]; split; first by apply: contraNneq h1 => ->.
  rewrite -h2 /args (nth_map 0%N) ?size_iota // nth_iota // add0n /monp; case: (hprep i col hi hcol) => h3 _ _.
  by case: (ent D i col) h3 => [/eqP|c t /= ->]; rewrite ?invr1 ?scale1r // eq_sym oner_eq0.
exists l; split=> //; rewrite /tts_lcm_col -/args El [bind _ _]/=.
  move=> hN.
  have [ns ->] : exists ns, seqR [seq (do q <- haroldpolymul [:: ent N i col; nth [::] ms i] false;
      Ok (if trimf q is [::] then [:: 0] else trimf q)) | i <- iota 0 p] = Ok ns.
    have : forall i, i \in iota 0 p -> ent N i col != [::] by move=> i; rewrite mem_iota add0n => /hN.
    elim: (iota 0 p) => [|i s IH] hs /=; first by exists [::].
    have [|q -> _] := @polymul_full_notrim _ (ent N i col) [:: nth [::] ms i]; first by apply: hs; rewrite inE eqxx.
    have [|ns ->] := IH; first by move=> k hk; apply: hs; rewrite inE hk orbT.
    by eexists.
  by eexists.
move=> x; case E: (seqR _) => [ns|] //= [<-]; split=> // i hi.
have sE := seqR_ok E; have sn : size ns = p by move: (congr1 size sE); rewrite !size_map size_iota.
have := congr1 (fun t => nth (Err ValueError) t i) sE; rewrite (nth_map 0%N) ?size_iota // (nth_map [::]) ?sn // nth_iota // add0n.
have [mne hmi] := hmu i hi.
case: (boolP (ent N i col == [::])) => [/eqP->|hne].
  by rewrite /haroldpolymul /= size_eq0 (negbTE mne).
have [q -> [hq _]] := @polymul_full_notrim _ (ent N i col) [:: nth [::] ms i] hne; rewrite /= => -[<-].
rewrite big_seq1 in hq; exists (nth [::] ms i).
have et : polyhi (if trimf q is [::] then [:: 0] else trimf q) = polyhi q.
  by rewrite -(polyhi_trimf q); case: (trimf q) => //; rewrite polyhi1 polyhi_nil.
split=> //; first by rewrite et.
have [q0|q0] := eqVneq (polyhi q) 0.
  by have -> : trimf q = [::]; [apply/eqP; rewrite trimf_nil q0 | rewrite orbT].
have tq : size (trimf q) = size (polyhi q) by rewrite size_trimf.
apply/orP; left; have -> : (if trimf q is [::] then [:: 0] else trimf q) = trimf q.
  by case: (trimf q) tq => // e; move: q0; rewrite -size_poly_eq0 -e.
rewrite tq; apply: lt_pred.
have n0 : polyhi (ent N i col) != 0 by apply: contraNneq q0 => e; rewrite hq e mul0r.
have m0 : polyhi (nth [::] ms i) != 0 by apply: contraNneq l0 => e; rewrite -hmi e mul0r.
have d0 : polyhi (ent D i col) != 0 by apply: contraNneq l0 => e; rewrite -hmi e mulr0.
have sl : size (polyhi l) = size l by exact: mon_size.
case: (hprep i col hi hcol) => h3 h4 _.
have sD := mon_size h3.
rewrite -sl -hmi hq !size_mul // -sD in h4 *.
have := size_poly_gt0 (polyhi (nth [::] ms i)); rewrite m0.
move: h4; move: (size (polyhi (ent N i col))) (size (polyhi (nth [::] ms i))) (size (polyhi (ent D i col))); clear.
by move=> a b c; lia.
Qed.

Lemma seqR_nth (A : Type) (a0 : A) (h : nat -> res A) m t : seqR [seq h i | i <- iota 0 m] = Ok t ->
  size t = m /\ forall j, (j < m)%N -> h j = Ok (nth a0 t j).
Proof.
move=> E; have sE := seqR_ok E; have st : size t = m by move: (congr1 size sE); rewrite !size_map size_iota.
split=> // j hj; have := congr1 (fun t => nth (Err ValueError) t j) sE.
by rewrite (nth_map 0%N) ?size_iota // (nth_map a0) ?st // nth_iota.
Qed.

Lemma seqR_total (A : Type) (h : nat -> res A) m : (forall j, (j < m)%N -> exists a, h j = Ok a) ->
  exists t, seqR [seq h i | i <- iota 0 m] = Ok t.
Proof.
move=> H; have : forall j, j \in iota 0 m -> exists a, h j = Ok a by move=> j; rewrite mem_iota add0n; exact: H.
elim: (iota 0 m) => [|i s IH] hs /=; first by exists [::].
have [|a ->] := hs i; first by rewrite inE eqxx.
have [|t ->] := IH; first by move=> j hj; apply: hs; rewrite inE hj orbT.
by exists (a :: t).
Qed.

Lemma comps_ok (dens : seq (seq R)) : all (fun d => head 0 d == 1) dens ->
  seqR [seq (if (1 < size d)%N
             then (do a <- haroldcompanion d; guard nr a == nc a else ValueError; Ok a)
             else Ok (azeros 0 0)) | d <- dens] = Ok [seq compm d | d <- dens].
Proof.
elim: dens => //= d dens IH /andP[/eqP h1 /IH ->]; case: ifP => hd.
  by rewrite companion_compm ?h1 ?oner_neq0 //= eqxx.
by rewrite compm_const //; case: d h1 hd => [/eqP|c []] //; rewrite eq_sym oner_eq0.
Qed.

Lemma tts_lcm_prep N D p m cols : lcm_okf lcmf -> (0 < p)%N -> prep p m N D ->
  seqR [seq tts_lcm_col lcmf N D p col | col <- iota 0 m] = Ok cols ->
  [/\ size [seq c.1 | c <- cols] = m, all (fun d => head 0 d == 1) [seq c.1 | c <- cols] &
   forall j, (j < m)%N -> let l := nth [::] [seq c.1 | c <- cols] j in
     is_lcm [seq ent D i j | i <- iota 0 p] (polyhi l) /\
     forall i, (i < p)%N -> let n := nth [::] (nth ([::], [::]) cols j).2 i in exists mu : seq R,
        [/\ polyhi n = polyhi (ent N i j) * polyhi mu, polyhi mu * polyhi (ent D i j) = polyhi l, polyhi l != 0 &
            (size n <= (size l).-1)%N || (size n == 1%N)]].
Proof.
move=> hl hp hprep E; have [sc hc] := seqR_nth ([::], [::]) E.
have H j : (j < m)%N -> let x := nth ([::], [::]) cols j in
   [/\ head 0 x.1 = 1, is_lcm [seq ent D i j | i <- iota 0 p] (polyhi x.1) &
   forall i, (i < p)%N -> let n := nth [::] x.2 i in exists mu : seq R,
        [/\ polyhi n = polyhi (ent N i j) * polyhi mu, polyhi mu * polyhi (ent D i j) = polyhi x.1, polyhi x.1 != 0 &
            (size n <= (size x.1).-1)%N || (size n == 1%N)]].
  by move=> hj /=; have [l [h1 h2 _ h3]] := tts_lcm_colP hl hp hprep hj; have [-> h4] := h3 _ (hc j hj).
split; rewrite ?size_map //.
  by apply/(all_nthP [::]) => j; rewrite size_map sc => hj; rewrite (nth_map ([::], [::])) ?sc //; have [->] := H j hj.
by move=> j hj; rewrite (nth_map ([::], [::])) ?sc //; have [_ h1 h2] := H j hj.
Qed.

Lemma lcm_BE (ds : seq (seq R)) n m k j : size ds = m -> (k < n)%N -> (j < m)%N ->
  get (lcm_B R n m (degs ds)) k j = (blkE ds j k)%:R.
Proof.
move=> sds hk hj; rewrite get_mk // /blkE nth_degs ?sds //; congr (_%:R); case: posnP => //= h0.
have := offsS (_ : (j < size ds)%N); rewrite sds => /(_ hj).
rewrite -/(offs ds j.+1); move: h0; move: (offs ds j.+1) (offs ds j) (size _).-1; clear; lia.
Qed.

Lemma tts_lcmP p m N D x : lcm_okf lcmf -> (0 < p)%N -> prep p m N D ->
  tts_lcm lcmf N D p m = Ok x -> tall_ok p m N D x.
Proof.
move=> hl hp hprep; rewrite /tts_lcm; case E: (seqR _) => [cols|] //; rewrite [bind _ _]/=.
have [sd hm H] := tts_lcm_prep hl hp hprep E; rewrite comps_ok // [bind _ _]/=.
set N' := grid p m _; set dens := [seq c.1 | c <- cols] in sd hm H *.
have eN i j : (i < p)%N -> (j < m)%N -> ent N' i j = nth [::] (nth ([::], [::]) cols j).2 i by move=> hi hj; rewrite ent_grid.
rewrite -/(blkA dens) -/(degs dens); case EC: (fill_cols _ _ _ _ _ _) => [C|] // [<-].
have [a1 a2] := blkA_dims dens.
have ml j : (j < m)%N -> head 0 (nth [::] dens j) = 1.
  by move=> hj; apply/eqP; move/(all_nthP [::]): hm; apply; rewrite sd.
apply: (@blk_ok p m N D N') => //; first last.
- by move=> k j hk hj; rewrite lcm_BE // a1.
- exact: wfa_mk.
- move=> L f s hs j hj; have [hlc Hi] := H j hj; split.
    apply: (lcm_nonzero hlc); apply/allP => d /mapP[i]; rewrite mem_iota add0n /= => hi ->; exact: hs.
  move=> i hi; rewrite eN //; have [mu [e1 e2 _ _]] := Hi i hi.
  have -> : pev f (nth [::] dens j) s = pev f mu s * pev f (ent D i j) s by apply: pev_mul; rewrite e2.
  have -> : pev f (nth [::] (nth ([::], [::]) cols j).2 i) s = pev f (ent N i j) s * pev f mu s by apply: pev_mul.
  have : pev f (nth [::] dens j) s != 0.
    apply: (lcm_nonzero hlc); apply/allP => d /mapP[i']; rewrite mem_iota add0n /= => hi' ->; exact: hs.
  rewrite (_ : pev f (nth [::] dens j) s = pev f mu s * pev f (ent D i j) s); last by apply: pev_mul; rewrite e2.
  rewrite mulf_eq0 negb_or => /andP[m0 d0].
  by rewrite [_ * pev f mu s]mulrC -mulf_div divff // mul1r.
- move=> i j hi hj; rewrite eN //; have [_ Hi] := H j hj; have [mu [e1 e2 l0 _]] := Hi i hi.
  have [h3 h4 _] := hprep i j hi hj; rewrite -(mon_size (ml j hj)) -e2 e1; rewrite -(mon_size h3) in h4.
  have m0 : polyhi mu != 0 by apply: contraNneq l0 => e; rewrite -e2 e mul0r.
  have d0 : polyhi (ent D i j) != 0 by apply: contraNneq l0 => e; rewrite -e2 e mulr0.
  have [n0|n0] := eqVneq (polyhi (ent N i j)) 0.
    by rewrite n0 mul0r size_poly0 size_poly_gt0 mulf_neq0.
  rewrite !size_mul //; have := size_poly_gt0 (polyhi mu); rewrite m0; move: h4.
  move: (size (polyhi (ent N i j))) (size (polyhi mu)) (size (polyhi (ent D i j))); clear.
  by move=> a b c; lia.
Qed.

Lemma tts_lcm_total p m N D : lcm_okf lcmf -> (0 < p)%N -> prep p m N D ->
  (forall i j, (i < p)%N -> (j < m)%N -> ent N i j != [::]) ->
  exists x, tts_lcm lcmf N D p m = Ok x.
Proof.
move=> hl hp hprep hN; rewrite /tts_lcm.
have [cols E] : exists cols, seqR [seq tts_lcm_col lcmf N D p col | col <- iota 0 m] = Ok cols.
  apply: seqR_total => j hj; have [l [_ _ h _]] := tts_lcm_colP hl hp hprep hj.
  by have [|ns ->] := h; [move=> i hi; exact: hN | eexists].
rewrite E [bind _ _]/=; have [sd hm H] := tts_lcm_prep hl hp hprep E; rewrite comps_ok // [bind _ _]/=.
set N' := grid p m _; set dens := [seq c.1 | c <- cols] in sd hm H *.
rewrite -/(blkA dens) -/(degs dens); have [a1 a2] := blkA_dims dens.
have [|||C ->] := @fill_cols_tot R N' p (degs dens) (azeros p (nr (blkA dens))) 0 0.
- by rewrite add0n /= a1.
- exact: wfa_mk.
- move=> i z hi; rewrite size_map sd => hz; rewrite add0n ent_grid // nth_degs ?sd //.
  by have [_ Hi] := H z hz; have [mu []] := Hi i hi.
by eexists.
Qed.

Lemma tts_common_total p m N (d : seq R) : (1 < size d)%N -> head 0 d = 1 ->
  (forall i j, (i < p)%N -> (j < m)%N -> (size (ent N i j) <= (size d).-1)%N || (size (ent N i j) == 1%N)) ->
  exists x, tts_common N d p m = Ok x.
Proof.
move=> hd h1 hN; rewrite /tts_common companion_compm ?h1 ?oner_neq0 // [bind _ _]/= eqxx.
have eA : adiag (nseq m (compm d)) = blkA (nseq m d) by rewrite /blkA map_nseq.
have eD : nseq m (size d).-1 = degs (nseq m d) by rewrite /degs map_nseq.
have [a1 a2] := blkA_dims (nseq m d).
rewrite eA eD; have [|||C ->] := @fill_cols_tot R N p (degs (nseq m d)) (azeros p (nr (blkA (nseq m d)))) 0 0.
- by rewrite add0n /= a1.
- exact: wfa_mk.
- by move=> i z hi; rewrite size_map size_nseq => hz; rewrite add0n nth_degs ?size_nseq // nth_nseq hz; exact: hN.
by eexists.
Qed.

End Mimo.
