(* Lemmas on the data of the frequency plots. *)
From mathcomp Require Import all_ssreflect all_algebra zify.
From Coq Require Import String.
From Verif Require Import Base BaseTheory ModelState ModelTransfer ModelFreq SpecFreq ModelGrid ModelPlots SpecPlots.

Set Implicit Arguments.
Unset Strict Implicit.
Unset Printing Implicit Defensive.

Import Order.TTheory GRing.Theory Num.Theory.
Local Open Scope ring_scope.

Lemma collectP (A B : Type) (F : A -> res B) s r (x0 : A) (y0 : B) : collect F s = Ok r ->
  size r = size s /\ forall k, (k < size s)%N -> F (nth x0 s k) = Ok (nth y0 r k).
Proof.
elim: s r => [|x s IH] r /=; first by case=> <-.
case E: (F x) => [y|] //=; case E': (collect F s) => [r'|] //= [<-]; have [h1 h2] := IH _ E'.
by rewrite /= h1; split=> // -[|k] //= /h2.
Qed.
Lemma collect_ok (A B : Type) (F : A -> res B) s (x0 : A) : (forall k, (k < size s)%N -> exists y, F (nth x0 s k) = Ok y) ->
  exists r, collect F s = Ok r.
Proof.
elim: s => [|x s IH] h /=; first by exists [::].
have [y /= ->] := h 0%N isT; have [|r ->] := IH; first by move=> k hk; exact: (h k.+1).
by exists (y :: r).
Qed.
Lemma collect_err (A B : Type) (F : A -> res B) s e : (exists k (x0 : A), [/\ (k < size s)%N, F (nth x0 s k) = Err e &
   forall l, (l < k)%N -> exists y, F (nth x0 s l) = Ok y]) -> collect F s = Err e.
Proof.
elim: s => [|x s IH] [k [x0 [hk he hl]]] //=; case: k hk he hl => [|k] hk he hl; first by rewrite he.
have [y ->] := hl 0%N isT; rewrite [bind _ _]/= IH //; exists k, x0; split=> // l h; exact: (hl l.+1).
Qed.

Lemma nth_flat (T : Type) (x0 : T) (ss : seq (seq T)) j k : (k < size (nth [::] ss j))%N ->
  nth x0 (flatten ss) (sumn [seq size c | c <- take j ss] + k) = nth x0 (nth [::] ss j) k.
Proof.
elim: ss j => [|s ss IH] [|j] //= h; first by rewrite add0n nth_cat h.
by rewrite -addnA nth_cat ltnNge leq_addr /= addKn IH.
Qed.
Lemma size_flat_pos (T : Type) (ss : seq (seq T)) j k : (k < size (nth [::] ss j))%N ->
  (sumn [seq size c | c <- take j ss] + k < size (flatten ss))%N.
Proof.
elim: ss j => [|s ss IH] [|j] //= h; rewrite size_cat; first by rewrite add0n (leq_trans h) ?leq_addr.
by rewrite -addnA ltn_add2l IH.
Qed.
Lemma flatten2 (T : Type) (sss : seq (seq (seq T))) : flatten (flatten sss) = flatten [seq flatten ss | ss <- sss].
Proof. by elim: sss => //= s sss IH; rewrite flatten_cat IH. Qed.

Lemma nth_flat2 (T : Type) (x0 : T) (fre : seq (seq (seq T))) i j k :
  let c := nth [::] (nth [::] fre i) j in (k < size c)%N ->
  let pos := (sumn [seq sumn [seq size c | c <- row] | row <- take i fre] + sumn [seq size c | c <- take j (nth [::] fre i)])%N in
  nth x0 (flatten (flatten fre)) (pos + k) = nth x0 c k /\ (pos + k < size (flatten (flatten fre)))%N.
Proof.
move=> c hk pos; rewrite flatten2.
have e : sumn [seq sumn [seq size c | c <- row] | row <- take i fre] = sumn [seq size d | d <- take i [seq flatten ss | ss <- fre]].
  by rewrite -map_take -map_comp; congr sumn; apply: eq_map => x /=; rewrite size_flatten.
have h : (sumn [seq size c | c <- take j (nth [::] fre i)] + k < size (nth [::] [seq flatten ss | ss <- fre] i))%N.
  have [hi|hi] := ltnP i (size fre); first by rewrite (nth_map [::]) //; exact: size_flat_pos.
  by move: hk; rewrite /c (nth_default _ hi) nth_nil.
rewrite /pos e -addnA; split; last exact: size_flat_pos.
rewrite nth_flat //; have [hi|hi] := ltnP i (size fre); first by rewrite (nth_map [::]) // nth_flat.
by move: hk; rewrite /c (nth_default _ hi) nth_nil.
Qed.

Lemma pmap_count (T : Type) (x0 : T) (s : seq (option T)) q x : nth None s q = Some x ->
  (count isSome (take q s) < size (pmap id s))%N /\ nth x0 (pmap id s) (count isSome (take q s)) = x.
Proof.
elim: s q => [|[y|] s IH] [|q] //=; first by case=> ->.
  by move=> /IH[h1 h2]; rewrite add1n ltnS.
by move=> /IH.
Qed.

Section Bode.
Variables (R : realFieldType) (L : fieldType) (pi scale unit_ : R) (log10 : R -> R) (cmod angle : L -> R).
Variables (unwrap : seq R -> seq R) (junk : nat -> R).
Hypothesis hu : unwrap_like pi unwrap.
Implicit Types (fre : seq (seq (seq (option L)))).
Local Notation phases := (phases unit_ angle unwrap junk).
Local Notation magn := (magn log10 scale cmod).

Lemma magnP v : shown_mag scale log10 cmod v (magn v).
Proof. by rewrite /shown_mag /magn; case: v => //= x; case: eqP. Qed.

Lemma pmap_all (s : seq (option L)) : has (fun v => ~~ isSome v) s = false -> s = map Some (pmap id s).
Proof. by elim: s => [|[x|] s IH] //= /IH {1}->. Qed.

Lemma phasesP fre i j : let c := samples fre i j in size (phases fre i j) = size c /\
  (forall k, (k < size c)%N -> shown_phase pi unit_ angle (sample fre i j k) (nth None (phases fre i j) k)) /\
  (clean fre -> (forall x, sample fre i j 0 = Some x -> nth None (phases fre i j) 0 = Some (unit_ * angle x)) /\
     forall k, (k.+1 < size c)%N -> exists y y', [/\ nth None (phases fre i j) k = Some (unit_ * y),
       nth None (phases fre i j) k.+1 = Some (unit_ * y') & `|y' - y| <= pi]).
Proof.
move=> c; rewrite /ModelPlots.phases; set flat := [seq denan v | v <- _].
have fl k : (k < size c)%N -> let pos := (sumn [seq sumn [seq size c | c <- row] | row <- take i fre] + sumn [seq size c | c <- take j (nth [::] fre i)])%N in
    nth None flat (pos + k) = denan (nth None c k).
  move=> hk pos; have [h1 h2] := nth_flat2 None hk; by rewrite /flat (nth_map None) // h1.
case: ifP => hn.
  split; first by rewrite size_map size_mkseq.
  split; last first.
    move=> hc; exfalso; move: hn => /hasP[v]; rewrite /flat => /mapP[v' hv' ->].
    move: hv' => /flattenP[ch /flattenP[row /(nthP [::])[i' _ ei] /(nthP [::])[j' _ ej]] /(nthP None)[k' hk' ek]].
    have := hc i' j' k'; rewrite /sample /samples ei ej => /(_ hk')[x].
    by rewrite ek => -> x0 /=; rewrite (negbTE x0).
  move=> k hk; rewrite (nth_map 0) ?size_mkseq // nth_mkseq //; have := fl k hk; rewrite /=.
  set q := (_ + k)%N; rewrite /sample -/(samples fre i j) -/c; case: (nth None c k) => [x|] //= ; case: eqP => // x0 e _.
  rewrite e; have [h1 h2] := pmap_count 0 e; set u := map angle _.
  have [_ _ /(_ (count isSome (take q flat))) h _] := hu u; have [|z ->] := h; first by rewrite size_map.
  by exists z; rewrite (nth_map 0) // h2.
have ec : c = map Some (pmap id c) /\ pmap id c = pmap id [seq denan v | v <- c].
  have hc v : v \in c -> denan v = v /\ isSome v.
    move=> /(nthP None)[k hk ek]; have := fl _ hk; rewrite /= ek => e.
    have : isSome (denan v).
      apply/negPn/negP => h0; move/negbT: hn => /hasPn hn; have := hn (denan v); rewrite h0 => h1.
      have [_ h2] := nth_flat2 None hk; suff /h1 : denan v \in flat by [].
      by rewrite -e mem_nth // size_map.
    by case: v {ek e} => //= x; case: eqP.
  have -> : [seq denan v | v <- c] = c by rewrite -[RHS]map_id; apply/eq_in_map => v /hc[].
  by split=> //; apply: pmap_all; apply/negbTE/hasPn => v /hc[_ ->].
rewrite -/(chan fre i j) -[chan fre i j]/c; set s := pmap id c; set a := map angle s.
have [u1 u2 u3 u4] := hu a; have ecs : c = map Some s by case: ec.
have sa : size a = size c by rewrite ecs !size_map.
have sc k : (k < size c)%N -> nth None c k = Some (nth 0 s k) by move=> hk; rewrite {1}ecs (nth_map 0) //; rewrite -sa size_map in hk.
split; first by rewrite size_map u1.
split=> [k hk|hc]; first rewrite /sample -/(samples fre i j) -/c sc //= => _.
  have [|z ez] := u3 k; rewrite ?sa //; exists z; rewrite (nth_map 0) ?u1 ?sa // ez (nth_map 0) //; by rewrite -sa size_map in hk.
split=> [x|k hk].
  rewrite /sample -/(samples fre i j) -/c; case: (posnP (size c)) => [/size0nil-> //|h0]; rewrite sc // => -[<-].
  rewrite (nth_map 0) ?u1 ?sa // nth0 u2 -nth0 (nth_map 0) //; by rewrite -sa size_map in h0.
exists (nth 0 (unwrap a) k), (nth 0 (unwrap a) k.+1); rewrite !(nth_map 0) ?u1 ?sa //; last exact: ltnW.
by split=> //; apply: u4; rewrite sa.
Qed.
End Bode.
