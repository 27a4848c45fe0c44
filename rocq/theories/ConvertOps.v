(* transfer_to_state, single input single output. *)
From mathcomp Require Import all_ssreflect all_algebra zify.
From Verif Require Import Base BaseTheory Spec ModelPoly PolyTheory PolyOps LcmTheory ModelState Denote StateTheory
  ModelTransfer DenoteT TransferTheory TransferOps ConvertTheory.

Set Implicit Arguments.
Unset Strict Implicit.
Unset Printing Implicit Defensive.

Import Order.TTheory GRing.Theory Num.Theory.
Local Open Scope ring_scope.

Lemma lt_pred a b : (a < b)%N -> (a <= b.-1)%N. Proof. by case: b. Qed.

Lemma quot_const (F : fieldType) (q d r : {poly F}) : (size r < size d)%N -> size (q * d + r) = size d -> size q = 1%N.
Proof.
move=> hr hs; have d0 : d != 0 by rewrite -size_poly_gt0; apply: leq_ltn_trans hr.
have [q0|q0] := eqVneq q 0; first by move: hs hr; rewrite q0 mul0r add0r => ->; rewrite ltnn.
have sq : (0 < size q)%N by rewrite size_poly_gt0.
have sd : (0 < size d)%N by rewrite size_poly_gt0.
have sm := size_mul q0 d0.
have : (size r < size (q * d)%R)%N by rewrite sm; move: hr sq sd; case: (size q) => // k hr _ _; rewrite addSn /=; apply: leq_trans hr _; rewrite leq_addl.
move/size_addl; rewrite hs sm; move: sq sd; case: (size q) => // k _; case: (size d) => // l _.
by rewrite addSn /= addnS => -[] /eqP; rewrite -{1}[l]add0n eqn_add2r => /eqP <-.
Qed.

Section Siso.
Variable R : realFieldType.
Implicit Types (num den : seq R) (G : tf R).

(* no nonzero coefficient is smaller than eps in absolute value *)
Definition above (eps : R) (P : {poly R}) : Prop := forall k, P`_k = 0 \/ eps <= `|P`_k|.

Lemma clean_above eps (r : seq R) : above eps (polyhi r) -> clean eps r = r.
Proof.
move=> h; rewrite /clean -[RHS]map_id; apply/eq_in_map => x /(nthP 0)[i hi <-].
have := h (size r - i.+1)%N; rewrite coef_polyhi (_ : (_ < _)%N); last by move: hi; slia R.
rewrite (_ : (_ - _.+1)%N = i); last by move: hi; slia R.
case=> [->|/le_gtF -> //]; by rewrite if_same.
Qed.

Lemma comp_tf (L : fieldType) (f : {rmorphism R -> L}) den s (n := (size den).-1) (c : nat -> L) num :
  head 0 den != 0 -> pev f den s != 0 -> (size (polyhi num) <= n)%N ->
  (forall t, (t < n)%N -> c t = f (nth 0 (rev num) t)) ->
  ((\row_(k < n) c k) *m invmx (s%:M - mxof f n n (compm den)) *m elast L n) 0 0 =
  pev f num s * f (head 0 den) / pev f den s.
Proof.
move=> h0 hs hn hc; have hu := comp_unit h0 hs.
have e : elast L n = (s%:M - mxof f n n (compm den)) *m ((f (head 0 den) / pev f den s) *: pows n s).
  by rewrite -scalemxAr comp_pows // scalerA mulrA mulfVK // divff ?fmorph_eq0 // scale1r.
rewrite e -mulmxA mulKmx // -scalemxAr mxE mulrC -mulrA; congr (_ * _).
rewrite (@pevEp _ _ f num s n) // mxE; apply: eq_bigr => t _; by rewrite !mxE hc.
Qed.

Lemma polyhi_divs (c : R) (p : seq R) : polyhi [seq x / c | x <- p] = c^-1 *: polyhi p.
Proof. by rewrite -polyhi_scale; congr polyhi; apply: eq_map => x; rewrite mulrC. Qed.
Lemma pev_divs (L : fieldType) (f : {rmorphism R -> L}) (c : R) (p : seq R) s : pev f [seq x / c | x <- p] s = pev f p s / f c.
Proof. by rewrite /pev polyhi_divs map_polyZ hornerZ fmorphV mulrC. Qed.

(* what the SISO branch returns *)
Variable eps : R.

Definition remS num den : {poly R} := (lead_coef (polyhi den))^-1 *: (polyhi num %% polyhi den).

Lemma modpZl' (a : R) (p q : {poly R}) : (a *: p) %% q = a *: (p %% q).
Proof. exact: modpZl. Qed.

Lemma tts_siso_val num den : head 0 den != 0 -> (1 < size den)%N -> (size (polyhi num) <= size den)%N ->
  (size (polyhi num) = size den -> above eps (remS num den)) ->
  exists x, tts_siso eps num den = Ok x /\
  ((exists q, x = (None, None, None, row_of [:: q]) /\ polyhi num = q *: polyhi den) \/
   (exists (C : arr R) q r,
      [/\ x = (Some (compm den), Some (mk (size den).-1 1 (fun i _ => (i == (size den).-2)%:R)), Some C, row_of [:: q]),
          [/\ wfa C, nr C = 1%N & nc C = (size den).-1],
          polyhi num = q *: polyhi den + (head 0 den) *: polyhi r,
          (size (polyhi r) <= (size den).-1)%N &
          forall t, (t < (size den).-1)%N -> get C 0 t = nth 0 (rev r) t])).
Proof.
move=> h0 h1 hn ha; rewrite /tts_siso (companion_compm h0 h1) /= eqxx.
have td : trimf den = den by rewrite trimf_id //; case: (den) h0 => //=; rewrite eqxx.
rewrite td !size_map size_trimf.
have W (r : seq R) : (size r < size den)%N ->
  exists C, [/\ awrite (azeros 1 (size den).-1) 0 0 (rev r) = Ok C, wfa C, nr C = 1%N, nc C = (size den).-1 &
   forall t, (t < (size den).-1)%N -> get C 0 t = nth 0 (rev r) t].
  move=> hr; rewrite /awrite size_rev add0n /= (_ : (size r <= _)%N) /=; last by move: hr h1; slia R.
  eexists; split=> //; first exact: wfa_mk.
  move=> t ht; rewrite get_mk //= get_mk // subn0; case: ltnP => // hr'.
  by rewrite nth_default // size_rev.
have hd1 : size (polyhi den) = size den by rewrite size_polyhi_trim //; case: (den) h0 => //=; rewrite eqxx.
have lc : lead_coef (polyhi den) = head 0 den by case: (den) h0 => [|c d] /=; rewrite ?eqxx // => c0; rewrite lead_coef_polyhi.
case: ifP => hlt.
  have [|C [-> wC c1 c2 hC]] := W [seq x / head 0 den | x <- trimf num]; first by rewrite size_map size_trimf.
  eexists; split; first reflexivity; right.
  exists C, 0, [seq x / head 0 den | x <- trimf num]; split=> //.
  - by rewrite polyhi_divs polyhi_trimf scale0r add0r scalerA divff // scale1r.
  - rewrite polyhi_divs size_scale ?invr_eq0 // polyhi_trimf; exact: lt_pred hlt.
have hsz : size (polyhi num) = size den by apply/eqP; rewrite eqn_leq hn leqNgt hlt.
set den' := [seq x / head 0 den | x <- den].
have hd' : nth 0 den' 0 != 0.
  by rewrite /den'; case: (den) h0 => [|c d] /= c0; rewrite ?divff ?oner_neq0 //; rewrite eqxx in c0.
set num' := [seq x / head 0 den | x <- trimf num].
have [q [r [-> e hr /andP[hq hr1]]]] := polydivP num' hd'.
have pn : polyhi num' = (head 0 den)^-1 *: polyhi num by rewrite polyhi_divs polyhi_trimf.
have pd : polyhi den' = (head 0 den)^-1 *: polyhi den by rewrite polyhi_divs.
have er : polyhi r = remS num den.
  rewrite /remS lc; have := congr1 (fun P => P %% polyhi den') e; rewrite modpD modp_mull add0r (modp_small hr).
  by rewrite pn pd modpZl modpZr ?invr_eq0 // => <-.
rewrite /= clean_above; last by rewrite er; exact: ha.
have sq : size q = 1%N.
  have sd : size (polyhi den') = size den by rewrite pd size_scale ?invr_eq0.
  rewrite -(size_polyhi_trim hq); apply: (quot_const hr).
  by rewrite -e pn size_scale ?invr_eq0 // hsz sd.
case: q sq hq e => [|q0 []] // _ hq e; rewrite polyhi1 mul_polyC in e.
have en : polyhi num = q0 *: polyhi den + head 0 den *: polyhi r.
  have : polyhi num = head 0 den *: polyhi num' by rewrite pn scalerA divff // scale1r.
  by move->; rewrite e scalerDr pd !scalerA mulrAC divff // mul1r.
case: ifP => hs.
  eexists; split; first reflexivity; left; exists q0; split=> //.
  by move: en; rewrite (eqP (_ : r == [::])) ?polyhi_nil ?scaler0 ?addr0 // -size_eq0.
have [|C [-> wC c1 c2 hC]] := W r.
  by rewrite -(size_polyhi_trim hr1) (leq_trans hr) // pd size_scale ?invr_eq0 // hd1.
eexists; split; first reflexivity; right; exists C, q0, r; split=> //.
move: hr; rewrite pd size_scale ?invr_eq0 // hd1; exact: lt_pred.
Qed.

Variable lcmf : seq (row R) -> res (row R * seq (row R)).

Lemma pos_dt (dt : option R) : posdt dt = dt_ok dt. Proof. by []. Qed.

Lemma frac_split (L : fieldType) (a q c r d : L) : d != 0 -> a = q * d + c * r -> q + r * c / d = a / d.
Proof. by move=> d0 ->; rewrite mulrDl mulfK // [r * c]mulrC. Qed.

Lemma tts_sisoP G : wfT G -> tSISO G -> tgain G = false ->
  (size (polyhi (ent (tn G) 0 0)) = size (ent (td G) 0 0) -> above eps (remS (ent (tn G) 0 0) (ent (td G) 0 0))) ->
  exists K, [/\ transfer_to_state lcmf eps G = Ok K, wfS K, sshape K = (1, 1)%N, sdt K = tdt G &
    (snn K <= (size (ent (td G) 0 0)).-1)%N /\
    forall (L : fieldType) (f : {rmorphism R -> L}) (s : L), dfT f G s 0 0 ->
      regS f K s /\ ev f K s 0 0 = evT f G s 0 0].
Proof.
move=> w hS hg ha; case: (wfTP w) => -[hp hm rN rD] hd hc hgain hdt.
have [p1 m1] : tp G = 1%N /\ tm G = 1%N by move: hS; rewrite wfT_siso // => /andP[/eqP ? /eqP].
set num := ent (tn G) 0 0 in ha *; set den := ent (td G) 0 0 in ha *.
have h0 : head 0 den != 0 by apply: hd; rewrite ?p1 ?m1.
have h1 : (1 < size den)%N.
  move: hgain; rewrite hg p1 m1 /= !andbT -/den; case: (den) h0 => [|c [|]] //=; by rewrite eqxx.
have hn : (size (polyhi num) <= size den)%N by apply: hc; rewrite ?p1 ?m1.
have [x [E H]] := tts_siso_val h0 h1 hn ha.
rewrite /transfer_to_state /tts_abcd hg -/(tSISO G) hS -/num -/den E.
case: H => [[q [-> eq]]|[C [q [r [-> [wC c1 c2] en hr hC]]]]].
  rewrite /= /mk_state /= StateTheory.check_dt_ok; last exact: hdt.
  eexists; split; [reflexivity| |by []|by []|].
    by apply: wfS_mkgain => //; exact: wfa_mk.
  split=> // L f s hs; split; first exact: regS_n0.
  rewrite ev_n0 //= get_mk //= /evT -/num -/den.
  have -> : pev f num s = f q * pev f den s by rewrite /pev eq map_polyZ hornerZ.
  by rewrite mulfK.
set B := mk _ 1 _; rewrite [bind _ _]/=.
rewrite -/(mkS (compm den) B C (row_of [:: q]) (tdt G)) mkS_ok //.
eexists; split; [reflexivity| |by []|by []|].
  by apply: wfS_mk => //; exact: wfa_mk.
split=> // L f s hs; split; first exact: comp_unit.
rewrite /ev /snn [nr _]/= [sd _]/= [sb _]/= [sc _]/= [sa _]/=.
have -> : \col_(k < (size den).-1) f (get B k 0) = elast L (size den).-1.
  apply/colP => k; rewrite !mxE get_mk // rmorph_nat; congr (_%:R).
  by have := ltn_ord k; move: (nat_of_ord k) => k' hk; rewrite -eqSS prednK //; move: hk; slia R.
rewrite (@comp_tf L f den s (fun k => f (get C 0 k)) r) //; last by move=> t ht; rewrite hC.
rewrite get_mk //= /evT -/num -/den; apply: frac_split => //.
by rewrite /pev en rmorphD hornerD /= !map_polyZ !hornerZ.
Qed.

(* static gains *)
Lemma tts_gainP G : wfT G -> tgain G ->
  (forall i j, (i < tp G)%N -> (j < tm G)%N -> size (ent (tn G) i j) = 1%N) ->
  exists K, [/\ transfer_to_state lcmf eps G = Ok K, wfS K && sgain K, sshape K = tshape G, sdt K = tdt G &
    forall (L : fieldType) (f : {rmorphism R -> L}) (s : L) i j, (i < tp G)%N -> (j < tm G)%N ->
      ev f K s i j = evT f G s i j].
Proof.
move=> w hg hn; case: (wfTP w) => -[hp hm rN rD] hd hc hgain hdt.
rewrite /transfer_to_state /tts_abcd hg /tts_gain -/(tshape G) [tshape G]surjective_pairing -/(tp G) -/(tm G).
have sd i j : (i < tp G)%N -> (j < tm G)%N -> size (ent (td G) i j) = 1%N.
  by move=> hi hj; move: hgain; rewrite hg => /esym/all2P h; apply/eqP; exact: h.
rewrite /arrR (@gridR_tot _ _ _ _ (fun i j => head 0 (ent (tn G) i j) / head 0 (ent (td G) i j))); last first.
  by move=> i j hi hj; rewrite /div11 hn // sd // eqxx /= hd.
rewrite /= mkGain_ok //; eexists; split; [reflexivity| |by []|by []|].
  rewrite andbT; apply: wfS_mkgain => //; exact: wfa_mk.
move=> L f s i j hi hj; rewrite ev_n0 //= /get /= -/(gnt 0 _ i j) gnt_grid // /evT.
have := hn i j hi hj; have := sd i j hi hj; case: (ent (tn G) i j) => [|a []] //; case: (ent (td G) i j) => [|b []] //= _ _.
by rewrite !pev1 fmorph_div.
Qed.

End Siso.
