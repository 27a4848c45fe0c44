(* Properties C33 and C70: state_to_transfer, and the round trip State -> Transfer -> State.
   Notation: evT g K s i j is num_ij(s)/den_ij(s), dfT says that den_ij(s) is not zero (DenoteT.v);
   ev g G s i j is the entry (i,j) of D + C (sI - A)^-1 B and regS says that sI - A is invertible
   (Denote.v); wfT and wfS say that the models are consistent objects.
   The external computations are arguments with the contracts of SpecConvert.v: L plays the complex
   numbers with the embedding f of the reals, re and absL are real part and modulus, eig the eigenvalues
   of the state matrix, tz the zeros of one entry, lsq the least squares solver.  sca, svd stand for
   matrix_balance and the singular value decomposition inside haroldlcm, as in C08. *)
From mathcomp Require Import all_ssreflect all_algebra.
From Verif Require Import Base BaseTheory Spec ModelPoly PolyTheory PolyOps LcmTheory ModelState Denote StateTheory StateProps
  ModelTransfer DenoteT TransferTheory TransferOps TransferProps ConvertTheory ConvertOps ConvertMimo ConvertState PropsConvert
  SpecSim RingTac SpecConvert ModelConvert ConvertTf.

Set Implicit Arguments.
Unset Strict Implicit.
Unset Printing Implicit Defensive.

Import Order.TTheory GRing.Theory Num.Theory.
Local Open Scope ring_scope.

Local Notation Q := rat_realFieldType.

(* column j of B and row i of C, as the arrays handed to the zero computation *)
Definition bcol (R : realFieldType) (G : state R) j : arr R := asubm (sb G) 0 (snn G) j j.+1.
Definition crow (R : realFieldType) (G : state R) i : arr R := asubm (sc G) i i.+1 0 (snn G).
(* det(xI - A) and the numerator of entry (i,j) over it *)
Definition chiS (R : realFieldType) (G : state R) : {poly R} := char_poly (Amx G).
Definition numS (R : realFieldType) (G : state R) i j : {poly R} :=
  numpoly (Amx G) (amx (snn G) 1 (bcol G j)) (amx 1 (snn G) (crow G i)) + get (sd G) i j *: chiS G.

(* ------------------------------------------------------------------ C33 *)
(* every model with states, any shape: a Transfer of the same shape and sampling period comes back, its
   value is that of G at every s that is not an eigenvalue, over every extension of the reals, and entry
   (i,j) is C_i adj(xI - A) B_j + D_ij det(xI - A) over det(xI - A), or 0/1 when that numerator is 0 *)
Theorem C33_dynamic (R : realFieldType) (L : fieldType) (f : {rmorphism R -> L}) re absL eig tz lsq
    (sca : arr R -> seq R) svd (eps : R) (G : state R) :
  re_ok f re -> abs_ok f absL -> lsq_ok lsq ->
  (forall a, sca_ok a (sca a)) -> (forall C, wfa C -> svd_ok C (svd C)) ->
  wfS G -> sgain G = false -> (0 < snn G)%N -> (0 < spn G)%N -> (0 < smn G)%N ->
  eig_ok f (sa G) (eig (sa G)) ->
  (forall i j, (i < spn G)%N -> (j < smn G)%N -> tz_ok f (sa G) (bcol G j) (crow G i) (tz (sa G) (bcol G j) (crow G i))) ->
  exists K, [/\ state_to_transfer f re absL eig tz lsq (haroldlcm sca svd 0) eps G = Ok K,
    wfT K, tshape K = sshape G, tdt K = sdt G &
    forall i j, (i < spn G)%N -> (j < smn G)%N ->
      (if numS G i j == 0 then ent (tn K) i j = [:: 0] /\ ent (td K) i j = [:: 1]
       else polyhi (ent (tn K) i j) = numS G i j /\ polyhi (ent (td K) i j) = chiS G) /\
      forall (L' : fieldType) (g : {rmorphism R -> L'}) (s : L'), regS g G s ->
        dfT g K s i j /\ evT g K s i j = ev g G s i j].
Proof.
move=> h1 h2 h3 h4 h5 w hg n0 p0 m0 he ht.
have [K [E1 E2 E3 E4 E5]] := stt_dynP eps h1 h2 h3 (haroldlcm_okf h4 h5) w hg n0 p0 m0 he ht.
by exists K; split=> // i j hi hj; have [[_ e6] e7] := E5 i j hi hj; split.
Qed.
Print Assumptions C33_dynamic.

(* a static gain with one input and one output, or with several of both, becomes the constant D *)
Theorem C33_gain_partial (R : realFieldType) (L : fieldType) (f : {rmorphism R -> L}) re absL eig tz lsq lcmf (eps : R) (G : state R) :
  wfS G -> sgain G -> (0 < spn G)%N -> (0 < smn G)%N -> (spn G == 1%N) = (smn G == 1%N) ->
  exists K, [/\ state_to_transfer f re absL eig tz lsq lcmf eps G = Ok K, wfT K && tgain K, tshape K = sshape G, tdt K = sdt G &
    forall (L' : fieldType) (g : {rmorphism R -> L'}) (s : L') i j, (i < spn G)%N -> (j < smn G)%N ->
      evT g K s i j = ev g G s i j].
Proof.
move=> w hg p0 m0 e; have hdt := wfS_dt w.
rewrite /state_to_transfer hg (mk_arr_ok _ _ hdt) //; case: ifP => [_|hf]; last first.
  by move: hf p0 m0 e; rewrite /spn /smn; case: (nr (sd G)) => [|[|p]]; case: (nc (sd G)) => [|[|m]].
have rp (h : nat -> nat -> row R) : rect (spn G) (smn G) (grid (spn G) (smn G) h) by exact: rect_grid.
eexists; split; first reflexivity; last first.
- move=> L' g s i j hi hj; rewrite /evT /= !ent_grid // !pev1 rmorph1 divr1 /ev.
  have [n0 _] := wfS_gain w hg; rewrite mxE (_ : \sum_j0 _ = 0) ?addr0 //.
  by apply: big1 => k _; case: k => k; rewrite n0.
- by [].
- by rewrite /tshape /pshape (rect_pshape p0 (rp _)).
have sh : tshape (Tf (grid (nr (sd G)) (nc (sd G)) (fun i j => [:: get (sd G) i j])) (grid (nr (sd G)) (nc (sd G)) (fun _ _ => [:: 1])) true (sdt G)) = (spn G, smn G).
  by rewrite /tshape /pshape (rect_pshape p0 (rp _)).
rewrite /wfT /tp /tm sh p0 m0 !rp (hdt : posdt _) /= !andbT.
rewrite [true == _]eq_sym eqb_id; apply/and3P; split.
- by rewrite (rect_flatten [::] _ (rp _)); apply/all2P => i j hi hj; rewrite gnt_grid //= oner_neq0.
- by apply/all2P => i j hi hj; rewrite !ent_grid // (leq_trans (size_polyhi_le _)).
- by rewrite (rect_flatten [::] _ (rp _)); apply/all2P => i j hi hj; rewrite gnt_grid.
Qed.
Print Assumptions C33_gain_partial.

(* False for the other static gains: one input and several outputs, or the reverse, always fails, since
   the constructor takes a matrix with one row or one column for the coefficients of one polynomial *)
Theorem C33_vector_gain_refuted (R : realFieldType) (L : fieldType) (f : {rmorphism R -> L}) re absL eig tz lsq lcmf (eps : R) (G : state R) :
  wfS G -> sgain G -> (0 < spn G)%N -> (0 < smn G)%N -> (spn G == 1%N) != (smn G == 1%N) ->
  state_to_transfer f re absL eig tz lsq lcmf eps G = Err ValueError.
Proof.
move=> w hg p0 m0 e; rewrite /state_to_transfer hg (mk_arr_ok _ _ (wfS_dt w)) //; case: ifP => // hf.
by move: hf p0 m0 e; rewrite /spn /smn; case: (nr (sd G)) => [|[|p]]; case: (nc (sd G)) => [|[|m]].
Qed.
Print Assumptions C33_vector_gain_refuted.

(* ------------------------------------------------------------------ C70 *)
(* strictly proper models: converting to a Transfer and back returns a model with the transfer matrix of
   G, any shape, whatever the clean-up threshold *)
Theorem C70_round_trip (R : realFieldType) (L : fieldType) (f : {rmorphism R -> L}) re absL eig tz lsq
    (sca : arr R -> seq R) svd (eps : R) (G : state R) :
  re_ok f re -> abs_ok f absL -> lsq_ok lsq ->
  (forall a, sca_ok a (sca a)) -> (forall C, wfa C -> svd_ok C (svd C)) ->
  wfS G -> sgain G = false -> (0 < snn G)%N -> (0 < spn G)%N -> (0 < smn G)%N ->
  eig_ok f (sa G) (eig (sa G)) ->
  (forall i j, (i < spn G)%N -> (j < smn G)%N -> tz_ok f (sa G) (bcol G j) (crow G i) (tz (sa G) (bcol G j) (crow G i))) ->
  (forall i j, (i < spn G)%N -> (j < smn G)%N -> get (sd G) i j = 0) ->
  exists K H, [/\ state_to_transfer f re absL eig tz lsq (haroldlcm sca svd 0) eps G = Ok K,
    transfer_to_state (haroldlcm sca svd 0) eps K = Ok H, wfS H, sshape H = sshape G /\ sdt H = sdt G &
    forall (L' : fieldType) (g : {rmorphism R -> L'}) (s : L'), regS g G s ->
      regS g H s /\ forall i j, (i < spn G)%N -> (j < smn G)%N -> ev g H s i j = ev g G s i j].
Proof.
move=> h1 h2 h3 h4 h5 w hg n0 p0 m0 he ht d0.
have [K [E1 E2 E3 E4 E5]] := stt_dynP eps h1 h2 h3 (haroldlcm_okf h4 h5) w hg n0 p0 m0 he ht.
have sp i j : (i < spn G)%N -> (j < smn G)%N -> (size (ent (td K) i j) == 1)%N && (ent (tn K) i j == [:: 0]) ||
   (size (polyhi (ent (tn K) i j)) < size (ent (td K) i j))%N.
  move=> hi hj; have [[_ e6] _] := E5 i j hi hj; move: e6; case: ifP => _ [-> e] //=; apply/orP; right.
    by rewrite e polyhi1 size_poly0.
  have [_ hd _ _ _] := wfTP E2; have eS : sshape G = (spn G, smn G) by [].
  have {}hd : head 0 (ent (td K) i j) != 0 by apply: hd; rewrite /tp /tm E3.
  have -> : size (ent (td K) i j) = size (polyhi (ent (td K) i j)).
    by rewrite size_polyhi_trim //; case: (ent (td K) i j) hd => //=; rewrite eqxx.
  by rewrite e size_char_poly d0 // scale0r addr0 ltnS size_numpoly.
have tpm : tp K = spn G /\ tm K = smn G by rewrite /tp /tm E3.
have [tpE tmE] := tpm.
have end_ (H : state R) : wfS H -> sshape H = tshape K -> sdt H = tdt K ->
  (forall (L' : fieldType) (g : {rmorphism R -> L'}) (s : L'), (forall i j, (i < tp K)%N -> (j < tm K)%N -> dfT g K s i j) ->
      regS g H s /\ forall i j, (i < tp K)%N -> (j < tm K)%N -> ev g H s i j = evT g K s i j) ->
  transfer_to_state (haroldlcm sca svd 0) eps K = Ok H ->
  exists K H, [/\ state_to_transfer f re absL eig tz lsq (haroldlcm sca svd 0) eps G = Ok K,
    transfer_to_state (haroldlcm sca svd 0) eps K = Ok H, wfS H, sshape H = sshape G /\ sdt H = sdt G &
    forall (L' : fieldType) (g : {rmorphism R -> L'}) (s : L'), regS g G s ->
      regS g H s /\ forall i j, (i < spn G)%N -> (j < smn G)%N -> ev g H s i j = ev g G s i j].
  move=> wH eH tH vH cH; exists K, H; split=> //; first by rewrite eH tH.
  move=> L' g s u; have [|u' v] := vH L' g s.
    by move=> i j; rewrite tpE tmE => hi hj; have [_ /(_ L' g s u) []] := E5 i j hi hj.
  by split=> // i j hi hj; rewrite v ?tpE ?tmE //; have [_ /(_ L' g s u) [_ ->]] := E5 i j hi hj.
case hk: (tgain K).
  have [|H [F1 /andP[F2 F2'] F3 F4 F5]] := @C31_gain R (haroldlcm sca svd 0) eps K E2 hk.
    move=> i j; rewrite tpE tmE => hi hj; case/orP: (sp i j hi hj) => [/andP[_ /eqP->] //|].
    have [_ _ _ e _] := wfTP E2; move: e; rewrite hk => /esym/all2P/(_ i j); rewrite tpE tmE => /(_ hi hj)/eqP->.
    rewrite ltnS leqn0 size_poly_eq0; have [[t _] _] := E5 i j hi hj => /eqP p00.
    case/orP: t => [/eqP-> //|]; case: (ent _ _ _) p00 => [|x l]; first by rewrite eqxx.
    move=> p00 /= x0; have := congr1 (fun q : {poly R} => q`_(size l)) p00.
    by rewrite coef_polyhi /= coef0 ltnS leqnn subnn /= => /eqP; rewrite (negbTE x0).
  apply: end_ F1 => // L' g s _; split=> [|i j hi hj]; last exact: F5.
  by apply: regS_n0; have [-> _] := wfS_gain F2 F2'.
have [hS|hS] := boolP (tSISO K).
  have [p1 m1] : tp K = 1%N /\ tm K = 1%N by move: hS; rewrite wfT_siso // => /andP[/eqP ? /eqP].
  have [|H [F1 F2 F3 F4 [_ F5]]] := @C31_siso_strictly_proper R (haroldlcm sca svd 0) eps K E2 hS hk.
    have [_ hd _ _ _] := wfTP E2; have {}hd : head 0 (ent (td K) 0 0) != 0 by apply: hd; rewrite ?p1 ?m1.
    have -> : size (polyhi (ent (td K) 0 0)) = size (ent (td K) 0 0).
      by rewrite size_polyhi_trim //; case: (ent (td K) 0 0) hd => //=; rewrite eqxx.
    case/orP: (sp 0%N 0%N p0 m0) => // /andP[e1 /eqP->]; rewrite (eqP e1) /=.
    by rewrite polyhi1 size_poly0.
  apply: end_ F1 => //; first by rewrite F3; move: p1 m1; rewrite /tp /tm; case: (tshape K) => x y /= -> ->.
  move=> L' g s hs; have [|u v] := F5 L' g s; first by apply: hs; rewrite ?p1 ?m1.
  by split=> // i j; rewrite p1 m1 !ltnS !leqn0 => /eqP-> /eqP->.
have [|H F1] := @C32_mimo_returns_partial R sca svd eps K h4 h5 E2 hS hk.
  move=> i j hi hj; have [_ hd hc _ _] := wfTP E2; apply: tidy_slim; [|exact: hd|exact: hc].
  by rewrite tpE in hi; rewrite tmE in hj; have [[]] := E5 i j hi hj.
have [|F2 F3 F4 F5] := C32_mimo_partial h4 h5 E2 hS hk _ F1; last exact: end_ F1.
move=> i j; rewrite tpE tmE => hi hj d1 e; case/orP: (sp i j hi hj) => [/andP[/eqP e1 _]|].
  by rewrite e1 in d1.
by rewrite e ltnn.
Qed.
Print Assumptions C70_round_trip.

(* (2s + 3)/((s + 1)(s + 2)) with exact eigenvalues and zeros meets every hypothesis *)
Definition gA : arr Q := qa [:: [:: -1; 0]; [:: 0; -2%:Q]].
Definition gB : arr Q := qa [:: [:: 1]; [:: 1]].
Definition gC : arr Q := qa [:: [:: 1; 1]].
Definition sG : state Q := St gA gB gC (qa [:: [:: 0]]) false (Some 10%:Q^-1).
Definition slsq (R : realFieldType) (A b : arr R) : arr R := amul (ainv A) b.

Lemma slsq_ok (R : realFieldType) : lsq_ok (@slsq R).
Proof.
move=> n A b [a1 a2] [b1 b2] u; split; first by rewrite /shp /slsq /= a1 b2.
have dA : adet A != 0 by rewrite unit_adet in u.
have e : np_solve A b = Ok (slsq A b) by rewrite (np_solveP a1 a2 b1 b2) (negbTE dA).
by have [_ _ _ u' ->] := np_solve_ok [rmorphism of @idfun R] a1 b2 e; rewrite mulmxA mulmxV // mul1mx.
Qed.

Section ExGen.
Variable R : realFieldType.
Variables a b c1 c2 b1 b2 : R.
Let A : arr R := of_rows [:: [:: a; 0]; [:: 0; b]].
Let B : arr R := of_rows [:: [:: b1]; [:: b2]].
Let C : arr R := of_rows [:: [:: c1; c2]].

Lemma ex_eig : eig_ok [rmorphism of @idfun R] A [:: a; b].
Proof.
rewrite /eig_ok map_poly_id // char_poly_trig.
  by rewrite !big_cons big_nil big_ord_recl big_ord1 !mxE /= mulr1.
apply/is_trig_mxP => i j; rewrite mxE; case: i => [[|[|i]]] //= hi; case: j => [[|[|j]]] //= hj _.
Qed.

Lemma ex_tz : b1 * c1 + b2 * c2 != 0 ->
  tz_ok [rmorphism of @idfun R] A B C [:: (b1 * c1 * b + b2 * c2 * a) / (b1 * c1 + b2 * c2)].
Proof.
move=> h; set k := b1 * c1 + b2 * c2; set z := _ / _; exists k, ('X - z%:P); split.
  by rewrite big_seq1 map_poly_id.
rewrite /numpoly !mxE !big_ord_recl big_ord0 !mxE !big_ord_recl !big_ord0 !mxE /=.
rewrite /cofactor !det_mx11 !mxE /= !addr0 ?addn0.
change (((c1%:P * ((-1) ^+ 0 * ('X *+ 1 - b%:P)) + c2%:P * ((-1) ^+ 1 * ('X *+ 0 - 0%:P))) * b1%:P
  + (c1%:P * ((-1) ^+ 1 * ('X *+ 0 - 0%:P)) + c2%:P * ((-1) ^+ 2 * ('X *+ 1 - a%:P))) * b2%:P = k *: ('X - z%:P) :> {poly R})).
have kz : k%:P * z%:P = (b1%:P * c1%:P * b%:P + b2%:P * c2%:P * a%:P) :> {poly R}.
  by rewrite -!rmorphM -rmorphD /= /z mulrCA divff // mulr1.
have -> : k *: ('X - z%:P) = k%:P * 'X - k%:P * z%:P by rewrite -mul_polyC mulrBr.
rewrite kz !mulr0n subr0 !mulr0 !addr0 add0r expr0 mul1r !mulr1n sqrrN expr1n mul1r /k rmorphD !rmorphM /=.
move: 'X (a%:P) (b%:P) (c1%:P) (c2%:P) (b1%:P) (b2%:P) => x A1 A2 A3 A4 A5 A6; by mc_ring (poly_comRingType R).
Qed.
End ExGen.

Example C33_ex : [/\ re_ok [rmorphism of @idfun Q] id, abs_ok [rmorphism of @idfun Q] (fun x => `|x|), lsq_ok (@slsq Q),
  wfS sG && ~~ sgain sG && (snn sG == 2%N) && (sshape sG == (1, 1)%N) &
  eig_ok [rmorphism of @idfun Q] (sa sG) [:: -1; -2%:Q] /\
  tz_ok [rmorphism of @idfun Q] (sa sG) (bcol sG 0) (crow sG 0) [:: -3%:Q / 2%:Q]].
Proof.
split=> //; first exact: slsq_ok.
split; first exact: ex_eig.
have -> : bcol sG 0 = gB by apply/aeqP; vm_compute; reflexivity.
have -> : crow sG 0 = gC by apply/aeqP; vm_compute; reflexivity.
have -> : -3%:Q / 2%:Q = (1 * 1 * -2%:Q + 1 * 1 * -1) / (1 * 1 + 1 * 1) :> Q by apply/eqP; vm_compute.
by apply: ex_tz; vm_compute.
Qed.
Example C33_ex_value :
  (if state_to_transfer [rmorphism of @idfun Q] id (fun x => `|x|) (fun _ => [:: -1; -2%:Q]) (fun _ _ _ => [:: -3%:Q / 2%:Q])
     (@slsq Q) exl (1 / 100%:~R) sG is Ok K
   then (tn K == [:: [:: [:: 2%:Q; 3%:Q]]]) && (td K == [:: [:: [:: 1; 3%:Q; 2%:Q]]]) && (tdt K == Some 10%:Q^-1) else false).
Proof. by vm_compute. Qed.
(* gains: 7 is converted, [2 3] is not *)
Definition vgain : state Q := St (e00 Q) (e00 Q) (e00 Q) (qa [:: [:: 2%:Q; 3%:Q]]) true None.
Example C33_ex_gain : wfS exK && sgain exK && (sshape exK == (1, 1)%N) && wfS vgain && sgain vgain && (sshape vgain == (1, 2)%N).
Proof. by vm_compute. Qed.
Example C70_ex : get (sd sG) 0 0 == 0.
Proof. by vm_compute. Qed.
