(* Properties C36-C40: discretisation and undiscretisation of State models.
   regS / evalS: poles and transfer matrix of a State (Denote.v).  same_value, value_at_inf, sampled,
   dscale, balances, exp_like, log_like, zohM, fohM: DenoteD.v.  The numerical primitives (square root,
   tangent, pi, matrix exponential and logarithm, balancing, the eigenvalue test) are
   quantified over; what is needed of them is a hypothesis. *)
From mathcomp Require Import all_ssreflect all_algebra.
From Coq Require Import String.
From Verif Require Import Base BaseTheory Spec ModelState Denote StateTheory StateProps ModelObject ModelDiscrete DenoteD DiscreteTheory.

Set Implicit Arguments.
Unset Strict Implicit.
Unset Printing Implicit Defensive.

Import Order.TTheory GRing.Theory Num.Theory.
Local Open Scope ring_scope.

Ltac ck := lazymatch goal with |- @eq bool _ true => by vm_compute | |- is_true _ => by vm_compute | |- _ = _ => by apply/eqP; vm_compute end.

(* ------------------------------------------------------------------ C36 *)
(* tustin: s = (2 / dt) (z - 1) / (z + 1); at z = -1 the model takes its value at infinity *)
Theorem C36_tustin (R : realFieldType) (sq tn : R -> R) (pi : R) expm bal (G : state R) (dt : R) (meth : string) q0 :
  wfS G -> sgain G = false -> sdt G = None -> 0 < dt -> sq dt ^+ 2 = dt ->
  str_in meth [:: "tustin"; "bilinear"]%string ->
  adet (asub (aeye (snn G)) (ascale (dt / 2%:R) (sa G))) != 0 ->
  exists o, [/\ discretize sq tn pi expm bal G dt meth 0 q0 = Ok o, sampled G dt meth o &
   forall (L : fieldType) (f : {rmorphism R -> L}) (z : L),
    (z + 1 != 0 -> same_value f G (dst o) z (2%:R / f dt * ((z - 1) / (z + 1)))) /\
    (z + 1 = 0 -> value_at_inf f G (dst o) z)].
Proof. exact: tustinP. Qed.
Print Assumptions C36_tustin.

Definition idq (x : Q) : Q := x.
Definition q4 : Q := 4%:R^-1.
Definition sq4 (x : Q) : Q := if x == q4 then 2%:R^-1 else 0.
Example C36_tustin_example (tn : rat -> rat) (pi : rat) expm bal :
  exists o, discretize sq4 tn pi expm bal exM q4 "tustin" 0 None = Ok o
    /\ sampled exM q4 "tustin" o.
Proof.
have [||||||| o [h1 h2 _]] := @C36_tustin Q sq4 tn pi expm bal exM q4 "tustin" None.
1-7: ck.
by exists o; split; [exact: h1 | exact: h2].
Qed.

(* prewarped tustin: s = w / tan(w dt / 2) (z - 1) / (z + 1) with w = 2 pi prewarp_at *)
Theorem C36_prewarp (R : realFieldType) (sq tn : R -> R) (pi : R) expm bal (G : state R) (dt pw : R) (meth : string) q0 :
  wfS G -> sgain G = false -> sdt G = None -> 0 < dt -> 0 < pw -> pw <= 1 / (2%:R * dt) ->
  let w := 2%:R * pi * pw in let T := 2%:R * tn (w * dt / 2%:R) / w in
  sq T ^+ 2 = T -> T != 0 ->
  str_in meth [:: "tustin"; "bilinear"]%string ->
  adet (asub (aeye (snn G)) (ascale (T / 2%:R) (sa G))) != 0 ->
  exists o, [/\ discretize sq tn pi expm bal G dt meth pw q0 = Ok o, sampled G dt meth o &
   forall (L : fieldType) (f : {rmorphism R -> L}) (z : L),
    (z + 1 != 0 -> same_value f G (dst o) z (f (w / tn (w * dt / 2%:R)) * ((z - 1) / (z + 1)))) /\
    (z + 1 = 0 -> value_at_inf f G (dst o) z)].
Proof. exact: prewarpP. Qed.
Print Assumptions C36_prewarp.

(* dt = 1/2, prewarp_at = 1/2, and a tangent with 2 tan(w dt / 2) / w = 1 *)
Definition q2' : Q := 2%:R^-1.
Definition sqone (x : Q) : Q := 1.
Definition tnx (x : Q) : Q := 2%:R * x.
Example C36_prewarp_example expm bal :
  exists o, discretize sqone tnx 3%:R expm bal exM q2' "tustin" q2' None = Ok o /\ sampled exM q2' "tustin" o.
Proof.
have [|||||||||| o [h1 h2 _]] := @C36_prewarp Q sqone tnx 3%:R expm bal exM q2' q2' "tustin" None.
1-10: ck.
by exists o; split; [exact: h1 | exact: h2].
Qed.

(* forward Euler: s = (z - 1) / dt *)
Theorem C36_forward (R : realFieldType) (sq tn : R -> R) (pi : R) expm bal (G : state R) (dt : R) (meth : string) pw q0 :
  wfS G -> sgain G = false -> sdt G = None -> 0 < dt -> sq dt ^+ 2 = dt ->
  str_in meth [:: "forward difference"; "forward euler"; "forward rectangular"; ">>"]%string ->
  exists o, [/\ discretize sq tn pi expm bal G dt meth pw q0 = Ok o, sampled G dt meth o &
   forall (L : fieldType) (f : {rmorphism R -> L}) (z : L), same_value f G (dst o) z ((z - 1) / f dt)].
Proof. exact: forwardP. Qed.
Print Assumptions C36_forward.

Example C36_forward_example (tn : rat -> rat) (pi : rat) expm bal :
  exists o, discretize idq tn pi expm bal exM 1 ">>" 0 None = Ok o /\ sampled exM 1 ">>" o.
Proof.
have [|||||| o [h1 h2 _]] := @C36_forward Q idq tn pi expm bal exM 1 ">>" 0 None.
1-6: ck.
by exists o; split; [exact: h1 | exact: h2].
Qed.

(* backward Euler: s = (z - 1) / (z dt) *)
Theorem C36_backward (R : realFieldType) (sq tn : R -> R) (pi : R) expm bal (G : state R) (dt : R) (meth : string) pw q0 :
  wfS G -> sgain G = false -> sdt G = None -> 0 < dt -> sq dt ^+ 2 = dt ->
  str_in meth [:: "backward difference"; "backward euler"; "backward rectangular"; "<<"]%string ->
  adet (asub (aeye (snn G)) (ascale dt (sa G))) != 0 ->
  exists o, [/\ discretize sq tn pi expm bal G dt meth pw q0 = Ok o, sampled G dt meth o &
   forall (L : fieldType) (f : {rmorphism R -> L}) (z : L),
    (z != 0 -> same_value f G (dst o) z ((z - 1) / (z * f dt))) /\
    (z = 0 -> value_at_inf f G (dst o) z)].
Proof. exact: backwardP. Qed.
Print Assumptions C36_backward.

Example C36_backward_example (tn : rat -> rat) (pi : rat) expm bal :
  exists o, discretize idq tn pi expm bal exG 1 "<<" 0 None = Ok o /\ sampled exG 1 "<<" o.
Proof.
have [||||||| o [h1 h2 _]] := @C36_backward Q idq tn pi expm bal exG 1 "<<" 0 None.
1-7: ck.
by exists o; split; [exact: h1 | exact: h2].
Qed.

(* an arbitrary 2-by-2 matrix q: 1/s = q22 + q21 q12 / (z - q11) *)
Theorem C36_lft (R : realFieldType) (sq tn : R -> R) (pi : R) expm bal (G : state R) (dt : R) pw (q : arr R) :
  wfS G -> sgain G = false -> sdt G = None -> 0 < dt -> shp q = (2, 2)%N ->
  adet (asub (aeye (snn G)) (ascale (get q 1 1) (sa G))) != 0 ->
  exists o, [/\ discretize sq tn pi expm bal G dt "lft" pw (Some q) = Ok o, sampled G dt "lft" o, dq o = Some q &
   forall (L : fieldType) (f : {rmorphism R -> L}) (z : L),
   let q11 := f (get q 0 0) in let q12 := f (get q 0 1) in let q21 := f (get q 1 0) in let q22 := f (get q 1 1) in
   let x := q22 + q21 * q12 / (z - q11) in
    z != q11 ->
    (x != 0 -> same_value f G (dst o) z x^-1) /\
    (x = 0 -> value_at_inf f G (dst o) z)].
Proof. exact: userP. Qed.
Print Assumptions C36_lft.

Example C36_lft_example (sq tn : rat -> rat) (pi : rat) expm bal :
  let q := of_rows [:: [:: 3%:R; 1]; [:: 2%:R; 5%:R]]%R : arr Q in
  exists o, discretize sq tn pi expm bal exM 1 "lft" 0 (Some q) = Ok o /\ sampled exM 1 "lft" o.
Proof.
move=> q; have [|||||| o [h1 h2 _ _]] := @C36_lft Q sq tn pi expm bal exM 1 0 q.
1-6: ck.
by exists o; split; [exact: h1 | exact: h2].
Qed.

(* where the substitution is undefined on the state matrix: an exception, not a model *)
Theorem C36_singular (R : realFieldType) (sq tn : R -> R) (pi : R) expm bal (G : state R) (dt : R) (meth : string) pw (q : arr R) q0 :
  wfS G -> sgain G = false -> sdt G = None ->
  [\/ [/\ str_in meth [:: "tustin"; "bilinear"]%string, pw = 0 & get q 1 1 = dt / 2%:R],
      str_in meth [:: "backward difference"; "backward euler"; "backward rectangular"; "<<"]%string /\ get q 1 1 = dt |
      [/\ meth = "lft"%string, q0 = Some q & shp q = (2, 2)%N]] ->
  adet (asub (aeye (snn G)) (ascale (get q 1 1) (sa G))) = 0 ->
  discretize sq tn pi expm bal G dt meth pw q0 = Err LinAlgError.
Proof. exact: singularP. Qed.
Print Assumptions C36_singular.

Theorem C36_refused (R : realFieldType) (sq tn : R -> R) (pi : R) expm bal (G : state R) (dt : R) (meth : string) pw q0 :
  ~~ str_in meth [:: "bilinear"; "tustin"; "zoh"; "foh"; "forward difference"; "forward euler"; "forward rectangular";
      "backward difference"; "backward euler"; "backward rectangular"; "lft"; ">>"; "<<"]%string \/ sdt G != None ->
  discretize sq tn pi expm bal G dt meth pw q0 = Err ValueError.
Proof. exact: disc_refused. Qed.
Print Assumptions C36_refused.

(* prewarping beyond the Nyquist frequency is refused *)
Theorem C36_nyquist (R : realFieldType) (sq tn : R -> R) (pi : R) expm bal (G : state R) (dt : R) (meth : string) pw q0 :
  sgain G = false -> 1 / (2%:R * dt) < pw -> 0 < pw -> str_in meth [:: "tustin"; "bilinear"]%string ->
  discretize sq tn pi expm bal G dt meth pw q0 = Err ValueError.
Proof. exact: nyquist. Qed.
Print Assumptions C36_nyquist.

(* False of the code: "trapezoidal" is in the method lists of lines 184 and 374 but not among the known
   methods, so no model can be discretised with it. *)
Theorem C36_trapezoidal_refuted (R : realFieldType) (sq tn : R -> R) (pi : R) expm bal (G : state R) (dt pw : R) q0 :
  discretize sq tn pi expm bal G dt "trapezoidal" pw q0 = Err ValueError.
Proof. by apply: C36_refused; left. Qed.
Print Assumptions C36_trapezoidal_refuted.

(* ------------------------------------------------------------------ C37 *)
(* undiscretize, without a method or with a name of the same method, returns the very matrices *)
Theorem C37_tustin (R : realFieldType) (sq tn : R -> R) (pi : R) expm logm bal nz (G : state R) (dt : R) (meth : string) q0 q1 m0 o :
  wfS G -> sgain G = false -> sq dt ^+ 2 = dt -> str_in meth [:: "tustin"; "bilinear"]%string ->
  (forall m, m0 = Some m -> str_in m [:: "bilinear"; "tustin"; "trapezoidal"]%string) ->
  discretize sq tn pi expm bal G dt meth 0 q0 = Ok o -> undiscretize sq tn pi logm bal nz o m0 0 q1 = Ok G.
Proof. exact: rt_tustin. Qed.
Print Assumptions C37_tustin.

Theorem C37_forward (R : realFieldType) (sq tn : R -> R) (pi : R) expm logm bal nz (G : state R) (dt : R) (meth : string) pw pw' q0 q1 m0 o :
  wfS G -> sgain G = false -> sq dt ^+ 2 = dt ->
  str_in meth [:: "forward difference"; "forward euler"; "forward rectangular"; ">>"]%string ->
  (forall m, m0 = Some m -> str_in m [:: "forward euler"; "forward difference"; "forward rectangular"; ">>"]%string) ->
  discretize sq tn pi expm bal G dt meth pw q0 = Ok o -> undiscretize sq tn pi logm bal nz o m0 pw' q1 = Ok G.
Proof. exact: rt_forward. Qed.
Print Assumptions C37_forward.

Theorem C37_backward (R : realFieldType) (sq tn : R -> R) (pi : R) expm logm bal nz (G : state R) (dt : R) (meth : string) pw pw' q0 q1 m0 o :
  wfS G -> sgain G = false -> sq dt ^+ 2 = dt ->
  str_in meth [:: "backward difference"; "backward euler"; "backward rectangular"; "<<"]%string ->
  (forall m, m0 = Some m -> str_in m [:: "backward euler"; "backward difference"; "backward rectangular"; "<<"]%string) ->
  discretize sq tn pi expm bal G dt meth pw q0 = Ok o -> undiscretize sq tn pi logm bal nz o m0 pw' q1 = Ok G.
Proof. exact: rt_backward. Qed.
Print Assumptions C37_backward.

(* the models of the C36 examples discretise, so the round trips apply to them *)
Example C37_example (tn : rat -> rat) (pi : rat) expm logm bal nz :
  exists o, discretize idq tn pi expm bal exM 1 ">>" 0 None = Ok o /\
    undiscretize idq tn pi logm bal nz o None 0 None = Ok exM.
Proof.
have [o [h _]] := C36_forward_example tn pi expm bal; exists o; split=> //.
by apply: C37_forward h; [ck | ck | ck | ck | ].
Qed.

(* zero-order hold: the logarithm of lines 293-309 undoes the exponential *)
Theorem C37_zoh (R : realFieldType) (sq tn : R -> R) (pi : R) expm logm bal nz (G : state R) (dt : R) pw pw' q0 q1 m0 o :
  exp_like expm -> balances bal -> log_like logm -> wfS G -> sgain G = false ->
  let n := snn G in let m := smn G in let X := ascaler (zohM G) dt in
  (* the last rows of the exponential are [0 I], and the principal logarithm returns the exponent *)
  (forall i j, (i < m)%N -> (j < n + m)%N -> get (expm X) (n + i) j = (j == n + i)%N%:R) ->
  logm (expm X) = Ok X ->
  (m0 = None \/ m0 = Some "zoh"%string) ->
  discretize sq tn pi expm bal G dt "zoh" pw q0 = Ok o -> ~~ nz (sa (dst o)) ->
  undiscretize sq tn pi logm bal nz o m0 pw' q1 = Ok G.
Proof. move=> h1 h2 h3; exact: rt_zoh. Qed.
Print Assumptions C37_zoh.

(* ------------------------------------------------------------------ C38 *)
(* Holds if the user passes the inverse of the star product with q *)
Theorem C38_lft_inverse (R : realFieldType) (sq tn : R -> R) (pi : R) expm logm bal nz (G : state R) (dt : R) pw pw' q11 q12 q21 q22 o :
  wfS G -> sgain G = false ->
  let de := q12 * q21 - q11 * q22 in q12 != 0 -> q21 != 0 -> de != 0 ->
  discretize sq tn pi expm bal G dt "lft" pw (Some (of_rows [:: [:: q11; q12]; [:: q21; q22]])) = Ok o ->
  undiscretize sq tn pi logm bal nz o None pw'
    (Some (of_rows [:: [:: - q11 / de; q21 / de]; [:: q12 / de; - q22 / de]])) = Ok G.
Proof. exact: rt_lft. Qed.
Print Assumptions C38_lft_inverse.

(* False of the code: without an explicit matrix, undiscretize applies the recorded q itself, not
   its inverse (line 265). *)
Theorem C38_recorded_q_refuted (sq tn : rat -> rat) (pi : rat) expm logm bal nz :
  let q := of_rows [:: [:: 1; 1]; [:: 1; 2%:R^-1]]%R : arr Q in
  exists o, [/\ discretize sq tn pi expm bal exG 1 "lft" 0 (Some q) = Ok o, dq o = Some q &
   undiscretize sq tn pi logm bal nz o None 0 None <> Ok exG].
Proof.
move=> q.
have : if discretize sq tn pi expm bal exG 1 "lft" 0 (Some q) is Ok o then
    (if dq o is Some q' then aeq q' q else false) &&
    (if undiscretize sq tn pi logm bal nz o None 0 None is Ok G then ~~ aeq (sb G) (sb exG) else true)
  else false by vm_compute.
have [|||||| o [h1 h2 h3 _]] := @C36_lft Q sq tn pi expm bal exG 1 0 q.
1-6: ck.
rewrite h1 h3 => /andP [_ h4]; exists o; split=> // e; move: h4; rewrite e; by vm_compute.
Qed.
Print Assumptions C38_recorded_q_refuted.

(* False of the code: with prewarping the round trip gives A/4 - 3/(2 t^2) I, B/2, C/2, D, because the
   off-diagonal entries of the matrix in line 379 are 1/t instead of 2/t *)
Theorem C38_prewarp_refuted (R : realFieldType) (sq tn : R -> R) (pi : R) expm logm bal nz (G : state R) (dt pw : R) (meth : string) q0 q1 m0 o :
  wfS G -> sgain G = false -> pw != 0 ->
  let w := 2%:R * pi * pw in let t := sq (2%:R * tn (w * dt / 2%:R) / w) in
  t != 0 -> pw < 1 / (2%:R * dt) -> str_in meth [:: "tustin"; "bilinear"]%string ->
  (forall m, m0 = Some m -> str_in m [:: "bilinear"; "tustin"; "trapezoidal"]%string) ->
  discretize sq tn pi expm bal G dt meth pw q0 = Ok o ->
  undiscretize sq tn pi logm bal nz o m0 pw q1 =
  Ok (St (aadd (ascale (- (3%:R / (2%:R * t ^+ 2))) (aeye (snn G))) (ascale (4%:R^-1) (sa G)))
         (ascale (2%:R^-1) (sb G)) (ascale (2%:R^-1) (sc G)) (sd G) false None)
  /\ (forall i j, (i < nr (sb G))%N -> (j < nc (sb G))%N -> get (sb G) i j != 0 ->
      undiscretize sq tn pi logm bal nz o m0 pw q1 <> Ok G).
Proof.
move=> wG ng pw0 w t t0 ny hm hm0 ok; have e := prewarp_twice logm nz q1 wG ng pw0 t0 ny hm hm0 ok.
split=> // i j hi hj b0; rewrite e => -[] /(congr1 (@sb R)) /= /(congr1 (fun A => get A i j)).
rewrite get_mk // => h; move: b0; have := congr1 (fun x => 2%:R * x) h.
rewrite /= mulVKf ?pnatr_eq0 // -[get _ _ _ in LHS]addr0 mulrDl mul1r => /addrI <-; by rewrite eqxx.
Qed.
Print Assumptions C38_prewarp_refuted.

(* ------------------------------------------------------------------ C39 *)
Theorem C39_discretize_gain (R : realFieldType) (sq tn : R -> R) (pi : R) expm bal (G : state R) (dt pw : R) (meth : string) q0 :
  wfS G -> sgain G -> sdt G = None -> 0 < dt ->
  str_in meth [:: "bilinear"; "tustin"; "zoh"; "foh"; "forward difference"; "forward euler"; "forward rectangular";
      "backward difference"; "backward euler"; "backward rectangular"; "lft"; ">>"; "<<"]%string ->
  exists o, discretize sq tn pi expm bal G dt meth pw q0 = Ok o /\
   [/\ wfS (dst o), sgain (dst o), sd (dst o) = sd G, sdt (dst o) = Some dt & dmeth o = None].
Proof. exact: disc_gain. Qed.
Print Assumptions C39_discretize_gain.

Example C39_example : wfS exK && sgain exK && (sdt exK == None). Proof. by vm_compute. Qed.

(* False of the code: line 273 passes the bound method G.to_array, not its value, to State *)
Theorem C39_undiscretize_gain_refuted (R : realFieldType) (sq tn : R -> R) (pi : R) logm bal nz (o : dsys R) m0 pw q0 :
  sgain (dst o) -> undiscretize sq tn pi logm bal nz o m0 pw q0 = Err ValueError.
Proof. exact: undisc_gain. Qed.
Print Assumptions C39_undiscretize_gain_refuted.

(* ------------------------------------------------------------------ C40 *)
(* whatever the balancing returns: Ad, Bd are the first block row of exp([[A, B], [0, 0]] dt) *)
Theorem C40_zoh (R : realFieldType) (sq tn : R -> R) (pi : R) expm bal (G : state R) (dt pw : R) q0 :
  exp_like expm -> balances bal -> wfS G -> sgain G = false -> sdt G = None -> 0 < dt ->
  let n := snn G in let m := smn G in
  let E := expm (ascaler (zohM G) dt) in
  let Gd := St (asubm E 0 n 0 n) (asubm E 0 n n (n + m)) (sc G) (sd G) false (Some dt) in
  [/\ discretize sq tn pi expm bal G dt "zoh" pw q0 = Ok (DSys Gd (Some "zoh"%string) None 0), wfS Gd
    & shp E = (n + m, n + m)%N].
Proof. move=> h1 h2; exact: disc_zohP. Qed.
Print Assumptions C40_zoh.

(* first-order hold: with [F G1 G2] the first block row of exp([[A dt, B dt, 0], [0, 0, I], [0, 0, 0]]),
   the model is F, G1 + F G2 - G2, C, D + C G2 *)
Theorem C40_foh (R : realFieldType) (sq tn : R -> R) (pi : R) expm bal (G : state R) (dt pw : R) q0 :
  exp_like expm -> balances bal -> wfS G -> sgain G = false -> sdt G = None -> 0 < dt ->
  let n := snn G in let m := smn G in
  let E := expm (fohM G dt) in
  let F := asubm E 0 n 0 n in let G1 := asubm E 0 n n (n + m) in let G2 := asubm E 0 n (n + m) (n + 2 * m) in
  let Gd := St F (asub (aadd G1 (amul F G2)) G2) (sc G) (aadd (sd G) (amul (sc G) G2)) false (Some dt) in
  discretize sq tn pi expm bal G dt "foh" pw q0 = Ok (DSys Gd (Some "foh"%string) None 0) /\ wfS Gd.
Proof. move=> h1 h2; exact: disc_fohP. Qed.
Print Assumptions C40_foh.

(* primitives that meet the contracts: I + X for the exponential, X - I for the logarithm, and a
   balancing that scales by 2 in the first coordinate *)
Definition ex_exp (X : arr Q) : arr Q := mk (nr X) (nc X) (fun i j => get X i j + (i == j)%:R).
Definition ex_log (X : arr Q) : res (arr Q) := Ok (mk (nr X) (nc X) (fun i j => get X i j - (i == j)%:R)).
Definition ex_bal (X : arr Q) : arr Q * seq Q :=
  let sca := mkseq (fun i => if i == 0%N then 2%:R else 1) (nr X) in (dscale sca X, sca).

Example C40_exp_like : exp_like ex_exp.
Proof.
move=> X wX sX; split; rewrite ?wfa_mk /shp ?nr_mk ?nc_mk // => sca sca0.
apply: arr_eqP; rewrite ?wfa_mk ?nr_mk ?nc_mk // => i j hi hj; rewrite !get_mk ?nr_mk ?nc_mk // mulrDl.
by case: eqP => [<-|_]; rewrite ?mul0r // divff ?mulr1 ?mul1r // sca0.
Qed.
Example C40_log_like : log_like ex_log.
Proof.
move=> X Y wX sX [<-]; split; rewrite ?wfa_mk /shp ?nr_mk ?nc_mk // => sca sca0.
congr Ok; apply: arr_eqP; rewrite ?wfa_mk ?nr_mk ?nc_mk // => i j hi hj; rewrite !get_mk ?nr_mk ?nc_mk // mulrBl.
by case: eqP => [<-|_]; rewrite ?mul0r // divff ?mulr1 ?mul1r // sca0.
Qed.
Example C40_balances : balances ex_bal.
Proof.
move=> M sM; split; first by [].
move=> i hi; have -> : (ex_bal M).2 = mkseq (fun i => if i == 0%N then 2%:R else 1 : Q) (nr M) by [].
rewrite nth_mkseq //; case: (i == 0%N).
  by rewrite pnatr_eq0.
by rewrite oner_eq0.
Qed.

Lemma ex_logK (X : arr Q) : wfa X -> ex_log (ex_exp X) = Ok X.
Proof.
move=> w; congr Ok; apply: arr_eqP; rewrite ?wfa_mk ?nr_mk ?nc_mk // => i j hi hj.
by rewrite get_mk ?nr_mk ?nc_mk // get_mk ?nr_mk ?nc_mk // addrK.
Qed.

Example C37_zoh_example (sq tn : rat -> rat) (pi : rat) :
  exists o, discretize sq tn pi ex_exp ex_bal exM 1 "zoh" 0 None = Ok o /\
   undiscretize sq tn pi ex_log ex_bal (fun _ => false) o None 0 None = Ok exM.
Proof.
have [||||h _ _] := @C40_zoh Q sq tn pi ex_exp ex_bal exM 1 0 None C40_exp_like C40_balances.
1-4: ck.
eexists; split; first exact: h.
apply: (@C37_zoh Q sq tn pi ex_exp ex_log ex_bal (fun _ => false) exM 1 0 0 None None None _ C40_exp_like C40_balances C40_log_like _ _ _ _ _ h).
- by vm_compute.
- by vm_compute.
- move=> i j hi hj; have hN : nr (ascaler (zohM exM) 1) = (snn exM + smn exM)%N by vm_compute.
  have hN' : nc (ascaler (zohM exM) 1) = (snn exM + smn exM)%N by vm_compute.
  rewrite get_mk ?hN ?hN' ?ltn_add2l // [in RHS]eq_sym.
  suff -> : get (ascaler (zohM exM) 1) (snn exM + i) j = 0 by rewrite add0r.
  have /allP h0 : all (fun i => all (fun j => get (ascaler (zohM exM) 1) (snn exM + i) j == 0) (iota 0 (snn exM + smn exM)))
                   (iota 0 (smn exM)) by vm_compute.
  have := h0 i; rewrite mem_iota => /(_ hi) /allP /(_ j); rewrite mem_iota => /(_ hj) /eqP //.
- exact: ex_logK (wfa_mk _ _ _).
- by left.
- by [].
Qed.
