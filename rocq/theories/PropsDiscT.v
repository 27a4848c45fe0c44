(* Property C84: discretize and undiscretize of Transfer models.
   Notation (SpecDiscT.v): tf_same f G H z s says that every entry of H at z is that of G at s when s is no pole of G,
   tf_inf f G H z that it is the value of G at infinity, all_def that s is no pole of any entry, tf_eq that the entries are
   the same rational functions.  convertible and dynamic are from SpecFeedbackT.v: no coefficient of a remainder is lost to
   the clean-up threshold, and some entry is not a constant.  numerics_ok says that the eigenvalues and zeros computed for
   the conversion back are right (C33). *)
From mathcomp Require Import all_ssreflect all_algebra.
From Coq Require Import String.
From Verif Require Import Base BaseTheory Spec ModelPoly PolyTheory PolyOps LcmTheory ModelState Denote StateTheory StateProps
  ModelTransfer DenoteT TransferTheory TransferOps TransferProps ConvertTheory ConvertOps ConvertMimo ConvertState PropsConvert
  SpecSim RingTac SpecConvert ModelConvert ConvertTf PropsStt ModelFeedback FeedbackTheory ModelFeedbackT SpecFeedbackT
  FeedbackTTheory PropsFeedbackT ModelObject ModelDiscrete DenoteD DiscreteTheory ModelDiscT SpecDiscT DiscTTheory.

Set Implicit Arguments.
Unset Strict Implicit.
Unset Printing Implicit Defensive.

Import Order.TTheory GRing.Theory Num.Theory.
Local Open Scope ring_scope.

(* what is assumed of the external numerics *)
Definition contracts (R : realFieldType) (L : fieldType) (f : {rmorphism R -> L}) re absL
    (lsq : arr R -> arr R -> arr R) (sca : arr R -> seq R) (svd : arr R -> arr R * arr R * arr R) : Prop :=
  [/\ re_ok f re, abs_ok f absL, lsq_ok lsq, forall a, sca_ok a (sca a) & forall C, wfa C -> svd_ok C (svd C)].

Section DiscT.
Local Arguments str_in : simpl never.
Variables (R : realFieldType) (L : fieldType) (f : {rmorphism R -> L}).
Variables (sq tg : R -> R) (pi : R) (expm : arr R -> arr R) (logm : arr R -> res (arr R)).
Variables (bal : arr R -> arr R * seq R) (nz : arr R -> bool).
Variables (re absL : L -> R) (eig : arr R -> seq L) (tz : arr R -> arr R -> arr R -> seq L) (lsq : arr R -> arr R -> arr R).
Variables (sca : arr R -> seq R) (svd : arr R -> arr R * arr R * arr R) (eps : R).
Let lcmf := haroldlcm sca svd 0.
Let idm := [rmorphism of @idfun R].
Implicit Types (G H : tf R) (O : dtf R).

Local Notation disc_t := (discretize_t f sq tg pi expm bal re absL eig tz lsq lcmf eps).
Local Notation undisc_t := (undiscretize_t f sq tg pi logm bal nz re absL eig tz lsq lcmf eps).
Local Notation num_d G dt meth pw q :=
  (forall Kd, disc_state sq tg pi expm bal lcmf eps G dt meth pw q = Ok Kd -> numerics_ok f eig tz Kd).
Local Notation num_u G dt meth pw q :=
  (forall Kc, undisc_state sq tg pi logm bal nz lcmf eps G dt meth pw q = Ok Kc -> numerics_ok f eig tz Kc).

(* tustin: s = 2/dt (z - 1)/(z + 1) *)
Theorem C84_tustin G (dt : R) (meth : string) q0 :
  contracts f re absL lsq sca svd -> convertible eps G -> dynamic (XT G) -> tdt G = None ->
  0 < dt -> sq dt ^+ 2 = dt -> str_in meth [:: "tustin"; "bilinear"]%string ->
  all_def idm G (2%:R / dt) -> num_d G dt meth 0 q0 ->
  exists O, [/\ disc_t G dt meth 0 q0 = Ok O, tf_sampled G dt meth O &
   forall (F : fieldType) (g : {rmorphism R -> F}) (z : F),
    (z + 1 != 0 -> tf_same g G (ttf O) z (2%:R / g dt * ((z - 1) / (z + 1)))) /\
    (z + 1 = 0 -> tf_inf g G (ttf O) z)].
Proof.
case=> h1 h2 h3 h4 h5 hc hd edt dt0 hsq hm ad hnum.
have [K [EK gc n0 gK gG]] := tts_dyn h4 h5 hc hd; have [wK _ dK _ _] := gc; rewrite edt in dK.
have c0 : dt / 2%:R != 0 by rewrite mulf_neq0 ?invr_eq0 ?pnatr_eq0 // lt0r_neq0.
have N0 : adet (asub (aeye (snn K)) (ascale (dt / 2%:R) (sa K))) != 0.
  by apply: (lftNa_pole gc n0 c0); rewrite invf_div.
have [o [E sm v]] := tustinP tg pi expm bal q0 wK gK dK dt0 hsq hm N0.
have [O [EO sO _ _ vO]] := lift_disc (f := f) h1 h2 h3 h4 h5 hc hd edt EK E sm hnum.
exists O; split=> // F g z; have [a b] := v F g z; have [a' b' _] := vO F g z; split=> e; first by apply: a'; exact: a.
by apply: b'; exact: b.
Qed.

(* tustin, prewarped: s = w / tan(w dt/2) (z - 1)/(z + 1) for w = 2 pi prewarp_at *)
Theorem C84_prewarp G (dt pw : R) (meth : string) q0 :
  contracts f re absL lsq sca svd -> convertible eps G -> dynamic (XT G) -> tdt G = None ->
  0 < dt -> 0 < pw -> pw <= 1 / (2%:R * dt) ->
  let w := 2%:R * pi * pw in let T := 2%:R * tg (w * dt / 2%:R) / w in
  sq T ^+ 2 = T -> T != 0 -> str_in meth [:: "tustin"; "bilinear"]%string ->
  all_def idm G (w / tg (w * dt / 2%:R)) -> num_d G dt meth pw q0 ->
  exists O, [/\ disc_t G dt meth pw q0 = Ok O, tf_sampled G dt meth O, tpw O = pw &
   forall (F : fieldType) (g : {rmorphism R -> F}) (z : F),
    (z + 1 != 0 -> tf_same g G (ttf O) z (g (w / tg (w * dt / 2%:R)) * ((z - 1) / (z + 1)))) /\
    (z + 1 = 0 -> tf_inf g G (ttf O) z)].
Proof.
case=> h1 h2 h3 h4 h5 hc hd edt dt0 pw0 pw1 w T hsq T0 hm ad hnum.
have [K [EK gc n0 gK gG]] := tts_dyn h4 h5 hc hd; have [wK _ dK _ _] := gc; rewrite edt in dK.
have c0 : T / 2%:R != 0 by rewrite mulf_neq0 ?invr_eq0 ?pnatr_eq0.
have N0 : adet (asub (aeye (snn K)) (ascale (T / 2%:R) (sa K))) != 0.
  apply: (lftNa_pole gc n0 c0); have -> // : (T / 2%:R)^-1 = w / tg (w * dt / 2%:R).
  by rewrite /T -[2%:R * _ / w]mulrA [2%:R * (_ / w)]mulrC mulfK ?pnatr_eq0 // invf_div.
have [o [E sm v]] := prewarpP expm bal q0 wK gK dK dt0 pw0 pw1 hsq T0 hm N0.
have [O [EO sO _ eO vO]] := lift_disc (f := f) h1 h2 h3 h4 h5 hc hd edt EK E sm hnum.
exists O; split=> //; last first.
  move=> F g z; have [a b] := v F g z; have [a' b' _] := vO F g z; split=> e; first by apply: a'; exact: a.
  by apply: b'; exact: b.
rewrite eO; have [km nl tu _] := tustin_args sq tg pi expm bal K dt pw q0 hm.
move: E; rewrite /discretize km dK gK /=; case: (discretize_args _ _ _ _ _ _ _ _ _ _) => [[[[Ad Bd] Cd] Dd]|] //=.
case: (mkS Ad Bd Cd Dd _) => [Kd|] //=; rewrite (negbTE nl) tu; by case: (~~ _) => // -[<-].
Qed.

(* forward difference: s = (z - 1)/dt *)
Theorem C84_forward G (dt : R) (meth : string) pw q0 :
  contracts f re absL lsq sca svd -> convertible eps G -> dynamic (XT G) -> tdt G = None ->
  0 < dt -> sq dt ^+ 2 = dt ->
  str_in meth [:: "forward difference"; "forward euler"; "forward rectangular"; ">>"]%string ->
  num_d G dt meth pw q0 ->
  exists O, [/\ disc_t G dt meth pw q0 = Ok O, tf_sampled G dt meth O &
   forall (F : fieldType) (g : {rmorphism R -> F}) (z : F), tf_same g G (ttf O) z ((z - 1) / g dt)].
Proof.
case=> h1 h2 h3 h4 h5 hc hd edt dt0 hsq hm hnum.
have [K [EK gc n0 gK gG]] := tts_dyn h4 h5 hc hd; have [wK _ dK _ _] := gc; rewrite edt in dK.
have [o [E sm v]] := forwardP tg pi expm bal pw q0 wK gK dK dt0 hsq hm.
have [O [EO sO _ _ vO]] := lift_disc (f := f) h1 h2 h3 h4 h5 hc hd edt EK E sm hnum.
by exists O; split=> // F g z; have [a _ _] := vO F g z; apply: a; exact: v.
Qed.

(* backward difference: s = (z - 1)/(z dt) *)
Theorem C84_backward G (dt : R) (meth : string) pw q0 :
  contracts f re absL lsq sca svd -> convertible eps G -> dynamic (XT G) -> tdt G = None ->
  0 < dt -> sq dt ^+ 2 = dt ->
  str_in meth [:: "backward difference"; "backward euler"; "backward rectangular"; "<<"]%string ->
  all_def idm G dt^-1 -> num_d G dt meth pw q0 ->
  exists O, [/\ disc_t G dt meth pw q0 = Ok O, tf_sampled G dt meth O &
   forall (F : fieldType) (g : {rmorphism R -> F}) (z : F),
    (z != 0 -> tf_same g G (ttf O) z ((z - 1) / (z * g dt))) /\ (z = 0 -> tf_inf g G (ttf O) z)].
Proof.
case=> h1 h2 h3 h4 h5 hc hd edt dt0 hsq hm ad hnum.
have [K [EK gc n0 gK gG]] := tts_dyn h4 h5 hc hd; have [wK _ dK _ _] := gc; rewrite edt in dK.
have N0 := lftNa_pole gc n0 (lt0r_neq0 dt0) ad.
have [o [E sm v]] := backwardP tg pi expm bal pw q0 wK gK dK dt0 hsq hm N0.
have [O [EO sO _ _ vO]] := lift_disc (f := f) h1 h2 h3 h4 h5 hc hd edt EK E sm hnum.
exists O; split=> // F g z; have [a b] := v F g z; have [a' b' _] := vO F g z; split=> e; first by apply: a'; exact: a.
by apply: b'; exact: b.
Qed.

(* a matrix of the user: 1/s = q22 + q21 q12 / (z - q11) *)
Theorem C84_lft G (dt : R) pw (q : arr R) :
  contracts f re absL lsq sca svd -> convertible eps G -> dynamic (XT G) -> tdt G = None ->
  0 < dt -> shp q = (2, 2)%N -> (get q 1 1 != 0 -> all_def idm G (get q 1 1)^-1) ->
  num_d G dt "lft"%string pw (Some q) ->
  exists O, [/\ disc_t G dt "lft" pw (Some q) = Ok O, tf_sampled G dt "lft" O, tq O = Some q &
   forall (F : fieldType) (g : {rmorphism R -> F}) (z : F),
   let q11 := g (get q 0 0) in let q12 := g (get q 0 1) in let q21 := g (get q 1 0) in let q22 := g (get q 1 1) in
   let x := q22 + q21 * q12 / (z - q11) in
    z != q11 -> (x != 0 -> tf_same g G (ttf O) z x^-1) /\ (x = 0 -> tf_inf g G (ttf O) z)].
Proof.
case=> h1 h2 h3 h4 h5 hc hd edt dt0 sq2 ad hnum.
have [K [EK gc n0 gK gG]] := tts_dyn h4 h5 hc hd; have [wK _ dK _ _] := gc; rewrite edt in dK.
have [_ [eA eA' _ _ _]] := wfS_dyn wK gK.
have N0 : adet (asub (aeye (snn K)) (ascale (get q 1 1) (sa K))) != 0.
  case: (eqVneq (get q 1 1) 0) => [->|c0]; first exact: lftNa0.
  by apply: (lftNa_pole gc n0 c0); exact: ad.
have [o [E sm eq v]] := userP sq tg pi expm bal pw wK gK dK dt0 sq2 N0.
have [O [EO sO eO _ vO]] := lift_disc (f := f) h1 h2 h3 h4 h5 hc hd edt EK E sm hnum.
exists O; split=> //; first by rewrite eO.
move=> F g z q11 q12 q21 q22 x zq; have [a b] := v F g z zq; have [a' b' _] := vO F g z; split=> e; first by apply: a'; exact: a.
by apply: b'; exact: b.
Qed.

(* other method names and models with a sampling period are refused *)
Theorem C84_refused G (dt : R) (meth : string) pw q0 :
  ~~ str_in meth [:: "bilinear"; "tustin"; "zoh"; "foh"; "forward difference"; "forward euler"; "forward rectangular";
      "backward difference"; "backward euler"; "backward rectangular"; "lft"; ">>"; "<<"]%string \/ tdt G != None ->
  disc_t G dt meth pw q0 = Err ValueError.
Proof.
rewrite /discretize_t -/known_methods; case=> [/negbTE -> //|]; case: (tdt G) => // d _.
by case: (str_in _ _).
Qed.

Theorem C84_undiscretize_refused O m0 pw q0 : tdt (ttf O) = None -> undisc_t O m0 pw q0 = Err ValueError.
Proof. by rewrite /undiscretize_t => ->. Qed.

(* undiscretize, tustin: z = (2 + s dt)/(2 - s dt) *)
Theorem C84_undiscretize_tustin O (dt : R) m0 q0 :
  contracts f re absL lsq sca svd -> convertible eps (ttf O) -> dynamic (XT (ttf O)) -> tdt (ttf O) = Some dt ->
  0 < dt -> sq dt ^+ 2 = dt ->
  let m1 := if m0 is Some m then m else odflt "tustin"%string (tmeth O) in
  str_in m1 [:: "bilinear"; "tustin"; "trapezoidal"]%string ->
  all_def idm (ttf O) (-1) -> num_u (ttf O) dt m1 0 q0 ->
  exists H, [/\ undisc_t O m0 0 q0 = Ok H, wfT H, tshape H = tshape (ttf O), tdt H = None &
   forall (F : fieldType) (g : {rmorphism R -> F}) (s : F),
    (2%:R - s * g dt != 0 -> tf_same g (ttf O) H s ((2%:R + s * g dt) / (2%:R - s * g dt))) /\
    (2%:R - s * g dt = 0 -> tf_inf g (ttf O) H s)].
Proof.
case=> h1 h2 h3 h4 h5 hc hd edt dt0 hsq m1 hm ad hnum.
have nl : String.eqb m1 "lft" = false by move: hm; rewrite /str_in /=; repeat (case/orP; first (by move/String.eqb_spec => ->)).
pose r := q2 (- (2%:R / dt)) (2%:R / sq dt) (2%:R / sq dt) (-1).
have eq' : (if String.eqb m1 "lft" then
     if ~~ isSome (tq O) && ~~ isSome q0 then Err ValueError else Ok (if isSome q0 then q0 else tq O)
   else Ok q0) = Ok q0 by rewrite nl.
have ea T : undiscretize_args sq tg pi logm bal nz T dt m1 0 q0 = simple_lft r (sa T) (sb T) (sc T) (sd T).
  by rewrite undisc_args_tustin ?eqxx.
have hp : get r 1 1 = 0 \/ get r 1 1 != 0 /\ all_def idm (ttf O) (get r 1 1)^-1.
  by right; rewrite /get /= oppr_eq0 oner_eq0; split=> //; rewrite invrN invr1.
have [H [EH wH sH dH v]] := undisc_lft (f := f) h1 h2 h3 h4 h5 hc hd (erefl (ttf O)) edt eq' ea (erefl : shp r = (2, 2)%N) hp hnum.
exists H; split=> // F g s; have [] := v F g s; rewrite /get /=.
have gd : g dt != 0 by rewrite fmorph_eq0 lt0r_neq0.
have e2 : g (2%:R / sq dt) * g (2%:R / sq dt) = 4%:R / g dt.
  by rewrite -rmorphM mulf_div -natrM -[sq dt * sq dt]expr2 hsq fmorph_div rmorph_nat.
have -> : g (- 1) * (s - g (- (2%:R / dt))) + g (2%:R / sq dt) * g (2%:R / sq dt) = (2%:R - s * g dt) / g dt.
  rewrite e2 !rmorphN rmorph1 fmorph_div rmorph_nat opprK mulN1r mulrBl mulfK //.
  have -> : (4%:R : F) = 2%:R + 2%:R by rewrite -natrD.
  by rewrite [(2%:R + 2%:R) / _]mulrDl opprD addrACA addNr addr0 addrC.
have e0 : s - g (- (2%:R / dt)) = (2%:R + s * g dt) / g dt.
  by rewrite rmorphN opprK fmorph_div rmorph_nat mulrDl mulfK // addrC.
move=> v1 v2; split=> k0.
  apply: v1; first by rewrite mulf_neq0 ?invr_eq0.
  by rewrite e0 mulrA divfK.
apply: v2; first by rewrite k0 mul0r.
rewrite -subr_eq0 e0 mulf_neq0 ?invr_eq0 //; have -> : s * g dt = 2%:R by apply/esym/eqP; rewrite -subr_eq0 k0.
by rewrite -natrD -(rmorph_nat g) fmorph_eq0 pnatr_eq0.
Qed.

(* undiscretize, forward difference: z = 1 + s dt *)
Theorem C84_undiscretize_forward O (dt : R) m0 pw q0 :
  contracts f re absL lsq sca svd -> convertible eps (ttf O) -> dynamic (XT (ttf O)) -> tdt (ttf O) = Some dt ->
  0 < dt -> sq dt ^+ 2 = dt ->
  let m1 := if m0 is Some m then m else odflt "tustin"%string (tmeth O) in
  str_in m1 [:: "forward euler"; "forward difference"; "forward rectangular"; ">>"]%string ->
  num_u (ttf O) dt m1 pw q0 ->
  exists H, [/\ undisc_t O m0 pw q0 = Ok H, wfT H, tshape H = tshape (ttf O), tdt H = None &
   forall (F : fieldType) (g : {rmorphism R -> F}) (s : F), tf_same g (ttf O) H s (1 + s * g dt)].
Proof.
case=> h1 h2 h3 h4 h5 hc hd edt dt0 hsq m1 hm hnum.
have nl : String.eqb m1 "lft" = false by move: hm; rewrite /str_in /=; repeat (case/orP; first (by move/String.eqb_spec => ->)).
pose r := q2 (- (1 / dt)) (1 / sq dt) (1 / sq dt) 0.
have eq' : (if String.eqb m1 "lft" then
     if ~~ isSome (tq O) && ~~ isSome q0 then Err ValueError else Ok (if isSome q0 then q0 else tq O)
   else Ok q0) = Ok q0 by rewrite nl.
have ea T : undiscretize_args sq tg pi logm bal nz T dt m1 pw q0 = simple_lft r (sa T) (sb T) (sc T) (sd T).
  by rewrite undisc_args_forward.
have [H [EH wH sH dH v]] := undisc_lft (f := f) h1 h2 h3 h4 h5 hc hd (erefl (ttf O)) edt eq' ea (erefl : shp r = (2, 2)%N)
  (or_introl erefl) hnum.
exists H; split=> // F g s; have [+ _] := v F g s; rewrite /get /=.
have gd : g dt != 0 by rewrite fmorph_eq0 lt0r_neq0.
have -> : g 0 * (s - g (- (1 / dt))) + g (1 / sq dt) * g (1 / sq dt) = (g dt)^-1.
  by rewrite rmorph0 mul0r add0r -rmorphM mulf_div -[sq dt * sq dt]expr2 hsq mulr1 mul1r fmorphV.
move=> v1; apply: v1; first by rewrite invr_eq0.
by rewrite rmorphN opprK mul1r fmorphV mulrDl mul1r mulfK // addrC.
Qed.

(* a model that was discretised comes back as the same rational functions *)
Theorem C84_round_trip_tustin G (dt : R) (meth : string) q0 q1 O :
  contracts f re absL lsq sca svd -> convertible eps G -> dynamic (XT G) -> tdt G = None ->
  0 < dt -> sq dt ^+ 2 = dt -> str_in meth [:: "tustin"; "bilinear"]%string ->
  all_def idm G (2%:R / dt) -> num_d G dt meth 0 q0 ->
  disc_t G dt meth 0 q0 = Ok O -> convertible eps (ttf O) -> num_u (ttf O) dt meth 0 q1 ->
  exists H, [/\ undisc_t O None 0 q1 = Ok H, wfT H, tshape H = tshape G, tdt H = None & tf_eq G H].
Proof.
move=> hk hc hd edt dt0 hsq hm ad hnum EO hcO hnumO; have [w _ _ _] := hc.
have [O' [EO' [wO sO dO mO] vO]] := C84_tustin hk hc hd edt dt0 hsq hm ad hnum.
move: EO'; rewrite EO => -[eO]; rewrite -{O'}eO in wO sO dO mO vO.
have [ep em] : tp (ttf O) = tp G /\ tm (ttf O) = tm G by rewrite /tp /tm sO.
pose P : {poly R} := 2%:R%:P - dt *: 'X.
have Pe s : P.[s] = 2%:R - s * dt by rewrite !hornerE mulrC.
have P0 : P != 0 by apply/eqP => e; have := Pe 0; rewrite e horner0 mul0r subr0 => /esym/eqP; rewrite pnatr_eq0.
pose zm s : R := (2%:R + s * dt) / (2%:R - s * dt).
have same s : P.[s] != 0 -> tf_same idm G (ttf O) (zm s) s.
  rewrite Pe => k0; have [a _] := vO R idm (zm s).
  have z1 : zm s + 1 = 4%:R / (2%:R - s * dt).
    by rewrite /zm -[X in _ + X](mulfV k0) -mulrDl; congr (_ / _); rewrite addrACA subrr addr0 -natrD.
  have z2 : zm s - 1 = (2%:R * (s * dt)) / (2%:R - s * dt).
    rewrite -[X in zm _ - X](mulfV k0) /zm -mulrBl; congr (_ / _); move: (s * dt) => x.
    by rewrite opprB [x - _]addrC addrACA subrr add0r -mulr2n -mulr_natl.
  have e : s = 2%:R / idm dt * ((zm s - 1) / (zm s + 1)).
    have -> : (zm s - 1) / (zm s + 1) = s * dt / 2%:R.
      rewrite z1 z2 invf_div; move: (_ - _) k0 => k k0.
      by rewrite [_ / k * _]mulrA divfK // (natrM _ 2 2) invfM [_ * (_ / _)]mulrA [2%:R * (s * dt)]mulrC mulfK ?pnatr_eq0.
    rewrite /=.
    rewrite mulf_div mulrCA [dt * 2%:R]mulrC mulfK // mulf_neq0 ?pnatr_eq0 //; exact: lt0r_neq0.
  rewrite [X in tf_same _ _ _ _ X]e; apply: a; by rewrite z1 mulf_neq0 ?invr_eq0 ?pnatr_eq0.
have dd : dynamic (XT (ttf O)) by exact: dyn_map w P0 sO same hd.
have adO : all_def idm (ttf O) (-1).
  move=> i j; rewrite ep em => hi hj; have [_ b] := vO R idm (-1).
  by have [] := b (addNr _) i j hi hj.
have hm' : str_in (odflt "tustin"%string (tmeth O)) [:: "bilinear"; "tustin"; "trapezoidal"]%string.
  by rewrite mO; move: hm; rewrite /str_in /= !orbF => /orP[] ->; rewrite ?orbT.
have [|H [EH wH sH dH v]] := C84_undiscretize_tustin (m0 := None) (q0 := q1) hk hcO dd dO dt0 hsq hm' adO.
  by rewrite mO.
exists H; split=> //; first by rewrite sH.
apply: (round_tf w P0 sO) => s Ps; split; first exact: same.
by have [a _] := v R idm s; apply: a; rewrite /= -Pe.
Qed.

Theorem C84_round_trip_forward G (dt : R) (meth : string) pw pw' q0 q1 O :
  contracts f re absL lsq sca svd -> convertible eps G -> dynamic (XT G) -> tdt G = None ->
  0 < dt -> sq dt ^+ 2 = dt ->
  str_in meth [:: "forward difference"; "forward euler"; "forward rectangular"; ">>"]%string -> num_d G dt meth pw q0 ->
  disc_t G dt meth pw q0 = Ok O -> convertible eps (ttf O) -> num_u (ttf O) dt meth pw' q1 ->
  exists H, [/\ undisc_t O None pw' q1 = Ok H, wfT H, tshape H = tshape G, tdt H = None & tf_eq G H].
Proof.
move=> hk hc hd edt dt0 hsq hm hnum EO hcO hnumO; have [w _ _ _] := hc.
have [O' [EO' [wO sO dO mO] vO]] := C84_forward hk hc hd edt dt0 hsq hm hnum.
move: EO'; rewrite EO => -[eO]; rewrite -{O'}eO in wO sO dO mO vO.
pose zm s : R := 1 + s * dt.
have same s : (1 : {poly R}).[s] != 0 -> tf_same idm G (ttf O) (zm s) s.
  move=> _; have e : s = (zm s - 1) / idm dt by rewrite /zm [1 + _]addrC addrK /= mulfK // lt0r_neq0.
  by rewrite [X in tf_same _ _ _ _ X]e; exact: vO.
have dd : dynamic (XT (ttf O)) by exact: dyn_map w (oner_neq0 _) sO same hd.
have hm' : str_in (odflt "tustin"%string (tmeth O)) [:: "forward euler"; "forward difference"; "forward rectangular"; ">>"]%string.
  by rewrite mO; exact: names_fw.
have [|H [EH wH sH dH v]] := C84_undiscretize_forward (m0 := None) (pw := pw') (q0 := q1) hk hcO dd dO dt0 hsq hm'.
  by rewrite mO.
exists H; split=> //; first by rewrite sH.
by apply: (round_tf w (oner_neq0 _) sO) => s Ps; split; [exact: same | exact: v].
Qed.

(* undiscretize, backward difference: z = 1/(1 - s dt) *)
Theorem C84_undiscretize_backward O (dt : R) m0 pw q0 :
  contracts f re absL lsq sca svd -> convertible eps (ttf O) -> dynamic (XT (ttf O)) -> tdt (ttf O) = Some dt ->
  0 < dt -> sq dt ^+ 2 = dt ->
  let m1 := if m0 is Some m then m else odflt "tustin"%string (tmeth O) in
  str_in m1 [:: "backward euler"; "backward difference"; "backward rectangular"; "<<"]%string ->
  all_def idm (ttf O) 0 -> num_u (ttf O) dt m1 pw q0 ->
  exists H, [/\ undisc_t O m0 pw q0 = Ok H, wfT H, tshape H = tshape (ttf O), tdt H = None &
   forall (F : fieldType) (g : {rmorphism R -> F}) (s : F),
    (1 - s * g dt != 0 -> tf_same g (ttf O) H s (1 - s * g dt)^-1) /\
    (1 - s * g dt = 0 -> tf_inf g (ttf O) H s)].
Proof.
case=> h1 h2 h3 h4 h5 hc hd edt dt0 hsq m1 hm ad hnum.
have [H [EH wH sH dH v]] := undisc_back (f := f) h1 h2 h3 h4 h5 hc hd (erefl (ttf O)) edt dt0 hsq hm ad hnum.
exists H; split=> // F g s; have [a b] := v F g s; split=> // u0; apply: a; exact: mulVf.
Qed.

Theorem C84_round_trip_backward G (dt : R) (meth : string) pw pw' q0 q1 O :
  contracts f re absL lsq sca svd -> convertible eps G -> dynamic (XT G) -> tdt G = None ->
  0 < dt -> sq dt ^+ 2 = dt ->
  str_in meth [:: "backward difference"; "backward euler"; "backward rectangular"; "<<"]%string ->
  all_def idm G dt^-1 -> num_d G dt meth pw q0 ->
  disc_t G dt meth pw q0 = Ok O -> convertible eps (ttf O) -> num_u (ttf O) dt meth pw' q1 ->
  exists H, [/\ undisc_t O None pw' q1 = Ok H, wfT H, tshape H = tshape G, tdt H = None & tf_eq G H].
Proof.
move=> hk hc hd edt dt0 hsq hm ad hnum EO hcO hnumO; have [w _ _ _] := hc.
have [O' [EO' [wO sO dO mO] vO]] := C84_backward hk hc hd edt dt0 hsq hm ad hnum.
move: EO'; rewrite EO => -[eO]; rewrite -{O'}eO in wO sO dO mO vO.
have [ep em] : tp (ttf O) = tp G /\ tm (ttf O) = tm G by rewrite /tp /tm sO.
pose P : {poly R} := 1 - dt *: 'X.
have Pe s : P.[s] = 1 - s * dt by rewrite !hornerE mulrC.
have P0 : P != 0 by apply/eqP => e; have := Pe 0; rewrite e horner0 mul0r subr0 => /esym/eqP; rewrite oner_eq0.
pose zm s : R := (1 - s * dt)^-1.
have same s : P.[s] != 0 -> tf_same idm G (ttf O) (zm s) s.
  rewrite Pe => k0; have [a _] := vO R idm (zm s).
  have z0 : zm s != 0 by rewrite invr_eq0.
  have e : s = (zm s - 1) / (zm s * idm dt).
    apply: (mulIf (mulf_neq0 z0 (lt0r_neq0 dt0))); rewrite divfK ?mulf_neq0 ?(lt0r_neq0 dt0) //.
    by apply: (mulfI k0); rewrite mulrBr mulfV // mulr1 mulrCA [_ * (zm s * dt)]mulrA mulfV // mul1r opprB addrC subrK.
  by rewrite [X in tf_same _ _ _ _ X]e; exact: a.
have dd : dynamic (XT (ttf O)) by exact: dyn_map w P0 sO same hd.
have adO : all_def idm (ttf O) 0.
  move=> i j; rewrite ep em => hi hj; have [_ b] := vO R idm 0.
  by have [] := b erefl i j hi hj.
have hm' : str_in (odflt "tustin"%string (tmeth O)) [:: "backward euler"; "backward difference"; "backward rectangular"; "<<"]%string.
  by rewrite mO; exact: names_bw.
have [|H [EH wH sH dH v]] := C84_undiscretize_backward (m0 := None) (pw := pw') (q0 := q1) hk hcO dd dO dt0 hsq hm' adO.
  by rewrite mO.
exists H; split=> //; first by rewrite sH.
apply: (round_tf w P0 sO) => s Ps; split; first exact: same.
by have [a _] := v R idm s; apply: a; rewrite /= -Pe.
Qed.

(* undiscretize with a matrix, given or recorded: 1/z = q22 + q21 q12 / (s - q11), with q itself and not its inverse (C38) *)
Theorem C84_undiscretize_lft O (dt : R) m0 pw q0 (q : arr R) :
  contracts f re absL lsq sca svd -> convertible eps (ttf O) -> dynamic (XT (ttf O)) -> tdt (ttf O) = Some dt ->
  (if m0 is Some m then m else odflt "tustin"%string (tmeth O)) = "lft"%string ->
  (q0 = Some q \/ q0 = None /\ tq O = Some q) -> shp q = (2, 2)%N ->
  (get q 1 1 != 0 -> all_def idm (ttf O) (get q 1 1)^-1) -> num_u (ttf O) dt "lft"%string pw (Some q) ->
  exists H, [/\ undisc_t O m0 pw q0 = Ok H, wfT H, tshape H = tshape (ttf O), tdt H = None &
   forall (F : fieldType) (g : {rmorphism R -> F}) (s : F),
   let q11 := g (get q 0 0) in let q12 := g (get q 0 1) in let q21 := g (get q 1 0) in let q22 := g (get q 1 1) in
   let x := q22 + q21 * q12 / (s - q11) in
    s != q11 -> (x != 0 -> tf_same g (ttf O) H s x^-1) /\ (x = 0 -> tf_inf g (ttf O) H s)].
Proof.
case=> h1 h2 h3 h4 h5 hc hd edt em hq sq2 ad hnum.
have eq' : (if String.eqb (if m0 is Some m then m else odflt "tustin"%string (tmeth O)) "lft" then
     if ~~ isSome (tq O) && ~~ isSome q0 then Err ValueError else Ok (if isSome q0 then q0 else tq O)
   else Ok q0) = Ok (Some q) by rewrite em /=; case: hq => [->|[-> ->]] //=; rewrite andbF.
have ea T : undiscretize_args sq tg pi logm bal nz T dt (if m0 is Some m then m else odflt "tustin"%string (tmeth O)) pw (Some q)
    = simple_lft q (sa T) (sb T) (sc T) (sd T) by rewrite em.
have hp : get q 1 1 = 0 \/ get q 1 1 != 0 /\ all_def idm (ttf O) (get q 1 1)^-1.
  by case: (eqVneq (get q 1 1) 0) => [->|c0]; [left | right; split=> //; exact: ad].
rewrite -em in hnum.
have [H [EH wH sH dH v]] := undisc_lft (f := f) h1 h2 h3 h4 h5 hc hd (erefl (ttf O)) edt eq' ea sq2 hp hnum.
exists H; split=> // F g s q11 q12 q21 q22 x sq1; have [a b] := v F g s.
have d0 : s - q11 != 0 by rewrite subr_eq0.
have ek : g (get q 1 1) * (s - g (get q 0 0)) + g (get q 0 1) * g (get q 1 0) = x * (s - q11).
  by rewrite /x mulrDl divfK // [q21 * q12]mulrC.
rewrite ek in a b; split=> x0; last by apply: b => //; rewrite x0 mul0r.
by apply: a; [rewrite mulf_neq0 | rewrite mulrA mulVf // mul1r].
Qed.

(* zero-order and first-order hold: the Transfer of the held State model (C40) of the realisation *)
Theorem C84_zoh G (dt : R) pw q0 :
  contracts f re absL lsq sca svd -> exp_like expm -> balances bal -> convertible eps G -> dynamic (XT G) -> tdt G = None ->
  0 < dt -> num_d G dt "zoh"%string pw q0 ->
  exists K O, [/\ transfer_to_state lcmf eps G = Ok K, disc_t G dt "zoh" pw q0 = Ok O, tf_sampled G dt "zoh" O &
   let n := snn K in let m := smn K in let E := expm (ascaler (zohM K) dt) in
   let Kd := St (asubm E 0 n 0 n) (asubm E 0 n n (n + m)) (sc K) (sd K) false (Some dt) in
   forall (F : fieldType) (g : {rmorphism R -> F}) (z : F), regS g Kd z ->
    forall i j, (i < tp G)%N -> (j < tm G)%N -> dfT g (ttf O) z i j /\ evT g (ttf O) z i j = ev g Kd z i j].
Proof.
case=> h1 h2 h3 h4 h5 he hb hc hd edt dt0 hnum.
have [K [EK gc n0 gK gG]] := tts_dyn h4 h5 hc hd; have [wK _ dK _ _] := gc; rewrite edt in dK.
have [E wd sE] := disc_zohP sq tg pi hb he pw q0 wK gK dK dt0.
have sm : sampled K dt "zoh" (DSys (St (asubm (expm (ascaler (zohM K) dt)) 0 (snn K) 0 (snn K))
    (asubm (expm (ascaler (zohM K) dt)) 0 (snn K) (snn K) (snn K + smn K)) (sc K) (sd K) false (Some dt)) (Some "zoh"%string) None 0).
  by split=> //=; rewrite /snn /= subn0.
have [O [EO sO _ _ vO]] := lift_disc (f := f) h1 h2 h3 h4 h5 hc hd edt EK E sm hnum.
by exists K, O; split=> // n m EE Kd F g z; have [_ _] := vO F g z.
Qed.

Theorem C84_foh G (dt : R) pw q0 :
  contracts f re absL lsq sca svd -> exp_like expm -> balances bal -> convertible eps G -> dynamic (XT G) -> tdt G = None ->
  0 < dt -> num_d G dt "foh"%string pw q0 ->
  exists K O, [/\ transfer_to_state lcmf eps G = Ok K, disc_t G dt "foh" pw q0 = Ok O, tf_sampled G dt "foh" O &
   let n := snn K in let m := smn K in let E := expm (fohM K dt) in
   let F := asubm E 0 n 0 n in let G1 := asubm E 0 n n (n + m) in let G2 := asubm E 0 n (n + m) (n + 2 * m) in
   let Kd := St F (asub (aadd G1 (amul F G2)) G2) (sc K) (aadd (sd K) (amul (sc K) G2)) false (Some dt) in
   forall (F' : fieldType) (g : {rmorphism R -> F'}) (z : F'), regS g Kd z ->
    forall i j, (i < tp G)%N -> (j < tm G)%N -> dfT g (ttf O) z i j /\ evT g (ttf O) z i j = ev g Kd z i j].
Proof.
case=> h1 h2 h3 h4 h5 he hb hc hd edt dt0 hnum.
have [K [EK gc n0 gK gG]] := tts_dyn h4 h5 hc hd; have [wK _ dK _ _] := gc; rewrite edt in dK.
have [E wd] := disc_fohP sq tg pi hb he pw q0 wK gK dK dt0.
set Kd := St _ _ _ _ _ _ in E wd.
have sm : sampled K dt "foh" (DSys Kd (Some "foh"%string) None 0).
  by split=> //=; rewrite /snn /= subn0.
have [O [EO sO _ _ vO]] := lift_disc (f := f) h1 h2 h3 h4 h5 hc hd edt EK E sm hnum.
by exists K, O; split=> // n m EE F G1 G2 Kd' F' g z; have [_ _] := vO F' g z.
Qed.

(* static gains with one input and one output, or several of both, keep their value and get the sampling period *)
Theorem C84_gain_partial G (dt : R) (meth : string) pw q0 :
  wfT G -> tgain G -> (forall i j, (i < tp G)%N -> (j < tm G)%N -> size (ent (tn G) i j) = 1%N) -> tdt G = None -> 0 < dt ->
  str_in meth [:: "bilinear"; "tustin"; "zoh"; "foh"; "forward difference"; "forward euler"; "forward rectangular";
      "backward difference"; "backward euler"; "backward rectangular"; "lft"; ">>"; "<<"]%string ->
  (tp G == 1%N) = (tm G == 1%N) ->
  exists O, [/\ disc_t G dt meth pw q0 = Ok O, wfT (ttf O) && tgain (ttf O), tshape (ttf O) = tshape G,
    tdt (ttf O) = Some dt /\ tmeth O = None &
    forall (F : fieldType) (g : {rmorphism R -> F}) s i j, (i < tp G)%N -> (j < tm G)%N ->
      evT g (ttf O) s i j = evT g G s i j].
Proof.
move=> w hg h1 edt dt0 km e; case: (wfTP w) => -[hp hm rN rD] hd hc hgain hdt.
have hs i j : (i < tp G)%N -> (j < tm G)%N -> size (ent (td G) i j) = 1%N.
  by move=> hi hj; move: hgain; rewrite hg => /esym/all2P h; apply/eqP; exact: h.
have [A EA] : exists A, tf_array G = Ok A.
  rewrite /tf_array hg /arrR (gridR_tot (g := fun i j => head 0 (ent (tn G) i j) / head 0 (ent (td G) i j))).
    by eexists.
  by move=> i j hi hj; rewrite /div11 h1 // hs // eqxx /= hd.
have [a1 a2 wA hA] := tf_arrayP w EA.
have [K [EK _ _ _ _]] := tts_gainP eps lcmf w hg h1.
rewrite /discretize_t km edt hg EK EA [bind _ _]/= mk_arr_ok ?a1 ?a2 //.
have -> : ((tp G == 1%N) && (tm G == 1%N) || (1 < tp G)%N && (1 < tm G)%N).
  by move: hp hm e; case: (tp G) => [|[|p]]; case: (tm G) => [|[|m]].
rewrite [bind _ _]/=; set H := Tf _ _ _ _; eexists; split; first reflexivity.
- have rNK : rect (tp G) (tm G) (tn H) by exact: rect_grid.
  have shK : tshape H = (tp G, tm G) by rewrite /tshape /pshape (rect_pshape hp rNK).
  have r1 : rect (tp G) (tm G) (td H) by exact: rect_grid.
  rewrite andbT /wfT /tp /tm shK /= -/(tp G) -/(tm G) hp hm rNK r1 dt0 /=.
  rewrite !(rect_flatten [::] _ r1) andbT; apply/and3P; split.
  + by apply/all2P => i j hi hj; rewrite gnt_grid //= oner_eq0.
  + by apply/all2P => i j hi hj; rewrite !ent_grid //= polyhi1 size_polyC; case: eqP.
  by apply/eqP/esym/all2P => i j hi hj; rewrite gnt_grid.
- have rNK : rect (tp G) (tm G) (tn H) by exact: rect_grid.
  by rewrite /= {1}/tshape /pshape (rect_pshape hp rNK).
- by [].
move=> F g s i j hi hj; rewrite (hA F g s i j hi hj) /evT /= !ent_grid // /pev !polyhi1 !map_polyC !hornerC.
by rewrite /= rmorph1 divr1.
Qed.

(* False for the other static gains: they cannot be discretised, the array is read as the coefficients of one polynomial *)
Theorem C84_vector_gain_refuted G (dt : R) (meth : string) pw q0 :
  wfT G -> tgain G -> (forall i j, (i < tp G)%N -> (j < tm G)%N -> size (ent (tn G) i j) = 1%N) -> tdt G = None -> 0 < dt ->
  (tp G == 1%N) != (tm G == 1%N) -> disc_t G dt meth pw q0 = Err ValueError.
Proof.
move=> w hg h1 edt dt0 e; case: (wfTP w) => -[hp hm rN rD] hd hc hgain hdt.
have hs i j : (i < tp G)%N -> (j < tm G)%N -> size (ent (td G) i j) = 1%N.
  by move=> hi hj; move: hgain; rewrite hg => /esym/all2P h; apply/eqP; exact: h.
have [A EA] : exists A, tf_array G = Ok A.
  rewrite /tf_array hg /arrR (gridR_tot (g := fun i j => head 0 (ent (tn G) i j) / head 0 (ent (td G) i j))).
    by eexists.
  by move=> i j hi hj; rewrite /div11 h1 // hs // eqxx /= hd.
have [a1 a2 wA hA] := tf_arrayP w EA.
have [K [EK _ _ _ _]] := tts_gainP eps lcmf w hg h1.
rewrite /discretize_t edt hg EK EA; case: (str_in _ _) => //=; rewrite mk_arr_ok ?a1 ?a2 //.
by move: hp hm e; case: (tp G) => [|[|p]]; case: (tm G) => [|[|m]].
Qed.

(* False of the code: no static gain can be undiscretised, line 269 passes the bound method G.to_array to Transfer *)
Theorem C84_undiscretize_gain_refuted O m0 pw q0 : tgain (ttf O) -> undisc_t O m0 pw q0 = Err ValueError.
Proof.
move=> hg; rewrite /undiscretize_t hg; case: (tdt _) => // dt; case: (String.eqb _ _) => //=.
by case: (_ && _).
Qed.
End DiscT.
Print Assumptions C84_tustin.
Print Assumptions C84_prewarp.
Print Assumptions C84_forward.
Print Assumptions C84_backward.
Print Assumptions C84_lft.
Print Assumptions C84_refused.
Print Assumptions C84_undiscretize_refused.
Print Assumptions C84_undiscretize_tustin.
Print Assumptions C84_undiscretize_forward.
Print Assumptions C84_undiscretize_backward.
Print Assumptions C84_undiscretize_lft.
Print Assumptions C84_round_trip_tustin.
Print Assumptions C84_round_trip_forward.
Print Assumptions C84_round_trip_backward.
Print Assumptions C84_zoh.
Print Assumptions C84_foh.
Print Assumptions C84_gain_partial.
Print Assumptions C84_vector_gain_refuted.
Print Assumptions C84_undiscretize_gain_refuted.

(* Concrete cases: 1/(s + 1) with sampling period 1.  Tustin gives (z + 1)/3 / (z - 1/3), and back *)
Local Notation Q := rat_realFieldType.
Definition dG : tf Q := Tf [:: [:: [:: 1]]] [:: [:: [:: 1; 1]]] false None.
Definition third : Q := 3%:Q^-1.
Definition dH : tf Q := Tf [:: [:: [:: third; third]]] [:: [:: [:: 1; - third]]] false (Some 1).
Definition id1 (x : Q) : Q := x.

Section Ex.
Variable R : realFieldType.
Lemma ex_num1 (a b c d : R) dt : numerics_ok [rmorphism of @idfun R] (fun _ => [:: a]) (fun _ _ _ => [::])
  (St (of_rows [:: [:: a]]) (of_rows [:: [:: b]]) (of_rows [:: [:: c]]) (of_rows [:: [:: d]]) false dt).
Proof.
split.
  rewrite /eig_ok map_poly_id // char_poly_trig.
    by rewrite big_seq1 big_ord1 !mxE.
  by apply/is_trig_mxP => i j; rewrite mxE; case: i => [[|i]] //= hi; case: j => [[|j]].
move=> i j; rewrite /spn /smn /= !ltnS !leqn0 => /eqP -> /eqP ->; exists (c * b), 1; split.
  by rewrite big_nil rmorph1.
rewrite /numpoly !mxE big_ord1 !mxE big_ord1 !mxE /= /cofactor det_mx00 mulr1 expr0 mulr1 alg_polyC.
by rewrite -polyCM.
Qed.
End Ex.

Lemma ex_pev (R : realFieldType) (a b s : R) : pev [rmorphism of @idfun R] [:: a; b] s = a * s + b.
Proof. by rewrite pevid polyhi2 !hornerE. Qed.

Example C84_ex_G : [/\ convertible (1 / 100%:~R) dG, dynamic (XT dG) & all_def [rmorphism of @idfun Q] dG (2%:R / 1)].
Proof.
split.
- split=> //; first by rewrite wfTE; vm_compute.
  by move=> _; rewrite /ent /= polyhi1 size_polyC oner_eq0.
- by exists 0%N, 0%N; split=> //; rewrite coef_polyhi /= mul0r scale0r head_polyhi //=.
move=> i j; have -> : tp dG = 1%N by []. have -> : tm dG = 1%N by [].
rewrite !ltnS !leqn0 => /eqP -> /eqP ->; rewrite /dfT ex_pev; by vm_compute.
Qed.
Example C84_ex_H : [/\ convertible (1 / 100%:~R) dH, dynamic (XT dH) & all_def [rmorphism of @idfun Q] dH (-1)].
Proof.
split.
- split=> //; first by rewrite wfTE; vm_compute.
  move=> _ _; rewrite /remS -[polyhi (ent (td dH) 0 0)]/(polyhi [:: 1; - third]) lead_coef_polyhi ?oner_eq0 // invr1 scale1r.
  by apply: clean_ex; vm_compute.
- exists 0%N, 0%N; split=> //; rewrite -[ent (tn dH) 0 0]/[:: third; third] -[ent (td dH) 0 0]/[:: 1; - third].
  apply/eqP => /(congr1 (fun P : {poly Q} => P`_0)); rewrite coefZ !coef_polyhi /=.
  by move=> /eqP; apply/negP; vm_compute.
move=> i j; have -> : tp dH = 1%N by []. have -> : tm dH = 1%N by [].
rewrite !ltnS !leqn0 => /eqP -> /eqP ->; rewrite /dfT ex_pev; by vm_compute.
Qed.
(* the discretised State model, its eigenvalue and zeros, and the Transfer: tustin and back, with the primitives the
   methods do not use arbitrary *)
Definition dct tg pi expm bal a meth q (G : tf Q) :=
  discretize_t [rmorphism of @idfun Q] id1 tg pi expm bal id (fun x => `|x|) (fun _ => [:: a]) (fun _ _ _ => [::])
    (@slsq Q) exl (1 / 100%:~R) G 1 meth 0 q.
Definition udt tg pi logm bal nz a (o : dtf Q) :=
  undiscretize_t [rmorphism of @idfun Q] id1 tg pi logm bal nz id (fun x => `|x|) (fun _ => [:: a]) (fun _ _ _ => [::])
    (@slsq Q) exl (1 / 100%:~R) o None 0 None.
Definition st1 (a b c d : Q) dt : state Q := St (qa [:: [:: a]]) (qa [:: [:: b]]) (qa [:: [:: c]]) (qa [:: [:: d]]) false dt.
Definition same_st (K K' : state Q) : bool :=
  [&& aeq (sa K) (sa K'), aeq (sb K) (sb K'), aeq (sc K) (sc K'), aeq (sd K) (sd K') & (sgain K == sgain K') && (sdt K == sdt K')].
Definition same_ttf (H H' : tf Q) : bool := [&& tn H == tn H', td H == td H', tgain H == tgain H' & tdt H == tdt H'].

Example C84_ex_tustin tg pi expm logm bal nz :
  (if disc_state id1 tg pi expm bal exl (1 / 100%:~R) dG 1 "tustin" 0 None is Ok K
   then same_st K (st1 third (2%:Q / 3%:Q) (2%:Q / 3%:Q) third (Some 1)) else false) &&
  (if dct tg pi expm bal third "tustin" None dG is Ok o
   then same_ttf (ttf o) dH && (if udt tg pi logm bal nz (-1) o is Ok H then same_ttf H dG else false) else false).
Proof. by vm_compute. Qed.
(* forward: 1/z; backward: 1/2 z / (z - 1/2), whose conversion back is 1/(s + 1) *)
Example C84_ex_others tg pi expm logm bal nz :
  (if dct tg pi expm bal 0 ">>" None dG is Ok o
   then same_ttf (ttf o) (Tf [:: [:: [:: 1]]] [:: [:: [:: 1; 0]]] false (Some 1)) &&
     (if udt tg pi logm bal nz (-1) o is Ok H then same_ttf H dG else false) else false) &&
  (if dct tg pi expm bal 2%:Q^-1 "<<" None dG is Ok o
   then same_ttf (ttf o) (Tf [:: [:: [:: 2%:Q^-1; 0]]] [:: [:: [:: 1; - 2%:Q^-1]]] false (Some 1)) &&
     (if udt tg pi logm bal nz (-1) o is Ok H then same_ttf H dG else false) else false).
Proof. by vm_compute. Qed.
(* gains: [[1 2], [3 4]] keeps its value, [1 2] is refused *)
Definition g22 : tf Q := Tf [:: [:: [:: 1]; [:: 2%:Q]]; [:: [:: 3%:Q]; [:: 4%:Q]]] [:: [:: [:: 1]; [:: 1]]; [:: [:: 1]; [:: 1]]] true None.
Definition g12 : tf Q := Tf [:: [:: [:: 1]; [:: 2%:Q]]] [:: [:: [:: 1]; [:: 1]]] true None.
Example C84_ex_gain : wfT g22 && tgain g22 && (tdt g22 == None) && ((tp g22 == 1%N) == (tm g22 == 1%N)) &&
  wfT g12 && tgain g12 && (tdt g12 == None) && ((tp g12 == 1%N) != (tm g12 == 1%N)).
Proof. by rewrite !wfTE; vm_compute. Qed.
