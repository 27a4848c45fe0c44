(* Lemmas about the discretisation model. *)
From mathcomp Require Import all_ssreflect all_algebra zify.
From Coq Require Import String.
From Verif Require Import RingTac Base BaseTheory Spec TfTheory ModelState Denote StateTheory FeedbackTheory ModelObject ModelDiscrete DenoteD.

Set Implicit Arguments.
Unset Strict Implicit.
Unset Printing Implicit Defensive.

Import Order.TTheory GRing.Theory Num.Theory.
Local Open Scope ring_scope.

(* The star product of the 2-by-2 matrix q with a model, in terms of matrices. *)
Section LftMx.
Variable L : fieldType.
Variables (q11 q12 q21 q22 : L).
Variables (n m p : nat) (A : 'M[L]_n) (B : 'M[L]_(n, m)) (C : 'M[L]_(p, n)) (D : 'M[L]_(p, m)).

Definition lftN := 1%:M - q22 *: A.
Local Notation N := lftN.
Definition lftA := q11%:M + (q12 * q21) *: (A *m invmx N).
Definition lftB := q12 *: (invmx N *m B).
Definition lftC := q21 *: (C *m invmx N).
Definition lftD := D + q22 *: (C *m invmx N *m B).
Hypothesis uN : N \in unitmx.

Lemma comm_AN : A *m N = N *m A.
Proof. by rewrite /N mulmxBr mulmxBl mulmx1 mul1mx -scalemxAl -scalemxAr. Qed.

Lemma comm_ANi : invmx N *m A = A *m invmx N.
Proof. by apply: (can_inj (mulKmx uN)); rewrite mulKVmx // mulmxA -comm_AN -mulmxA mulmxV // mulmx1. Qed.

Lemma inv_N : q22 *: (A *m invmx N) + 1%:M = invmx N.
Proof.
have <- : N *m invmx N = 1%:M by rewrite mulmxV.
by rewrite {2}/N mulmxBl mul1mx -scalemxAl addrC subrK.
Qed.

Lemma lftA_N : lftA *m N = q11%:M + (q12 * q21 - q11 * q22) *: A.
Proof.
rewrite /lftA mulmxDl -scalemxAl -mulmxA mulVmx // mulmx1 mul_scalar_mx /N scalerBr scalemx1 scalerA.
by rewrite scalerBl addrAC -addrA.
Qed.

(* substitution s k = z - q11, k = q22 (z - q11) + q12 q21 *)
Section Subst.
Variables (z s : L).
Let k := q22 * (z - q11) + q12 * q21.
Hypothesis k0 : k != 0.
Hypothesis sk : s * k = z - q11.

Lemma lft_char : z%:M - lftA = k *: ((s%:M - A) *m invmx N).
Proof.
apply: (can_inj (mulmxK uN)); rewrite mulmxBl lftA_N -scalemxAl mulmxKV // mul_scalar_mx.
rewrite [RHS]scalerBr scale_scalar_mx [k * s]mulrC sk.
apply/matrixP => i j; rewrite !mxE /k; move: (A i j) => a.
case: (i == j); rewrite ?mulr1n ?mulr0n; mc_ring L.
Qed.

Lemma lft_regular : regular lftA z = regular A s.
Proof.
by rewrite /regular lft_char unitmxZ ?unitfE // unitmx_mul unitmx_inv uN andbT.
Qed.

Lemma lft_tf : regular A s -> tfmx lftA lftB lftC lftD z = tfmx A B C D s.
Proof.
move=> r; pose X := (q12 / k) *: (invmx (s%:M - A) *m B).
have comm : invmx N *m (s%:M - A) = (s%:M - A) *m invmx N.
  by rewrite mulmxBr mulmxBl comm_ANi scalar_mxC.
have eX : (z%:M - lftA) *m X = lftB.
  rewrite lft_char -comm /X -scalemxAl -scalemxAr scalerA [k * _]mulrC divfK // -!mulmxA.
  by rewrite [_ *m (invmx _ *m B)]mulmxA mulmxV // mul1mx.
rewrite (tfmx_solve _ _ _ eX); last by rewrite lft_regular.
rewrite /lftD /tfmx -addrA; congr (_ + _).
rewrite /lftC /X -scalemxAl -scalemxAr scalerA -!mulmxA.
set Y := invmx (s%:M - A) *m B.
have eB : B = (s%:M - A) *m Y by rewrite /Y mulmxA mulmxV // mul1mx.
clearbody Y; rewrite eB !scalemxAr -!mulmxDr; congr (C *m _).
apply: (can_inj (mulKmx uN)); rewrite mulKVmx // -scalemxAr scalemxAl -[_ *: Y]mul_scalar_mx -mulmxDl.
congr (_ *m _); apply/matrixP => i j; rewrite !mxE; move: (A i j) => a.
have e1 : q22 * s + q21 * (q12 / k) = 1.
  apply: (mulIf k0); rewrite mulrDl -mulrA sk mul1r mulrA divfK // /k; mc_ring L.
case: (i == j); rewrite ?mulr1n ?mulr0n; last mc_ring L.
rewrite mulrDr addrAC e1; mc_ring L.
Qed.
End Subst.

(* the points that the substitution maps to infinity *)
Lemma lft_inf z : q22 * (z - q11) + q12 * q21 = 0 -> z != q11 ->
  regular lftA z /\ tfmx lftA lftB lftC lftD z = D.
Proof.
move=> k0 zq; have zq' : z - q11 != 0 by rewrite subr_eq0.
have ch : z%:M - lftA = (z - q11) *: invmx N.
  apply: (can_inj (mulmxK uN)); rewrite mulmxBl lftA_N mul_scalar_mx -scalemxAl mulVmx // /N.
  have e : q12 * q21 = - q22 * (z - q11) by apply/eqP; rewrite mulNr -addr_eq0 addrC k0.
  rewrite e; apply/matrixP => i j; rewrite !mxE; move: (A i j) => a.
  case: (i == j); rewrite ?mulr1n ?mulr0n; mc_ring L.
have r : regular lftA z by rewrite /regular ch unitmxZ ?unitfE // unitmx_inv.
split=> //; pose X := (q12 / (z - q11)) *: B.
have eX : (z%:M - lftA) *m X = lftB.
  rewrite ch /X -scalemxAl -scalemxAr scalerA mulrCA mulfV // mulr1 //.
rewrite (tfmx_solve _ _ r eX) /lftD /lftC /X -scalemxAl -scalemxAr scalerA -addrA -scalerDl.
suff -> : q22 + q21 * (q12 / (z - q11)) = 0 by rewrite scale0r addr0.
by apply: (mulIf zq'); rewrite mul0r mulrDl -mulrA divfK // [q21 * _]mulrC.
Qed.

(* the star product with q' undoes the one with q up to constants *)
Section Inverse.
Variables (r11 r12 r21 r22 : L).
Let c := 1 - r22 * q11.
Let N' := 1%:M - r22 *: lftA.
Hypothesis c0 : c != 0.
Hypothesis r22E : r22 * (q12 * q21 - q11 * q22) = - q22.

Lemma lft2_N : N' = c *: invmx N.
Proof.
apply: (can_inj (mulmxK uN)); rewrite mulmxBl mul1mx -!scalemxAl lftA_N mulVmx // /N /c.
rewrite scalerDr scalerA r22E; apply/matrixP => i j; rewrite !mxE; move: (A i j) => a.
case: (i == j); rewrite ?mulr1n ?mulr0n; mc_ring L.
Qed.

Lemma lft2_unit : N' \in unitmx.
Proof. by rewrite lft2_N unitmxZ ?unitfE // unitmx_inv. Qed.

Lemma lft2_inv : invmx N' = c^-1 *: N.
Proof. by rewrite lft2_N invmxZ ?invmxK // unitmxZ ?unitfE // unitmx_inv. Qed.
End Inverse.
End LftMx.

Section LftTwice.
Variable L : fieldType.
Variables (q11 q12 q21 q22 r11 r12 r21 r22 : L).
Variables (n m p : nat) (A : 'M[L]_n) (B : 'M[L]_(n, m)) (C : 'M[L]_(p, n)) (D : 'M[L]_(p, m)).
Hypothesis uN : lftN q22 A \in unitmx.
Let c := 1 - r22 * q11.
Let de := q12 * q21 - q11 * q22.
Hypothesis c0 : c != 0.
Hypothesis r22E : r22 * de = - q22.
Let A1 := lftA q11 q12 q21 q22 A.
Let B1 := lftB q12 q22 A B.
Let C1 := lftC q21 q22 A C.
Let D1 := lftD q22 A B C D.

Lemma lft2A : lftA r11 r12 r21 r22 A1 = (r11 + r12 * r21 * q11 / c)%:M + (r12 * r21 * de / c) *: A.
Proof.
rewrite /lftA lft2_inv // -scalemxAr lftA_N // !scalerDr !scalerA scale_scalar_mx.
rewrite addrA -raddfD /=; congr (_%:M + _ *: _); first by rewrite mulrAC.
by rewrite mulrAC.
Qed.

Lemma lft2B : lftB r12 r22 A1 B1 = (r12 * q12 / c) *: B.
Proof. rewrite /lftB lft2_inv // /B1 /lftB -!scalemxAr -!scalemxAl !scalerA mulKVmx //; congr (_ *: _); rewrite ?/c; mc_ring L. Qed.

Lemma lft2C : lftC r21 r22 A1 C1 = (r21 * q21 / c) *: C.
Proof. rewrite /lftC lft2_inv // /C1 /lftC -!scalemxAr -!scalemxAl !scalerA mulmxKV //; congr (_ *: _); rewrite ?/c; mc_ring L. Qed.

Lemma lft2D : q22 * c + r22 * (q12 * q21) = 0 -> lftD r22 A1 B1 C1 D1 = D.
Proof.
move=> h; rewrite /lftD lft2_inv // /D1 /lftD /C1 /B1 /lftB /lftC.
rewrite -!scalemxAr -!scalemxAl !scalerA mulmxKV // mulmxA -addrA -scalerDl.
set x := (X in X *: _); suff -> : x = 0 by rewrite scale0r addr0.
have xE : x = q22 + r22 * (q12 * q21) * c^-1 by rewrite /x ?/c; mc_ring L.
by apply: (mulIf c0); rewrite xE mulrDl divfK // mul0r.
Qed.
End LftTwice.

(* ------------------------------------------------------------------ *)
(* The function of the code                                             *)
Section Code.
Variable R : realFieldType.
Implicit Types (G K : state R) (A B C D : arr R).

Lemma mxof_scaler (L : fieldType) (f : {rmorphism R -> L}) c m n A : nr A = m -> nc A = n ->
  mxof f m n (ascaler A c) = f c *: mxof f m n A.
Proof. by move=> <- <-; rewrite mxof_mk; apply/matrixP=> i j; rewrite !mxE rmorphM mulrC. Qed.

Definition lftNa n (q22 : R) A := asub (aeye n) (ascale q22 A).

Lemma lftNaE (L : fieldType) (f : {rmorphism R -> L}) n q22 A : nr A = n -> nc A = n ->
  mxof f n n (lftNa n q22 A) = lftN (f q22) (mxof f n n A).
Proof. by move=> e1 e2; rewrite mxof_sub // mxof_eye mxof_scale. Qed.

Lemma lftNa_unit (L : fieldType) (f : {rmorphism R -> L}) n q22 A : nr A = n -> nc A = n ->
  (lftN (f q22) (mxof f n n A) \in unitmx) = (adet (lftNa n q22 A) != 0).
Proof. by move=> e1 e2; rewrite -lftNaE // (unit_adet f). Qed.

Lemma lftNa0 n A : nr A = n -> nc A = n -> adet (lftNa n 0 A) != 0.
Proof.
move=> e1 e2; rewrite -(lftNa_unit [rmorphism of @idfun R]) // /lftN scale0r subr0; exact: unitmx1.
Qed.

Lemma q2E (q11 q12 q21 q22 : R) : let q := q2 q11 q12 q21 q22 in
  [/\ shp q = (2, 2)%N, get q 0 0 = q11, get q 0 1 = q12, get q 1 0 = q21 & get q 1 1 = q22].
Proof. by []. Qed.

Lemma simple_lft_err q n A B C D : shp q = (2, 2)%N -> nr A = n -> nc A = n ->
  adet (lftNa n (get q 1 1) A) = 0 -> simple_lft q A B C D = Err LinAlgError.
Proof.
move=> e0 e1 e2 d0; rewrite /simple_lft e0 /=; set q22 := get q 1 1 in d0 *.
have q0 : (q22 == 0) = false.
  by apply/negP => /eqP q0; move: (lftNa0 e1 e2); rewrite -[X in lftNa _ X]q0 d0 eqxx.
rewrite q0 np_sub_same ?e1 // [bind _ _]/= (np_solveP (n := n) (k := n)) //.
by rewrite -/(lftNa n q22 A) d0 eqxx.
Qed.

Lemma simple_lftP q n m p A B C D :
  shp q = (2, 2)%N ->
  shp A = (n, n) -> shp B = (n, m) -> shp C = (p, n) -> shp D = (p, m) -> wfa D ->
  adet (lftNa n (get q 1 1) A) != 0 ->
  exists Ad Bd Cd Dd, [/\ simple_lft q A B C D = Ok (Ad, Bd, Cd, Dd),
    [/\ wfa Ad, wfa Bd, wfa Cd & wfa Dd],
    [/\ shp Ad = (n, n), shp Bd = (n, m), shp Cd = (p, n) & shp Dd = (p, m)] &
   forall (L : fieldType) (f : {rmorphism R -> L}),
    let A' := mxof f n n A in let B' := mxof f n m B in let C' := mxof f p n C in let D' := mxof f p m D in
    let q11 := f (get q 0 0) in let q12 := f (get q 0 1) in
    let q21 := f (get q 1 0) in let q22 := f (get q 1 1) in
   [/\ mxof f n n Ad = lftA q11 q12 q21 q22 A',
       mxof f n m Bd = lftB q12 q22 A' B',
       mxof f p n Cd = lftC q21 q22 A' C' &
       mxof f p m Dd = lftD q22 A' B' C' D']].
Proof.
case: A B C D => [? ? dA] [? ? dB] [? ? dC] [? ? dD] eq0 [-> ->] [-> ->] [-> ->] [-> ->].
set A := Arr n n dA; set B := Arr n m dB; set C := Arr p n dC; set D := Arr p m dD => wD.
rewrite /simple_lft eq0 /=; move: (get q 0 0) (get q 0 1) (get q 1 0) (get q 1 1) => q11 q12 q21 q22 dN.
case: (eqVneq q22 0) => q0.
  rewrite [bind _ _]/= np_matmul_same // [bind _ _]/= np_add_same // [bind _ _]/= np_matmul_same // [bind _ _]/=.
  do 4!eexists; split; [by [] | by split=> //; apply: wfa_mk | by [] |] => L f.
  have fq : f q22 = 0 by rewrite q0 rmorph0.
  rewrite /lftA /lftB /lftC /lftD /lftN fq !scale0r !subr0 invmx1 !mulmx1 mul1mx addr0.
  split=> //.
  - rewrite mxof_add // mxof_scale // mxof_eye scalemx1 mxof_scaler // (@mxof_mul _ _ _ _ n) //.
    by rewrite mxof_scale // mxof_eye mulmx1 scalerA mulrC.
  - by rewrite mxof_scale.
  - by rewrite mxof_scaler // (@mxof_mul _ _ _ _ n) // mxof_eye mulmx1.
rewrite np_sub_same // [bind _ _]/= -/(lftNa n q22 A) (np_solveP (n := n) (k := n)) // (negbTE dN) [bind _ _]/=.
set Ni := amul _ _.
have Nin : nr Ni = n by []. have Nim : nc Ni = n by [].
have NiE (L : fieldType) (f : {rmorphism R -> L}) : mxof f n n Ni = invmx (lftN (f q22) (mxof f n n A)).
  by rewrite (@mxof_mul _ _ _ _ n) // mxof_eye mulmx1 mxof_inv // lftNaE.
clearbody Ni.
rewrite np_matmul_same ?Nin ?Nim // [bind _ _]/= np_add_same ?nr_mk ?nc_mk ?Nin ?Nim // [bind _ _]/=.
rewrite np_matmul_same ?nr_mk ?nc_mk ?Nin ?Nim // [bind _ _]/= np_add_same ?nr_mk ?nc_mk ?Nin ?Nim //.
rewrite [bind _ _]/= np_matmul_same ?nr_mk ?nc_mk ?Nin ?Nim // [bind _ _]/=.
rewrite np_matmul_same ?nr_mk ?nc_mk ?Nin ?Nim // [bind _ _]/=.
rewrite np_matmul_same ?nr_mk ?nc_mk ?Nin ?Nim // [bind _ _]/= np_add_same ?nr_mk ?nc_mk ?Nin ?Nim // [bind _ _]/=.
do 4!eexists; split; [by [] | by split=> //; apply: wfa_mk | by split; rewrite /shp ?nr_mk ?nc_mk ?Nin ?Nim |] => L f.
have uN : lftN (f q22) (mxof f n n A) \in unitmx by rewrite lftNa_unit.
have ANE : mxof f n n (amul A Ni) = mxof f n n A *m invmx (lftN (f q22) (mxof f n n A)).
  by rewrite (@mxof_mul _ _ _ _ n) // NiE.
have CNE : mxof f p n (amul C Ni) = mxof f p n C *m invmx (lftN (f q22) (mxof f n n A)).
  by rewrite (@mxof_mul _ _ _ _ n) // NiE.
split.
- rewrite mxof_add // mxof_scale // mxof_eye scalemx1 mxof_scaler // (@mxof_mul _ _ _ _ n) //.
  by rewrite mxof_scale // NiE -scalemxAl scalerA mulrC.
- rewrite (@mxof_mul _ _ _ _ n) ?nr_mk ?nc_mk // mxof_scale ?nr_mk ?nc_mk // mxof_add ?nr_mk ?nc_mk // mxof_eye.
  by rewrite mxof_scaler ?nr_mk ?nc_mk // ANE inv_N // -scalemxAl.
- by rewrite mxof_scaler ?nr_mk ?nc_mk // CNE.
- rewrite mxof_add // (@mxof_mul _ _ _ _ n) ?nr_mk ?nc_mk // mxof_scaler ?nr_mk ?nc_mk // CNE -scalemxAl.
  by [].
Qed.

(* a model obtained by the star product *)
Lemma lft_model q G dt Ad Bd Cd Dd : wfS G -> sgain G = false -> shp q = (2, 2)%N -> dt_ok dt ->
  adet (lftNa (snn G) (get q 1 1) (sa G)) != 0 ->
  simple_lft q (sa G) (sb G) (sc G) (sd G) = Ok (Ad, Bd, Cd, Dd) ->
  let Gd := St Ad Bd Cd Dd false dt in
  [/\ mkS Ad Bd Cd Dd dt = Ok Gd, wfS Gd, snn Gd = snn G, sshape Gd = sshape G &
   forall (L : fieldType) (f : {rmorphism R -> L}) (z : L),
    let q11 := f (get q 0 0) in let k := f (get q 1 1) * (z - q11) + f (get q 0 1) * f (get q 1 0) in
    (forall s, k != 0 -> s * k = z - q11 -> regS f Gd z = regS f G s /\
       (regS f G s -> evalS f (spn G) (smn G) Gd z = evalS f (spn G) (smn G) G s)) /\
    (k = 0 -> z != q11 -> regS f Gd z /\
       evalS f (spn G) (smn G) Gd z = mxof f (spn G) (smn G) (sd G))].
Proof.
move=> w ng eq0 okt dN; have [[wA wB wC wD] [eA eB eC eC' eB']] := wfS_dyn w ng.
have sA : shp (sa G) = (snn G, snn G) by rewrite /shp eA.
have sB : shp (sb G) = (snn G, smn G) by rewrite /shp eB eB'.
have sC : shp (sc G) = (spn G, snn G) by rewrite /shp eC eC'.
have sD : shp (sd G) = (spn G, smn G) by [].
have [A1 [B1 [C1 [D1 [-> [w1 w2 w3 w4] [s1 s2 s3 s4] h]]]]] := simple_lftP eq0 sA sB sC sD wD dN.
case=> <- <- <- <- Gd; case: s1 s2 s3 s4 => a1 a2 [b1 b2] [c1 c2] [d1 d2].
have nG : snn Gd = snn G by rewrite /snn /= a1.
split; rewrite ?/sshape ?d1 ?d2 //.
- by apply: mkS_ok; rewrite ?a1 ?a2 ?b1 ?b2 ?c1 ?c2 ?d1 ?d2.
- by apply: wfS_mk => //; rewrite ?a1 ?a2 ?b1 ?b2 ?c1 ?c2 ?d1 ?d2.
move=> L f z; have [eqA eqB eqC eqD] := h L f.
have uN : lftN (f (get q 1 1)) (mxof f (snn G) (snn G) (sa G)) \in unitmx by rewrite lftNa_unit.
have eR : regS f Gd z = regular (mxof f (snn G) (snn G) A1) z.
  by rewrite /regS; move: (snn Gd) nG => n' ->.
have eV : evalS f (spn G) (smn G) Gd z = tfmx (mxof f (snn G) (snn G) A1) (mxof f (snn G) (smn G) B1)
     (mxof f (spn G) (snn G) C1) (mxof f (spn G) (smn G) D1) z.
  by rewrite /evalS; move: (snn Gd) nG => n' ->.
split=> [s k0 sk | k0 zq]; rewrite eR eV eqA eqB eqC eqD.
  split; first exact: lft_regular.
  by move=> r; apply: lft_tf.
exact: lft_inf.
Qed.

Lemma lft_twice q r n m p A B C D A1 B1 C1 D1 : shp q = (2, 2)%N -> shp r = (2, 2)%N ->
  shp A = (n, n) -> shp B = (n, m) -> shp C = (p, n) -> shp D = (p, m) -> wfa D ->
  simple_lft q A B C D = Ok (A1, B1, C1, D1) ->
  let q11 := get q 0 0 in let q12 := get q 0 1 in let q21 := get q 1 0 in let q22 := get q 1 1 in
  let r11 := get r 0 0 in let r12 := get r 0 1 in let r21 := get r 1 0 in let r22 := get r 1 1 in
  let c := 1 - r22 * q11 in let de := q12 * q21 - q11 * q22 in
  c != 0 -> r22 * de = - q22 -> q22 * c + r22 * (q12 * q21) = 0 ->
  simple_lft r A1 B1 C1 D1 =
  Ok (aadd (ascale (r11 + r12 * r21 * q11 / c) (aeye n)) (ascale (r12 * r21 * de / c) A),
      ascale (r12 * q12 / c) B, ascale (r21 * q21 / c) C, D).
Proof.
move=> eq0 er0 sA sB sC sD wD eL q11 q12 q21 q22 r11 r12 r21 r22 c de c0 e1 e2.
have [eA eA'] : nr A = n /\ nc A = n by case: sA.
have [eB eB'] : nr B = n /\ nc B = m by case: sB.
have [eC eC'] : nr C = p /\ nc C = n by case: sC.
have [eD eD'] : nr D = p /\ nc D = m by case: sD.
have dN : adet (lftNa n q22 A) != 0.
  by apply/eqP => h; move: eL; rewrite (simple_lft_err _ _ _ eq0 eA eA').
have [A' [B' [C' [D' []]]]] := simple_lftP eq0 sA sB sC sD wD dN.
rewrite eL => -[<- <- <- <-] [wA1 wB1 wC1 wD1] [sA1 sB1 sC1 sD1] /(_ R [rmorphism of @idfun R]) /=.
set f := [rmorphism of _]; rewrite -/q11 -/q12 -/q21 -/q22 => -[EA EB EC ED].
have [eA1 eA1'] : nr A1 = n /\ nc A1 = n by case: sA1.
have uN : lftN q22 (mxof f n n A) \in unitmx by rewrite (lftNa_unit f).
have dN1 : adet (lftNa n r22 A1) != 0.
  by rewrite -(lftNa_unit f) // EA; apply: lft2_unit.
have [A2 [B2 [C2 [D2 []]]]] := simple_lftP er0 sA1 sB1 sC1 sD1 wD1 dN1.
move=> -> [wA2 wB2 wC2 wD2] [sA2 sB2 sC2 sD2] /(_ R f) /=; rewrite -/r11 -/r12 -/r21 -/r22.
rewrite EA EB EC ED lft2A // lft2B // lft2C // lft2D // -/c -/de.
case=> [EA2 EB2 EC2 ED2]; case: sA2 sB2 sC2 sD2 => a1 a2 [b1 b2] [c1 c2] [d1 d2].
congr (Ok (_, _, _, _)).
- apply: (@mxof_inj _ _ f n n); rewrite ?nr_mk ?nc_mk ?wfa_mk // EA2.
  by rewrite mxof_add ?nr_mk ?nc_mk // !mxof_scale // mxof_eye scalemx1.
- by apply: (@mxof_inj _ _ f n m); rewrite ?nr_mk ?nc_mk ?wfa_mk // EB2 mxof_scale.
- by apply: (@mxof_inj _ _ f p n); rewrite ?nr_mk ?nc_mk ?wfa_mk // EC2 mxof_scale.
- by apply: (@mxof_inj _ _ f p m).
Qed.

Lemma ascale1 A : wfa A -> ascale 1 A = A.
Proof. by move=> w; apply: arr_eqP; rewrite ?wfa_mk // => i j hi hj; rewrite get_mk // mul1r. Qed.

Lemma aadd0s n A : wfa A -> nr A = n -> nc A = n -> aadd (ascale 0 (aeye n)) (ascale 1 A) = A.
Proof.
move=> w e1 e2; apply: arr_eqP; rewrite ?wfa_mk // => i j; rewrite nr_mk nc_mk => hi hj.
by rewrite get_mk // !get_mk ?e1 ?e2 // mul0r add0r mul1r.
Qed.

End Code.

Section Disc.
Local Arguments str_in : simpl never.
Variable R : realFieldType.
Variables (sq tn : R -> R) (pi : R) (expm : arr R -> arr R) (logm : arr R -> res (arr R)).
Variables (bal : arr R -> arr R * seq R) (nz : arr R -> bool).
Implicit Types (G K : state R) (A B C D : arr R) (o : dsys R) (meth : string).

Local Notation discretize := (@discretize R sq tn pi expm bal).
Local Notation undiscretize := (@undiscretize R sq tn pi logm bal nz).

(* discretize by the star product with q *)
Lemma disc_lft G dt meth pw q q0 : wfS G -> sgain G = false -> sdt G = None -> 0 < dt ->
  str_in meth known_methods -> shp q = (2, 2)%N ->
  discretize_args sq tn pi expm bal G dt meth pw q0 = simple_lft q (sa G) (sb G) (sc G) (sd G) ->
  (str_in meth m_tustin -> ~~ (1 / (2%:R * dt) < pw)) ->
  adet (lftNa (snn G) (get q 1 1) (sa G)) != 0 ->
  exists o, let Gd := dst o in
  [/\ discretize G dt meth pw q0 = Ok o, wfS Gd, sdt Gd = Some dt, snn Gd = snn G &
   sshape Gd = sshape G] /\
  [/\ dmeth o = Some meth, sgain Gd = false, dq o = (if String.eqb meth "lft" then q0 else None),
     simple_lft q (sa G) (sb G) (sc G) (sd G) = Ok (sa Gd, sb Gd, sc Gd, sd Gd) &
   forall (L : fieldType) (f : {rmorphism R -> L}) (z : L),
    let q11 := f (get q 0 0) in let k := f (get q 1 1) * (z - q11) + f (get q 0 1) * f (get q 1 0) in
    (forall s, k != 0 -> s * k = z - q11 -> regS f Gd z = regS f G s /\
       (regS f G s -> evalS f (spn G) (smn G) Gd z = evalS f (spn G) (smn G) G s)) /\
    (k = 0 -> z != q11 -> regS f Gd z /\
       evalS f (spn G) (smn G) Gd z = mxof f (spn G) (smn G) (sd G))].
Proof.
move=> w ng edt dt0 km eq0 eargs htu dN.
have [[wA wB wC wD] [eA eB eC eC' eB']] := wfS_dyn w ng.
have sA : shp (sa G) = (snn G, snn G) by rewrite /shp eA.
have sB : shp (sb G) = (snn G, smn G) by rewrite /shp eB eB'.
have sC : shp (sc G) = (spn G, snn G) by rewrite /shp eC eC'.
have sD : shp (sd G) = (spn G, smn G) by [].
have [A1 [B1 [C1 [D1 [eL _ _ _]]]]] := simple_lftP eq0 sA sB sC sD wD dN.
have okt : dt_ok (Some dt) by [].
have [e1 e2 e3 e4 e5] := lft_model w ng eq0 okt dN eL.
rewrite /ModelDiscrete.discretize km edt ng /= eargs eL [bind _ _]/= e1 [bind _ _]/=.
case: (String.eqb meth "lft") => [|]; first by eexists; split; split.
case tu: (str_in meth m_tustin); last by eexists; split; split.
by rewrite htu //; eexists; split; split.
Qed.

Lemma disc_lft_err G dt meth pw q q0 : wfS G -> sgain G = false -> sdt G = None ->
  str_in meth known_methods -> shp q = (2, 2)%N ->
  discretize_args sq tn pi expm bal G dt meth pw q0 = simple_lft q (sa G) (sb G) (sc G) (sd G) ->
  adet (lftNa (snn G) (get q 1 1) (sa G)) = 0 ->
  discretize G dt meth pw q0 = Err LinAlgError.
Proof.
move=> w ng edt km eq0 eargs dN.
have [[wA wB wC wD] [eA eB eC eC' eB']] := wfS_dyn w ng.
by rewrite /ModelDiscrete.discretize km edt ng /= eargs (simple_lft_err _ _ _ eq0 _ eA).
Qed.


(* q = [[1, t], [t, a t^2]]: s = (z - 1) / (t^2 (a (z - 1) + 1)) *)
Definition alpha_map (L : fieldType) (f : {rmorphism R -> L}) (a T : R) (z : L) : L :=
  (z - 1) / (f T * (f a * (z - 1) + 1)).

Definition disc_good G dt meth o (den : forall L : fieldType, {rmorphism R -> L} -> L -> L)
    (smap : forall L : fieldType, {rmorphism R -> L} -> L -> L) : Prop :=
  let Gd := dst o in
  [/\ wfS Gd, sdt Gd = Some dt, snn Gd = snn G, sshape Gd = sshape G & dmeth o = Some meth] /\
   forall (L : fieldType) (f : {rmorphism R -> L}) (z : L),
    (den L f z != 0 -> let s := smap L f z in regS f Gd z = regS f G s /\
       (regS f G s -> evalS f (spn G) (smn G) Gd z = evalS f (spn G) (smn G) G s)) /\
    (den L f z = 0 -> regS f Gd z /\
       evalS f (spn G) (smn G) Gd z = mxof f (spn G) (smn G) (sd G)).

Lemma disc_alpha G dt meth pw q0 (t a T x : R) : wfS G -> sgain G = false -> sdt G = None -> 0 < dt ->
  str_in meth known_methods -> ~~ String.eqb meth "lft" -> x = a * T ->
  discretize_args sq tn pi expm bal G dt meth pw q0 = simple_lft (q2 1 t t x) (sa G) (sb G) (sc G) (sd G) ->
  (str_in meth m_tustin -> ~~ (1 / (2%:R * dt) < pw)) ->
  t ^+ 2 = T -> T != 0 ->
  adet (lftNa (snn G) x (sa G)) != 0 ->
  exists o, [/\ discretize G dt meth pw q0 = Ok o, dq o = None,
    sgain (dst o) = false,
    simple_lft (q2 1 t t x) (sa G) (sb G) (sc G) (sd G) = Ok (sa (dst o), sb (dst o), sc (dst o), sd (dst o)) &
    disc_good G dt meth o (fun L f z => f a * (z - 1) + 1) (fun L f z => alpha_map f a T z)].
Proof.
move=> w ng edt dt0 km nl xE eargs htu tT T0 dN.
have [o [[h1 h2 h3 h4 h5] [h6 h7 h8 h9 h10]]] := disc_lft (q := q2 1 t t x) w ng edt dt0 km erefl eargs htu dN.
exists o; split=> //; first by rewrite h8 (negbTE nl).
split=> // L f z; have [] := h10 L f z; rewrite /get /=.
have -> : f x * (z - f 1) + f t * f t = f T * (f a * (z - 1) + 1).
  have eT : f T = f t * f t by rewrite -tT expr2 rmorphM.
  have -> : f x = f a * f T by rewrite xE rmorphM.
  by rewrite rmorph1 eT; move: (f a) (f t) => u v; mc_ring L.
have fT : f T != 0 by rewrite fmorph_eq0.
move=> H1 H2; split=> [d0|d0].
  apply: H1; first by rewrite mulf_neq0.
  by rewrite /alpha_map divfK ?rmorph1 // mulf_neq0.
apply: H2; first by rewrite d0 mulr0.
by apply/eqP => z1; move: d0; rewrite z1 rmorph1 subrr mulr0 add0r => /eqP; rewrite oner_eq0.
Qed.

Definition tustin_names : seq string := [:: "tustin"; "bilinear"]%string.
Definition forward_names : seq string :=
  [:: "forward difference"; "forward euler"; "forward rectangular"; ">>"]%string.
Definition backward_names : seq string :=
  [:: "backward difference"; "backward euler"; "backward rectangular"; "<<"]%string.

Ltac names h := move: h; rewrite /str_in /=; repeat (case/orP; first (by move/String.eqb_spec => ->)); done.

Lemma tustin_args G dt meth pw q0 : str_in meth tustin_names ->
  [/\ str_in meth known_methods, ~~ String.eqb meth "lft", str_in meth m_tustin &
   discretize_args sq tn pi expm bal G dt meth pw q0 =
   if pw == 0 then simple_lft (q2 1 (sq dt) (sq dt) (dt / 2%:R)) (sa G) (sb G) (sc G) (sd G)
   else if ~~ (1 / (2%:R * dt) < pw) then
     let t := sq2tan sq tn pi dt pw in
     simple_lft (q2 1 t t (t ^+ 2 / 2%:R)) (sa G) (sb G) (sc G) (sd G) else Err ValueError].
Proof. move=> h; names h. Qed.

Lemma forward_args G dt meth pw q0 : str_in meth forward_names ->
  [/\ str_in meth known_methods, ~~ String.eqb meth "lft", ~~ str_in meth m_tustin &
   discretize_args sq tn pi expm bal G dt meth pw q0 =
   simple_lft (q2 1 (sq dt) (sq dt) 0) (sa G) (sb G) (sc G) (sd G)].
Proof. move=> h; names h. Qed.

Lemma backward_args G dt meth pw q0 : str_in meth backward_names ->
  [/\ str_in meth known_methods, ~~ String.eqb meth "lft", ~~ str_in meth m_tustin &
   discretize_args sq tn pi expm bal G dt meth pw q0 =
   simple_lft (q2 1 (sq dt) (sq dt) dt) (sa G) (sb G) (sc G) (sd G)].
Proof. move=> h; names h. Qed.


Lemma mk_state_dt a b c d dt K : mk_state a b c d dt = Ok K -> dt_ok dt.
Proof.
rewrite /mk_state; case: (st_validate a b c d) => [[[[[? ?] ?] ?] ?]|] //=.
by case E: (check_dt dt) => [dt'|] //= _; case: (check_dt_inv E).
Qed.

Lemma disc_inv G dt meth pw q0 o : sgain G = false -> discretize G dt meth pw q0 = Ok o ->
  sdt G = None /\ 0 < dt.
Proof.
rewrite /ModelDiscrete.discretize => ->; case: ifP => // _; case: (sdt G) => //=.
case: (discretize_args _ _ _ _ _ _ _ _ _ _) => [[[[Ad Bd] Cd] Dd]|] //=.
case E: (mkS Ad Bd Cd Dd (Some dt)) => [K|] //= _; split=> //; exact: (mk_state_dt E).
Qed.

(* what discretize and undiscretize do together, for star products *)
Lemma round_trip G dt meth pw q0 o (q r : arr R) m0 pw' q1 : wfS G -> sgain G = false ->
  discretize G dt meth pw q0 = Ok o -> str_in meth known_methods ->
  shp q = (2, 2)%N -> shp r = (2, 2)%N ->
  discretize_args sq tn pi expm bal G dt meth pw q0 = simple_lft q (sa G) (sb G) (sc G) (sd G) ->
  (str_in meth m_tustin -> ~~ (1 / (2%:R * dt) < pw)) ->
  let m1 := odflt meth m0 in
  (forall T, undiscretize_args sq tn pi logm bal nz T dt m1 pw' q1 = simple_lft r (sa T) (sb T) (sc T) (sd T)) ->
  (String.eqb m1 "lft" -> isSome q1) ->
  let q11 := get q 0 0 in let q12 := get q 0 1 in let q21 := get q 1 0 in let q22 := get q 1 1 in
  let r11 := get r 0 0 in let r12 := get r 0 1 in let r21 := get r 1 0 in let r22 := get r 1 1 in
  let c := 1 - r22 * q11 in let de := q12 * q21 - q11 * q22 in
  c != 0 -> r22 * de = - q22 -> q22 * c + r22 * (q12 * q21) = 0 ->
  undiscretize o m0 pw' q1 =
  Ok (St (aadd (ascale (r11 + r12 * r21 * q11 / c) (aeye (snn G))) (ascale (r12 * r21 * de / c) (sa G)))
         (ascale (r12 * q12 / c) (sb G)) (ascale (r21 * q21 / c) (sc G)) (sd G) false None).
Proof.
move=> w ng ok km eq0 er0 eargs htu m1 uargs hl q11 q12 q21 q22 r11 r12 r21 r22 c de c0 e1 e2.
have [edt dt0] := disc_inv ng ok.
have [[wA wB wC wD] [eA eB eC eC' eB']] := wfS_dyn w ng.
have sA : shp (sa G) = (snn G, snn G) by rewrite /shp eA.
have sB : shp (sb G) = (snn G, smn G) by rewrite /shp eB eB'.
have sC : shp (sc G) = (spn G, snn G) by rewrite /shp eC eC'.
have sD : shp (sd G) = (spn G, smn G) by [].
have dN : adet (lftNa (snn G) q22 (sa G)) != 0.
  by apply/eqP => h; move: ok; rewrite (disc_lft_err w ng edt km eq0 eargs h).
have [o' [[]]] := disc_lft w ng edt dt0 km eq0 eargs htu dN; rewrite ok => -[<-] h2 h3 h4 h5 [h6 h7 h8 h9 h10].
rewrite /ModelDiscrete.undiscretize h3 h7.
have -> : (if m0 is Some m then m else odflt "tustin"%string (dmeth o)) = m1 by rewrite h6 /m1; case: (m0).
have -> : (if (m1 =? "lft")%string
      then if ~~ isSome (dq o) && ~~ isSome q1 then Err ValueError else Ok (if isSome q1 then q1 else dq o)
      else Ok q1) = Ok q1.
  by case: ifP => // /hl s1; rewrite s1 andbF.
rewrite [bind (Ok _) _]/= uargs (lft_twice eq0 er0 sA sB sC sD wD h9) // [bind _ _]/=.
by rewrite mkS_ok ?nr_mk ?nc_mk.
Qed.

(* ... when the two are inverse *)
Lemma round_trip_id G dt meth pw q0 o (q r : arr R) m0 pw' q1 : wfS G -> sgain G = false ->
  discretize G dt meth pw q0 = Ok o -> str_in meth known_methods ->
  shp q = (2, 2)%N -> shp r = (2, 2)%N ->
  discretize_args sq tn pi expm bal G dt meth pw q0 = simple_lft q (sa G) (sb G) (sc G) (sd G) ->
  (str_in meth m_tustin -> ~~ (1 / (2%:R * dt) < pw)) ->
  let m1 := odflt meth m0 in
  (forall T, undiscretize_args sq tn pi logm bal nz T dt m1 pw' q1 = simple_lft r (sa T) (sb T) (sc T) (sd T)) ->
  (String.eqb m1 "lft" -> isSome q1) ->
  let q11 := get q 0 0 in let q12 := get q 0 1 in let q21 := get q 1 0 in let q22 := get q 1 1 in
  let r11 := get r 0 0 in let r12 := get r 0 1 in let r21 := get r 1 0 in let r22 := get r 1 1 in
  let c := 1 - r22 * q11 in let de := q12 * q21 - q11 * q22 in
  c != 0 -> r22 * de = - q22 -> q22 * c + r22 * (q12 * q21) = 0 ->
  r12 * q12 = c -> r21 * q21 = c -> r12 * r21 * de = c -> r11 * c + r12 * r21 * q11 = 0 ->
  undiscretize o m0 pw' q1 = Ok G.
Proof.
move=> w ng ok km eq0 er0 eargs htu m1 uargs hl q11 q12 q21 q22 r11 r12 r21 r22 c de c0 e1 e2 e3 e4 e5 e6.
have [edt dt0] := disc_inv ng ok.
have [[wA wB wC wD] [eA eB eC eC' eB']] := wfS_dyn w ng.
rewrite (round_trip w ng ok km eq0 er0 eargs htu uargs hl c0 e1 e2).
rewrite -/q11 -/q12 -/q21 -/q22 -/r11 -/r12 -/r21 -/r22 -/c -/de e3 e4 e5 divff //.
have -> : r11 + r12 * r21 * q11 / c = 0 by apply: (mulIf c0); rewrite mulrDl divfK // mul0r.
rewrite aadd0s // !ascale1 //; congr Ok.
by move: ng edt; clear; case: G => a b c d g t /= -> ->.
Qed.

Lemma undisc_args_tustin T dt meth q1 pw : str_in meth m_tustin ->
  undiscretize_args sq tn pi logm bal nz T dt meth pw q1 =
  if pw == 0 then simple_lft (q2 (- (2%:R / dt)) (2%:R / sq dt) (2%:R / sq dt) (-1)) (sa T) (sb T) (sc T) (sd T)
  else if ~~ (1 / (2%:R * dt) <= pw) then
    let t := sq2tan sq tn pi dt pw in
    simple_lft (q2 (- (2%:R / t ^+ 2)) (1 / t) (1 / t) (-1)) (sa T) (sb T) (sc T) (sd T) else Err ValueError.
Proof. move=> h; names h. Qed.

Lemma undisc_args_forward T dt meth q1 pw : str_in meth m_forward ->
  undiscretize_args sq tn pi logm bal nz T dt meth pw q1 =
  simple_lft (q2 (- (1 / dt)) (1 / sq dt) (1 / sq dt) 0) (sa T) (sb T) (sc T) (sd T).
Proof. move=> h; names h. Qed.


Lemma names_tu meth : str_in meth tustin_names -> str_in meth m_tustin.
Proof. move=> h; names h. Qed.
Lemma names_fw meth : str_in meth forward_names -> str_in meth m_forward.
Proof. move=> h; names h. Qed.
Lemma names_bw meth : str_in meth backward_names -> str_in meth m_backward.
Proof. move=> h; names h. Qed.
Lemma m_tu_lft meth : str_in meth m_tustin -> String.eqb meth "lft" = false.
Proof. move=> h; names h. Qed.
Lemma m_fw_lft meth : str_in meth m_forward -> String.eqb meth "lft" = false.
Proof. move=> h; names h. Qed.

Lemma half2 : (2%:R : R) != 0. Proof. by rewrite pnatr_eq0. Qed.

Section SqFacts.
Variables (dt t : R).
Hypothesis tT : t ^+ 2 = dt.
Hypothesis dt0 : dt != 0.
Lemma t_neq0 : t != 0.
Proof. by apply/eqP => t0; move: dt0; rewrite -tT t0 expr0n eqxx. Qed.
Lemma dtV : dt^-1 = t^-1 * t^-1. Proof. by rewrite -tT expr2 invfM. Qed.
End SqFacts.

Lemma nyq0 (dt : R) : 0 < dt -> ~~ (1 / (2%:R * dt) < 0).
Proof. by move=> h; rewrite -leNgt divr_ge0 ?ler01 ?mulr_ge0 ?ler0n // ltW. Qed.

Lemma rt_tustin G dt meth q0 o m0 q1 : wfS G -> sgain G = false -> sq dt ^+ 2 = dt ->
  str_in meth tustin_names -> (forall m, m0 = Some m -> str_in m m_tustin) ->
  discretize G dt meth 0 q0 = Ok o -> undiscretize o m0 0 q1 = Ok G.
Proof.
move=> w ng esq hm hm0 ok; have [edt dt0] := disc_inv ng ok.
have [km nl tu] := tustin_args G dt 0 q0 hm; rewrite eqxx => ea.
have tu1 : str_in (odflt meth m0) m_tustin by case E: m0 => [m|//]; apply: hm0.
have h0 : dt != 0 by rewrite gt_eqF.
apply: (round_trip_id (q := q2 1 (sq dt) (sq dt) (dt / 2%:R))
  (r := q2 (- (2%:R / dt)) (2%:R / sq dt) (2%:R / sq dt) (-1)) w ng ok km) => //.
- by move=> _; apply: nyq0.
- by move=> T; rewrite undisc_args_tustin // eqxx.
- by rewrite m_tu_lft.
all: rewrite /get /=; set t := sq dt in esq *.
all: have t0 := t_neq0 esq h0; have h2 := half2.
all: have ht : t^-1 * t = 1 by rewrite mulVf.
all: have hh : (2%:R : R)^-1 * 2%:R = 1 by rewrite mulVf.
all: rewrite ?(dtV esq) -?esq; move: t^-1 ht (2%:R^-1 : R) hh => u ht h hh.
- by rewrite mulr1 opprK -(natrD _ 1 1) half2.
- have -> : -1 * (t * t - 1 * (t ^+ 2 * h)) = - (t ^+ 2 * h) + t ^+ 2 * (h * 2%:R - 1) by mc_ring R.
  by rewrite hh subrr mulr0 addr0.
- have -> : t ^+ 2 * h * (1 - -1 * 1) + -1 * (t * t) = t ^+ 2 * (h * 2%:R - 1) by mc_ring R.
  by rewrite hh subrr mulr0.
- by rewrite -mulrA ht; mc_ring R.
- by rewrite -mulrA ht; mc_ring R.
- have -> : 2%:R * u * (2%:R * u) * (t * t - 1 * (t ^+ 2 * h)) = 2%:R * (u * t) * (u * t) * (2%:R - h * 2%:R) by mc_ring R.
  by rewrite ht hh; mc_ring R.
- mc_ring R.
Qed.

Lemma rt_forward G dt meth pw q0 o m0 pw' q1 : wfS G -> sgain G = false -> sq dt ^+ 2 = dt ->
  str_in meth forward_names -> (forall m, m0 = Some m -> str_in m m_forward) ->
  discretize G dt meth pw q0 = Ok o -> undiscretize o m0 pw' q1 = Ok G.
Proof.
move=> w ng esq hm hm0 ok; have [edt dt0] := disc_inv ng ok.
have [km nl tu ea] := forward_args G dt pw q0 hm.
have tu1 : str_in (odflt meth m0) m_forward by case E: m0 => [m|]; [apply: hm0 | exact: names_fw].
have h0 : dt != 0 by rewrite gt_eqF.
apply: (round_trip_id (q := q2 1 (sq dt) (sq dt) 0)
  (r := q2 (- (1 / dt)) (1 / sq dt) (1 / sq dt) 0) w ng ok km) => //.
- by move=> h; rewrite h in tu.
- by move=> T; rewrite undisc_args_forward.
- by rewrite m_fw_lft.
all: rewrite /get /=; set t := sq dt in esq *.
all: have t0 := t_neq0 esq h0.
all: have ht : t^-1 * t = 1 by rewrite mulVf.
all: rewrite ?(dtV esq); move: t^-1 ht => u ht.
- by rewrite mul0r subr0 oner_eq0.
- mc_ring R.
- mc_ring R.
- by rewrite -mulrA ht; mc_ring R.
- by rewrite -mulrA ht; mc_ring R.
- have -> : 1 * u * (1 * u) * (t * t - 1 * 0) = (u * t) * (u * t) by mc_ring R.
  by rewrite ht; mc_ring R.
- mc_ring R.
Qed.


Lemma undisc_args_backward T dt meth q1 pw : str_in meth m_backward ->
  undiscretize_args sq tn pi logm bal nz T dt meth pw q1 =
    do iAd <- (match np_solve (sa T) (aeye (snn T)) with
               | Err LinAlgError => Err ValueError | r => r end);
    do X <- np_sub (aeye (snn T)) iAd;
    do iB <- np_matmul iAd (sb T);
    do Ci <- np_matmul (sc T) iAd;
    do CiB <- np_matmul Ci (sb T);
    do Dc <- np_sub (sd T) CiB;
    Ok (amap (fun x => x / dt) X, ascale (1 / sq dt) iB, ascale (1 / sq dt) Ci, Dc).
Proof. move=> h; names h. Qed.

Lemma m_bw_lft meth : str_in meth m_backward -> String.eqb meth "lft" = false.
Proof. move=> h; names h. Qed.

Lemma rt_backward G dt meth pw q0 o m0 pw' q1 : wfS G -> sgain G = false -> sq dt ^+ 2 = dt ->
  str_in meth backward_names -> (forall m, m0 = Some m -> str_in m m_backward) ->
  discretize G dt meth pw q0 = Ok o -> undiscretize o m0 pw' q1 = Ok G.
Proof.
move=> w ng esq hm hm0 ok; have [edt dt0] := disc_inv ng ok.
have [km nl tu ea] := backward_args G dt pw q0 hm.
have bw1 : str_in (odflt meth m0) m_backward by case E: m0 => [m|]; [apply: hm0 | exact: names_bw].
have h0 : dt != 0 by rewrite gt_eqF.
have t0 := t_neq0 esq h0.
have [[wA wB wC wD] [eA eB eC eC' eB']] := wfS_dyn w ng.
set n := snn G in eA eB eC *; set p := spn G in eC'; set m := smn G in eB'.
have sA : shp (sa G) = (n, n) by rewrite /shp eA.
have sB : shp (sb G) = (n, m) by rewrite /shp eB eB'.
have sC : shp (sc G) = (p, n) by rewrite /shp eC eC'.
have sD : shp (sd G) = (p, m) by [].
set q := q2 1 (sq dt) (sq dt) dt in ea.
have dN : adet (lftNa n dt (sa G)) != 0.
  by apply/eqP => h; move: ok; rewrite (disc_lft_err (q := q) w ng edt km erefl ea h).
have htu : str_in meth m_tustin -> ~~ (1 / (2%:R * dt) < pw) by move=> h; rewrite h in tu.
have [o' [[]]] := disc_lft (q := q) w ng edt dt0 km erefl ea htu dN.
rewrite ok => -[<-] h2 h3 h4 h5 [h6 h7 h8 h9 h10].
have [A1 [B1 [C1 [D1 []]]]] := simple_lftP (q := q) erefl sA sB sC sD wD dN.
rewrite h9 => -[<- <- <- <-] [wA1 wB1 wC1 wD1] [sA1 sB1 sC1 sD1] /(_ R [rmorphism of @idfun R]) /=.
set f := [rmorphism of _]; rewrite !/(get q _ _) /= => -[EA EB EC ED].
have [a1 a2] : nr (sa (dst o)) = n /\ nc (sa (dst o)) = n by case: sA1.
have [b1 b2] : nr (sb (dst o)) = n /\ nc (sb (dst o)) = m by case: sB1.
have [c1 c2] : nr (sc (dst o)) = p /\ nc (sc (dst o)) = n by case: sC1.
have [d1 d2] : nr (sd (dst o)) = p /\ nc (sd (dst o)) = m by case: sD1.
set A := mxof f n n (sa G) in EA EB EC ED.
have uN : lftN dt A \in unitmx by rewrite (lftNa_unit f).
have EA' : mxof f n n (sa (dst o)) = invmx (lftN dt A).
  rewrite EA; apply: (can_inj (mulmxK uN)); rewrite lftA_N // mulVmx //.
  by rewrite -expr2 esq mul1r subrr scale0r addr0.
have dA : adet (sa (dst o)) != 0 by rewrite -(unit_adet f a1) EA' unitmx_inv.
rewrite /ModelDiscrete.undiscretize h3 h7.
have -> : (if m0 is Some m then m else odflt "tustin"%string (dmeth o)) = odflt meth m0 by rewrite h6; case: (m0).
rewrite m_bw_lft // [bind (Ok _) _]/= undisc_args_backward // h4.
rewrite (np_solveP (n := n) (k := n)) // (negbTE dA).
set iA := amul _ _; have eI : mxof f n n iA = lftN dt A.
  by rewrite (@mxof_mul _ _ _ _ n) ?nr_mk ?nc_mk // mxof_eye mulmx1 mxof_inv // EA' invmxK.
have i1 : nr iA = n by rewrite nr_mk.
have i2 : nc iA = n by rewrite nc_mk.
clearbody iA; rewrite [bind (Ok _) _]/= np_sub_same ?i1 ?i2 // [bind (Ok _) _]/=.
rewrite np_matmul_same ?i2 ?b1 // [bind (Ok _) _]/= np_matmul_same ?c2 // [bind (Ok _) _]/=.
rewrite np_matmul_same ?nc_mk ?i2 ?b1 // [bind (Ok _) _]/= np_sub_same ?nr_mk ?nc_mk ?c1 ?b2 // [bind (Ok _) _]/=.
set Dc := asub (sd _) _.
have -> : amap (fun x => x / dt) (asub (aeye n) iA) = sa G.
  apply: (@mxof_inj _ _ f n n); rewrite ?nr_mk ?nc_mk ?wfa_mk // -/A.
  rewrite (mxof_map (h' := fun x => x / dt)) ?nr_mk ?nc_mk // mxof_sub // mxof_eye eI /lftN opprB addrC subrK.
  by apply/matrixP => i j; rewrite !mxE mulrC mulKf.
have -> : ascale (1 / sq dt) (amul iA (sb (dst o))) = sb G.
  apply: (@mxof_inj _ _ f n m); rewrite ?nr_mk ?nc_mk ?wfa_mk //.
  rewrite mxof_scale ?nr_mk ?nc_mk // (@mxof_mul _ _ _ _ n) // eI EB /lftB -scalemxAr scalerA mulKVmx //.
  by rewrite div1r mulVf // scale1r.
have -> : ascale (1 / sq dt) (amul (sc (dst o)) iA) = sc G.
  apply: (@mxof_inj _ _ f p n); rewrite ?nr_mk ?nc_mk ?wfa_mk //.
  rewrite mxof_scale ?nr_mk ?nc_mk // (@mxof_mul _ _ _ _ n) // eI EC /lftC -scalemxAl scalerA mulmxKV //.
  by rewrite div1r mulVf // scale1r.
have -> : Dc = sd G.
  apply: (@mxof_inj _ _ f p m); rewrite ?nr_mk ?nc_mk ?wfa_mk //.
  rewrite mxof_sub // (@mxof_mul _ _ _ _ n) ?nr_mk ?nc_mk // (@mxof_mul _ _ _ _ n) // eI EB EC ED.
  rewrite /lftB /lftC /lftD -!scalemxAl mulmxKV // -scalemxAr scalerA -expr2 esq mulmxA addrK //.
rewrite [bind _ _]/= mkS_ok //; congr Ok.
by move: ng edt; clear; case: G => a b c d g t /= -> ->.
Qed.

(* prewarping *)
Lemma prewarp_twice G dt meth pw q0 o m0 q1 : wfS G -> sgain G = false -> pw != 0 ->
  let t := sq2tan sq tn pi dt pw in t != 0 -> pw < 1 / (2%:R * dt) ->
  str_in meth tustin_names -> (forall m, m0 = Some m -> str_in m m_tustin) ->
  discretize G dt meth pw q0 = Ok o ->
  undiscretize o m0 pw q1 =
  Ok (St (aadd (ascale (- (3%:R / (2%:R * t ^+ 2))) (aeye (snn G))) (ascale (4%:R^-1) (sa G)))
         (ascale (2%:R^-1) (sb G)) (ascale (2%:R^-1) (sc G)) (sd G) false None).
Proof.
move=> w ng pw0 t t0 ny hm hm0 ok; have [edt dt0] := disc_inv ng ok.
have [km nl tu] := tustin_args G dt pw q0 hm; rewrite (negbTE pw0) -leNgt (ltW ny) => ea.
have tu1 : str_in (odflt meth m0) m_tustin by case E: m0 => [m|//]; apply: hm0.
set q := q2 1 t t (t ^+ 2 / 2%:R) in ea; set r := q2 (- (2%:R / t ^+ 2)) (1 / t) (1 / t) (-1).
have ua T : undiscretize_args sq tn pi logm bal nz T dt (odflt meth m0) pw q1 =
     simple_lft r (sa T) (sb T) (sc T) (sd T).
  by rewrite undisc_args_tustin // (negbTE pw0) -ltNge ny.
have h2 := half2; have hh : (2%:R : R)^-1 * 2%:R = 1 by rewrite mulVf.
have ht : t^-1 * t = 1 by rewrite mulVf.
rewrite (round_trip (q := q) (r := r) w ng ok km erefl erefl ea _ ua) //.
- have cE : 1 - get r 1 1 * get q 0 0 = 2%:R by rewrite /get /=; mc_ring R.
  rewrite cE /get /=.
  congr (Ok (St (aadd (ascale _ _) (ascale _ _)) (ascale _ _) (ascale _ _) _ _ _)).
  + rewrite expr2 !invfM; move: t^-1 (2%:R^-1 : R) hh => u h hh.
    have -> : - (2%:R * (u * u)) + 1 * u * (1 * u) * 1 * h =
         - (3%:R * (h * (u * u))) - 2%:R * u * u * (1 - h * 2%:R) by mc_ring R.
    by rewrite hh; mc_ring R.
  + have -> : (4%:R : R)^-1 = 2%:R^-1 * 2%:R^-1 by rewrite -invfM -natrM.
    move: t^-1 ht (2%:R^-1 : R) hh => u ht h hh.
    have -> : 1 * u * (1 * u) * (t * t - 1 * (t ^+ 2 * h)) * h = (u * t) * (u * t) * (1 - h) * h by mc_ring R.
    rewrite ht; have -> : 1 * 1 * (1 - h) * h = h * h + h * (1 - h * 2%:R) by mc_ring R.
    by rewrite hh subrr mulr0 addr0.
  + by rewrite div1r ht div1r.
  + by rewrite div1r ht div1r.
- by move=> _; rewrite -leNgt ltW.
- by rewrite m_tu_lft.
- by rewrite /get /= mulr1 opprK -(natrD _ 1 1).
- rewrite /get /=; move: (2%:R^-1 : R) hh => h hh.
  have -> : -1 * (t * t - 1 * (t ^+ 2 * h)) = - (t ^+ 2 * h) + t ^+ 2 * (h * 2%:R - 1) by mc_ring R.
  by rewrite hh subrr mulr0 addr0.
- rewrite /get /=; move: (2%:R^-1 : R) hh => h hh.
  have -> : t ^+ 2 * h * (1 - -1 * 1) + -1 * (t * t) = t ^+ 2 * (h * 2%:R - 1) by mc_ring R.
  by rewrite hh subrr mulr0.
Qed.

(* user supplied star products *)
Lemma lft_args G dt pw q :
  discretize_args sq tn pi expm bal G dt "lft" pw (Some q) = simple_lft q (sa G) (sb G) (sc G) (sd G).
Proof. by []. Qed.
Lemma undisc_args_lft T dt pw q :
  undiscretize_args sq tn pi logm bal nz T dt "lft" pw (Some q) = simple_lft q (sa T) (sb T) (sc T) (sd T).
Proof. by []. Qed.

Lemma rt_lft G dt pw q11 q12 q21 q22 o pw' : wfS G -> sgain G = false ->
  let de := q12 * q21 - q11 * q22 in q12 != 0 -> q21 != 0 -> de != 0 ->
  discretize G dt "lft" pw (Some (q2 q11 q12 q21 q22)) = Ok o ->
  undiscretize o None pw' (Some (q2 (- q11 / de) (q21 / de) (q12 / de) (- q22 / de))) = Ok G.
Proof.
move=> w ng de z1 z2 z3 ok; have [edt dt0] := disc_inv ng ok.
apply: (round_trip_id (q := q2 q11 q12 q21 q22) (r := q2 (- q11 / de) (q21 / de) (q12 / de) (- q22 / de)) w ng ok) => //.
all: rewrite /get /=.
all: have cE : 1 - - q22 / de * q11 = q12 * q21 / de
  by apply: (mulIf z3); rewrite divfK // mulrBl mul1r mulrAC divfK // /de; mc_ring R.
all: rewrite ?cE -/de.
- by rewrite !mulf_neq0 ?invr_eq0.
- by rewrite divfK.
- mc_ring R.
- mc_ring R.
- mc_ring R.
- by rewrite -[_ * de]mulrA divfK //; mc_ring R.
- mc_ring R.
Qed.

(* static gains *)
Lemma disc_gain G dt meth pw q0 : wfS G -> sgain G -> sdt G = None -> 0 < dt -> str_in meth known_methods ->
  exists o, discretize G dt meth pw q0 = Ok o /\
   [/\ wfS (dst o), sgain (dst o), sd (dst o) = sd G, sdt (dst o) = Some dt & dmeth o = None].
Proof.
move=> w g edt dt0 km; rewrite /ModelDiscrete.discretize km edt g /= /to_array g /=.
rewrite mkGain_ok //=; eexists; split; first by [].
split=> //; apply: wfS_mkgain => //; exact: wfS_d.
Qed.

Lemma undisc_gain o m0 pw q0 : sgain (dst o) -> undiscretize o m0 pw q0 = Err ValueError.
Proof.
rewrite /ModelDiscrete.undiscretize => g; case: (sdt (dst o)) => // dt.
case: ifP => _; last by rewrite /= g.
by case: ifP => //= _; rewrite g.
Qed.

End Disc.

(* ------------------------------------------------------------------ *)
(* zero-order and first-order hold                                      *)

Section Hold.
Variable R : realFieldType.
Variables (sq tn : R -> R) (pi : R) (expm : arr R -> arr R) (logm : arr R -> res (arr R)).
Variables (bal : arr R -> arr R * seq R) (nz : arr R -> bool).
Implicit Types (G K : state R) (A B C D : arr R) (o : dsys R) (meth : string).
Hypothesis hbal : balances bal.
Hypothesis hexp : exp_like expm.

Lemma unscaleK (sca : seq R) (X : arr R) : wfa X -> nr X = nc X -> (forall i, (i < nr X)%N -> nth 0 sca i != 0) ->
  unscale (dscale sca X) sca = X.
Proof.
move=> w e h; apply: arr_eqP; rewrite ?wfa_mk // => i j; rewrite !nr_mk !nc_mk => hi hj.
rewrite get_mk // get_mk //; have s1 := h i hi; have s2 : nth 0 sca j != 0 by apply: h; rewrite e.
by rewrite -mulrA [_ * (_ / _)]mulrA divfK // divff // mulr1.
Qed.

Lemma dscale_scaler (sca : seq R) (X : arr R) c : ascaler (dscale sca X) c = dscale sca (ascaler X c).
Proof.
apply: arr_eqP; rewrite ?wfa_mk // => i j; rewrite !nr_mk !nc_mk => hi hj.
by rewrite !get_mk // mulrAC.
Qed.

Lemma get_vcat_u (X Y : arr R) i j : (i < nr X)%N -> (j < nc X)%N -> get (avcat X Y) i j = get X i j.
Proof. by move=> hi hj; rewrite /avcat get_mk ?hi // ltn_addr. Qed.
Lemma get_hcat_l (X Y : arr R) i j : (i < nr X)%N -> (j < nc X)%N -> get (ahcat X Y) i j = get X i j.
Proof. by move=> hi hj; rewrite /ahcat get_mk ?hj // ltn_addr. Qed.
Lemma get_hcat_r (X Y : arr R) i j : (i < nr X)%N -> (j < nc Y)%N -> get (ahcat X Y) i (nc X + j) = get Y i j.
Proof. by move=> hi hj; rewrite /ahcat get_mk ?ltn_add2l // ltnNge leq_addr /= addKn. Qed.

Lemma zohM_shp G : wfS G -> sgain G = false -> shp (zohM G) = (snn G + smn G, snn G + smn G)%N.
Proof. by move=> w ng; have [_ [eA eB eC eC' eB']] := wfS_dyn w ng; rewrite /shp /zohM !nr_mk !nc_mk eA eB'. Qed.

Lemma fohM_shp G dt : wfS G -> sgain G = false ->
  shp (fohM G dt) = (snn G + 2 * smn G, snn G + 2 * smn G)%N.
Proof.
move=> w ng; have [_ [eA eB eC eC' eB']] := wfS_dyn w ng.
by rewrite /shp /fohM !nr_mk !nc_mk eA eB' -!addnA mul2n addnn.
Qed.

Lemma bal_exp (M : arr R) k : wfa M -> shp M = (k, k) ->
  [/\ unscale (expm (bal M).1) (bal M).2 = expm M, wfa (expm M) & shp (expm M) = (k, k)].
Proof.
move=> wM [M1 M2]; have eM : nr M = nc M by rewrite M1 M2.
have [wE sE eqv] := hexp wM eM; have [b1 b2] := hbal eM.
have sE' : shp (expm M) = (k, k) by rewrite sE /shp M1 M2.
have [E1 E2] : nr (expm M) = k /\ nc (expm M) = k by case: sE'.
by split=> //; rewrite b1 eqv // unscaleK ?E1 ?E2 // => i hi; apply: b2; rewrite M1.
Qed.

Lemma bal_expc (M : arr R) c k : shp M = (k, k) ->
  let X := ascaler M c in
  [/\ unscale (expm (ascaler (bal M).1 c)) (bal M).2 = expm X, wfa (expm X) & shp (expm X) = (k, k)].
Proof.
move=> [M1 M2] X; have eM : nr M = nc M by rewrite M1 M2.
have [wE sE eqv] := hexp (wfa_map _ _ : wfa X) eM; have [b1 b2] := hbal eM.
have sE' : shp (expm X) = (k, k) by rewrite sE /X /shp /ascaler /amap nr_mk nc_mk M1 M2.
have [E1 E2] : nr (expm X) = k /\ nc (expm X) = k by case: sE'.
by split=> //; rewrite b1 dscale_scaler eqv // unscaleK ?E1 ?E2 // => i hi; apply: b2; rewrite M1.
Qed.

Lemma zohP G dt : wfS G -> sgain G = false ->
  let n := snn G in let m := smn G in
  let E := expm (ascaler (zohM G) dt) in
  [/\ disc_zoh expm bal G dt = Ok (asubm E 0 n 0 n, asubm E 0 n n (n + m), sc G, sd G),
  wfa E & shp E = (n + m, n + m)%N].
Proof.
move=> w ng n m E; have [e1 wE sE] := bal_expc dt (zohM_shp w ng).
split=> //; rewrite /disc_zoh -/(zohM G); case: (bal (zohM G)) e1 => Ms sca; cbv beta iota zeta delta [fst snd] => ->.
by have -> : nc (expm (ascaler (zohM G) dt)) = (n + m)%N by case: sE.
Qed.

Lemma fohP G dt : wfS G -> sgain G = false ->
  let n := snn G in let m := smn G in
  let E := expm (fohM G dt) in
  let F := asubm E 0 n 0 n in let G1 := asubm E 0 n n (n + m) in let G2 := asubm E 0 n (n + m) (n + 2 * m) in
  [/\ disc_foh expm bal G dt =
      Ok (F, asub (aadd G1 (amul F G2)) G2, sc G, aadd (sd G) (amul (sc G) G2)),
  wfa E & shp E = (n + 2 * m, n + 2 * m)%N].
Proof.
move=> w ng n m E F G1 G2; have [_ [eA eB eC eC' eB']] := wfS_dyn w ng.
have [e1 wE sE] := bal_exp (wfa_mk _ _ _ : wfa (fohM G dt)) (fohM_shp dt w ng).
split=> //; rewrite /disc_foh -/(fohM G dt); case: (bal (fohM G dt)) e1 => Ms sca; cbv beta iota zeta delta [fst snd] => ->.
have -> : nc (expm (fohM G dt)) = (n + 2 * m)%N by case: sE.
rewrite -/n -/m -/E -/F -/G1 -/G2 np_matmul_same ?nr_mk ?nc_mk ?subn0 // [bind _ _]/=.
rewrite np_add_same ?nr_mk ?nc_mk //; last by rewrite addKn subnDl mul2n -addnn addnK.
rewrite [bind _ _]/= np_sub_same ?nr_mk ?nc_mk //; last by rewrite addKn subnDl mul2n -addnn addnK.
rewrite [bind _ _]/= np_matmul_same ?nr_mk ?nc_mk ?subn0 // [bind _ _]/= np_add_same ?nr_mk ?nc_mk ?eC' //.
by rewrite subnDl mul2n -addnn addnK.
Qed.


Local Notation discretize := (@discretize R sq tn pi expm bal).
Local Notation undiscretize := (@undiscretize R sq tn pi logm bal nz).

Lemma disc_zohP G dt pw q0 : wfS G -> sgain G = false -> sdt G = None -> 0 < dt ->
  let n := snn G in let m := smn G in
  let E := expm (ascaler (zohM G) dt) in
  let Gd := St (asubm E 0 n 0 n) (asubm E 0 n n (n + m)) (sc G) (sd G) false (Some dt) in
  [/\ discretize G dt "zoh" pw q0 = Ok (DSys Gd (Some "zoh"%string) None 0), wfS Gd & shp E = (n + m, n + m)%N].
Proof.
move=> w ng edt dt0 n m E Gd; have [e wE sE] := zohP dt w ng.
have [[wA wB wC wD] [eA eB eC eC' eB']] := wfS_dyn w ng.
split=> //; last by apply: wfS_mk; rewrite ?wfa_mk // ?nr_mk ?nc_mk ?subn0 // addKn.
rewrite /ModelDiscrete.discretize [str_in _ _]/= edt ng [~~ _]/=.
have -> : discretize_args sq tn pi expm bal G dt "zoh" pw q0 = disc_zoh expm bal G dt by [].
rewrite e [bind _ _]/= mkS_ok ?nr_mk ?nc_mk ?subn0 // addKn //.
Qed.

Lemma disc_fohP G dt pw q0 : wfS G -> sgain G = false -> sdt G = None -> 0 < dt ->
  let n := snn G in let m := smn G in
  let E := expm (fohM G dt) in
  let F := asubm E 0 n 0 n in let G1 := asubm E 0 n n (n + m) in let G2 := asubm E 0 n (n + m) (n + 2 * m) in
  let Gd := St F (asub (aadd G1 (amul F G2)) G2) (sc G) (aadd (sd G) (amul (sc G) G2)) false (Some dt) in
  discretize G dt "foh" pw q0 = Ok (DSys Gd (Some "foh"%string) None 0) /\ wfS Gd.
Proof.
move=> w ng edt dt0 n m E F G1 G2 Gd; have [e wE sE] := fohP dt w ng.
have [[wA wB wC wD] [eA eB eC eC' eB']] := wfS_dyn w ng.
have e1 : (n + m - n = m)%N by rewrite addKn.
split; last by apply: wfS_mk; rewrite ?wfa_mk // ?nr_mk ?nc_mk ?subn0.
rewrite /ModelDiscrete.discretize [str_in _ _]/= edt ng [~~ _]/=.
have -> : discretize_args sq tn pi expm bal G dt "foh" pw q0 = disc_foh expm bal G dt by [].
by rewrite e [bind _ _]/= mkS_ok ?nr_mk ?nc_mk ?subn0.
Qed.

(* the inverse of zoh *)
Hypothesis hlog : log_like logm.

Lemma rt_zoh G dt pw q0 o m0 pw' q1 : wfS G -> sgain G = false ->
  let n := snn G in let m := smn G in
  let X := ascaler (zohM G) dt in
  (forall i j, (i < m)%N -> (j < n + m)%N -> get (expm X) (n + i) j = (j == n + i)%N%:R) ->
  logm (expm X) = Ok X ->
  (m0 = None \/ m0 = Some "zoh"%string) ->
  discretize G dt "zoh" pw q0 = Ok o -> ~~ nz (sa (dst o)) ->
  undiscretize o m0 pw' q1 = Ok G.
Proof.
move=> w ng n m X low lE hm0 ok.
have edt : sdt G = None by move: ok; rewrite /ModelDiscrete.discretize; case: (sdt G).
have dt0 : 0 < dt.
  move: ok; rewrite /ModelDiscrete.discretize edt ng /=.
  case: (discretize_args _ _ _ _ _ _ _ _ _ _) => [[[[Ad Bd] Cd] Dd]|] //=.
  by case E: (mkS Ad Bd Cd Dd (Some dt)) => [K|] //= _; exact: (mk_state_dt E).
have [e wGd sE] := disc_zohP pw q0 w ng edt dt0; rewrite -/n -/m -/X in e wGd sE.
move: ok; rewrite e => -[<-] {e} nzA.
have [[wA wB wC wD] [eA eB eC eC' eB']] := wfS_dyn w ng; rewrite -/n -/m in eA eB eC eB'.
have [e wE _] := zohP dt w ng; rewrite -/X in wE.
have [E1 E2] : nr (expm X) = (n + m)%N /\ nc (expm X) = (n + m)%N by case: sE.
set Gd := dst _ in nzA; have nG : snn Gd = n by rewrite /snn /= subn0.
have mG : smn Gd = m by [].
have -> : undiscretize (DSys Gd (Some "zoh"%string) None 0) m0 pw' q1 =
   (do (Ac, Bc, Cc, Dc) <- undisc_zoh logm bal nz Gd dt; mkS Ac Bc Cc Dc None).
  by case: hm0 => ->.
rewrite /undisc_zoh nG mG nzA.
set M := avcat _ _.
have ME : M = expm X.
  have s1 : nr M = (n + m)%N by rewrite !nr_mk subn0.
  have s2 : nc M = (n + m)%N by rewrite !nc_mk subn0 addKn.
  apply: arr_eqP => //; [exact: wfa_mk | by rewrite s1 E1 | by rewrite s2 E2 |] => i j; rewrite s1 s2 => hi hj.
  rewrite /M /avcat get_mk ?nr_mk ?nc_mk ?subn0 ?addKn //; case: ltnP => hi1.
    rewrite get_mk ?nr_mk ?nc_mk ?subn0 ?addKn //; case: ltnP => hj1.
      by rewrite get_mk ?subn0.
    by rewrite get_mk ?subn0 ?addKn ?add0n ?subnKC // ltn_subLR.
  have hi2 : (i - n < m)%N by rewrite ltn_subLR.
  have := low (i - n)%N j hi2 hj; rewrite subnKC // => ->.
  rewrite get_mk ?nr_mk ?nc_mk //; case: ltnP => hj1.
    by rewrite get_mk //; case: eqP => // ej; move: hj1; rewrite ej ltnNge hi1.
  by rewrite get_mk ?ltn_subLR //; congr (_%:R); congr nat_of_bool; rewrite eq_sym -(eqn_add2l n) !subnKC.
have sM : shp M = (n + m, n + m)%N by rewrite ME.
have eM : nr M = nc M by rewrite ME E1 E2.
clearbody M; subst M.
have [b1 b2] := hbal eM; case: (bal (expm X)) b1 b2 => Ms sca; cbv beta iota zeta delta [fst snd] => -> b2.
have [wX sX eqv] := hlog wE eM lE.
have [X1 X2] : nr X = (n + m)%N /\ nc X = (n + m)%N by split; [move: (congr1 fst sX) | move: (congr1 snd sX)] => /= ->.
rewrite eqv // [bind _ _]/= unscaleK ?X1 ?X2 // => [|i hi]; last by apply: b2; rewrite E1.
have sc1 : ascaler X (1 / dt) = zohM G.
  apply: arr_eqP; rewrite ?wfa_mk // => i j; rewrite !nr_mk !nc_mk => hi hj.
  by rewrite /ascaler /amap get_mk // /X /ascaler /amap get_mk // div1r mulfK // gt_eqF.
rewrite sc1; have [M1 M2] : nr (zohM G) = (n + m)%N /\ nc (zohM G) = (n + m)%N by case: (zohM_shp w ng).
rewrite ?eA eB'.
have -> : asubm (zohM G) 0 n 0 n = sa G.
  apply: arr_eqP => //; rewrite ?wfa_mk ?nr_mk ?nc_mk ?subn0 // => i j hi hj.
  by rewrite get_mk ?subn0 // !add0n get_vcat_u ?nc_mk ?ltn_addr ?eA // get_hcat_l // eA.
have -> : asubm (zohM G) 0 n n (n + m) = sb G.
  apply: arr_eqP => //; rewrite ?wfa_mk ?nr_mk ?nc_mk ?subn0 ?addKn // => i j hi hj.
  rewrite get_mk ?subn0 ?addKn // add0n get_vcat_u ?nc_mk ?eA ?eB' ?ltn_add2l //.
  by rewrite -eA get_hcat_r // eB'.
rewrite mkS_ok //; congr Ok.
by move: ng edt; clear; case: G => a b c d g t /= -> ->.
Qed.

End Hold.

Section Final.
Variable R : realFieldType.
Variables (sq tn : R -> R) (pi : R) (expm : arr R -> arr R) (logm : arr R -> res (arr R)).
Variables (bal : arr R -> arr R * seq R) (nz : arr R -> bool).
Local Notation discretize := (@discretize R sq tn pi expm bal).
Implicit Types (G : state R) (meth : string).

Lemma two_morph (L : fieldType) (f : {rmorphism R -> L}) : (2%:R : L) != 0.
Proof. by rewrite -(rmorph_nat f) fmorph_eq0 pnatr_eq0. Qed.

Lemma half_map (L : fieldType) (f : {rmorphism R -> L}) (T : R) (z : L) : T != 0 ->
  (f (2%:R^-1) * (z - 1) + 1 = (z + 1) / 2%:R) /\
  (z + 1 != 0 -> alpha_map f (2%:R^-1) T z = 2%:R / f T * ((z - 1) / (z + 1))).
Proof.
move=> T0; have t0 := two_morph f; have fT : f T != 0 by rewrite fmorph_eq0.
have e : f (2%:R^-1) * (z - 1) + 1 = (z + 1) / 2%:R.
  rewrite fmorphV rmorph_nat; apply: (mulIf t0); rewrite divfK // mulrDl mulrAC mulVf //; mc_ring L.
split=> // z0; rewrite /alpha_map e; apply: (mulIf (_ : f T * ((z + 1) / 2%:R) != 0)).
  by rewrite !mulf_neq0 ?invr_eq0.
rewrite divfK; last by rewrite !mulf_neq0 ?invr_eq0.
have -> : 2%:R / f T * ((z - 1) / (z + 1)) * (f T * ((z + 1) / 2%:R)) =
  (2%:R^-1 * 2%:R) * ((f T)^-1 * f T) * ((z + 1)^-1 * (z + 1)) * (z - 1) by mc_ring L.
by rewrite !mulVf // !mul1r.
Qed.

Lemma tustinP G dt meth q0 : wfS G -> sgain G = false -> sdt G = None -> 0 < dt -> sq dt ^+ 2 = dt ->
  str_in meth tustin_names -> adet (asub (aeye (snn G)) (ascale (dt / 2%:R) (sa G))) != 0 ->
  exists o, [/\ discretize G dt meth 0 q0 = Ok o, sampled G dt meth o &
   forall (L : fieldType) (f : {rmorphism R -> L}) (z : L),
    (z + 1 != 0 -> same_value f G (dst o) z (2%:R / f dt * ((z - 1) / (z + 1)))) /\
    (z + 1 = 0 -> value_at_inf f G (dst o) z)].
Proof.
move=> w ng edt dt0 esq hm dN; have h0 : dt != 0 by rewrite gt_eqF.
have [km nl tu] := tustin_args sq tn pi expm bal G dt 0 q0 hm; rewrite eqxx => ea.
have htu : str_in meth m_tustin -> ~~ (1 / (2%:R * dt) < 0) by move=> _; apply: nyq0.
have [o [h1 h2 h3 h4 [h5 h6]]] := disc_alpha w ng edt dt0 km nl (mulrC _ _ : dt / 2%:R = 2%:R^-1 * dt) ea htu esq h0 dN.
exists o; split=> // L f z; have [e1 e2] := half_map f z h0; have [H1 H2] := h6 L f z.
have t0 := two_morph f; split=> z0.
  by move: H1; rewrite e2 // e1; apply; rewrite mulf_neq0 ?invr_eq0.
by apply: H2; rewrite e1 z0 mul0r.
Qed.

Lemma prewarpP G dt meth q0 pw : wfS G -> sgain G = false -> sdt G = None -> 0 < dt ->
  0 < pw -> pw <= 1 / (2%:R * dt) ->
  let w := 2%:R * pi * pw in let T := 2%:R * tn (w * dt / 2%:R) / w in
  sq T ^+ 2 = T -> T != 0 ->
  str_in meth tustin_names -> adet (asub (aeye (snn G)) (ascale (T / 2%:R) (sa G))) != 0 ->
  exists o, [/\ discretize G dt meth pw q0 = Ok o, sampled G dt meth o &
   forall (L : fieldType) (f : {rmorphism R -> L}) (z : L),
    (z + 1 != 0 -> same_value f G (dst o) z (f (w / tn (w * dt / 2%:R)) * ((z - 1) / (z + 1)))) /\
    (z + 1 = 0 -> value_at_inf f G (dst o) z)].
Proof.
move=> wG ng edt dt0 pw0 ny w T esq h0 hm dN.
have [km nl tu] := tustin_args sq tn pi expm bal G dt pw q0 hm; rewrite (gt_eqF pw0) -leNgt ny.
rewrite -/(sq2tan sq tn pi dt pw) (_ : sq2tan sq tn pi dt pw = sq T) // => ea.
have htu : str_in meth m_tustin -> ~~ (1 / (2%:R * dt) < pw) by move=> _; rewrite -leNgt.
have xE : sq T ^+ 2 / 2%:R = 2%:R^-1 * T by rewrite esq mulrC.
have dN' : adet (lftNa (snn G) (sq T ^+ 2 / 2%:R) (sa G)) != 0 by rewrite esq.
have [o [h1 h2 h3 h4 [h5 h6]]] := disc_alpha wG ng edt dt0 km nl xE ea htu esq h0 dN'.
exists o; split=> // L f z; have [e1 e2] := half_map f z h0; have [H1 H2] := h6 L f z.
have t0 := two_morph f; split=> z0; last by apply: H2; rewrite e1 z0 mul0r.
have -> : f (w / tn (w * dt / 2%:R)) = 2%:R / f T.
  rewrite -(rmorph_nat f) -fmorph_div; congr (f _); by rewrite /T invf_div mulrCA invfM mulVKf // pnatr_eq0.
by move: H1; rewrite e2 // e1; apply; rewrite mulf_neq0 ?invr_eq0.
Qed.

Lemma forwardP G dt meth pw q0 : wfS G -> sgain G = false -> sdt G = None -> 0 < dt -> sq dt ^+ 2 = dt ->
  str_in meth forward_names ->
  exists o, [/\ discretize G dt meth pw q0 = Ok o, sampled G dt meth o &
   forall (L : fieldType) (f : {rmorphism R -> L}) (z : L), same_value f G (dst o) z ((z - 1) / f dt)].
Proof.
move=> w ng edt dt0 esq hm; have h0 : dt != 0 by rewrite gt_eqF.
have [[wA wB wC wD] [eA eB eC eC' eB']] := wfS_dyn w ng.
have [km nl tu ea] := forward_args sq tn pi expm bal G dt pw q0 hm.
have htu : str_in meth m_tustin -> ~~ (1 / (2%:R * dt) < pw) by move=> h; rewrite h in tu.
have dN : adet (lftNa (snn G) 0 (sa G)) != 0 by apply: lftNa0.
have [o [h1 h2 h3 h4 [h5 h6]]] := disc_alpha w ng edt dt0 km nl (esym (mul0r _)) ea htu esq h0 dN.
exists o; split=> // L f z; have [H1 _] := h6 L f z; move: H1.
by rewrite /alpha_map rmorph0 mul0r add0r mulr1; apply; rewrite oner_eq0.
Qed.

Lemma backwardP G dt meth pw q0 : wfS G -> sgain G = false -> sdt G = None -> 0 < dt -> sq dt ^+ 2 = dt ->
  str_in meth backward_names -> adet (asub (aeye (snn G)) (ascale dt (sa G))) != 0 ->
  exists o, [/\ discretize G dt meth pw q0 = Ok o, sampled G dt meth o &
   forall (L : fieldType) (f : {rmorphism R -> L}) (z : L),
    (z != 0 -> same_value f G (dst o) z ((z - 1) / (z * f dt))) /\
    (z = 0 -> value_at_inf f G (dst o) z)].
Proof.
move=> w ng edt dt0 esq hm dN; have h0 : dt != 0 by rewrite gt_eqF.
have [km nl tu ea] := backward_args sq tn pi expm bal G dt pw q0 hm.
have htu : str_in meth m_tustin -> ~~ (1 / (2%:R * dt) < pw) by move=> h; rewrite h in tu.
have [o [h1 h2 h3 h4 [h5 h6]]] := disc_alpha w ng edt dt0 km nl (esym (mul1r _)) ea htu esq h0 dN.
exists o; split=> // L f z; have [H1 H2] := h6 L f z.
move: H1 H2; rewrite /alpha_map rmorph1 mul1r subrK [f dt * z]mulrC => H1 H2.
by split=> z0; [apply: H1 | apply: H2].
Qed.

Lemma userP G dt pw q : wfS G -> sgain G = false -> sdt G = None -> 0 < dt -> shp q = (2, 2)%N ->
  adet (asub (aeye (snn G)) (ascale (get q 1 1) (sa G))) != 0 ->
  exists o, [/\ discretize G dt "lft" pw (Some q) = Ok o, sampled G dt "lft" o, dq o = Some q &
   forall (L : fieldType) (f : {rmorphism R -> L}) (z : L),
   let q11 := f (get q 0 0) in let q12 := f (get q 0 1) in let q21 := f (get q 1 0) in let q22 := f (get q 1 1) in
   let x := q22 + q21 * q12 / (z - q11) in
    z != q11 ->
    (x != 0 -> same_value f G (dst o) z x^-1) /\
    (x = 0 -> value_at_inf f G (dst o) z)].
Proof.
move=> w ng edt dt0 eq0 dN.
have htu : str_in "lft" m_tustin -> ~~ (1 / (2%:R * dt) < pw) by [].
have ea := lft_args sq tn pi expm bal G dt pw q.
have [o [[h1 h2 h3 h4 h5] [h6 h7 h8 h9 h10]]] := disc_lft w ng edt dt0 (erefl : str_in "lft" known_methods) eq0 ea htu dN.
exists o; split=> // L f z q11 q12 q21 q22 x zq.
have zq' : z - q11 != 0 by rewrite subr_eq0.
have [] := h10 L f z; rewrite -/q11 -/q12 -/q21 -/q22.
have -> : q22 * (z - q11) + q12 * q21 = x * (z - q11).
  by rewrite /x mulrDl divfK // [q12 * _]mulrC.
move=> H1 H2; split=> x0.
  by apply: H1; rewrite ?mulf_neq0 // mulKf.
by apply: H2; rewrite ?x0 ?mul0r.
Qed.

Lemma singularP G dt meth pw (q : arr R) q0 : wfS G -> sgain G = false -> sdt G = None ->
  [\/ [/\ str_in meth tustin_names, pw = 0 & get q 1 1 = dt / 2%:R],
      str_in meth backward_names /\ get q 1 1 = dt | [/\ meth = "lft"%string, q0 = Some q & shp q = (2, 2)%N]] ->
  adet (asub (aeye (snn G)) (ascale (get q 1 1) (sa G))) = 0 ->
  discretize G dt meth pw q0 = Err LinAlgError.
Proof.
move=> w ng edt [[hm -> ->]|[hm ->]|[-> -> eq0]] dN.
- have [km nl tu] := tustin_args sq tn pi expm bal G dt 0 q0 hm; rewrite eqxx => ea.
  exact: (disc_lft_err (q := q2 1 (sq dt) (sq dt) (dt / 2%:R)) w ng edt km erefl ea dN).
- have [km nl tu ea] := backward_args sq tn pi expm bal G dt pw q0 hm.
  exact: (disc_lft_err (q := q2 1 (sq dt) (sq dt) dt) w ng edt km erefl ea dN).
- exact: (disc_lft_err w ng edt (erefl : str_in "lft" known_methods) eq0 (lft_args sq tn pi expm bal G dt pw q) dN).
Qed.

Lemma disc_refused G dt meth pw q0 :
  ~~ str_in meth known_methods \/ sdt G != None -> discretize G dt meth pw q0 = Err ValueError.
Proof.
rewrite /ModelDiscrete.discretize; case=> [/negbTE ->//|]; case: ifP => // _.
by case: (sdt G).
Qed.

Lemma nyquist G dt meth pw q0 : sgain G = false -> 1 / (2%:R * dt) < pw -> 0 < pw -> str_in meth tustin_names ->
  discretize G dt meth pw q0 = Err ValueError.
Proof.
move=> ng ny pw0 hm; rewrite /ModelDiscrete.discretize ng.
have [km nl tu] := tustin_args sq tn pi expm bal G dt pw q0 hm; rewrite (gt_eqF pw0) ny => ->.
by rewrite km [~~ true]/=; case: (sdt G).
Qed.

End Final.
