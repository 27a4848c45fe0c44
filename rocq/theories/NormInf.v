(* The Hamiltonian matrix of the H-infinity norm. *)
From mathcomp Require Import all_ssreflect all_algebra zify.
From Verif Require Import Base BaseTheory Spec ModelState Denote StateTheory SpecNorm.

Set Implicit Arguments.
Unset Strict Implicit.
Unset Printing Implicit Defensive.

Import Order.Theory GRing.Theory Num.Theory.
Local Open Scope ring_scope.

Lemma zm3 (V : zmodType) (a b c : V) : a - b - (c + a) = - (c + b).
Proof. by rewrite [c + a]addrC opprD addrA [a - b - a]addrAC subrr add0r -opprD addrC. Qed.

Section Ham.
Variables (L : fieldType) (n m p : nat).
Variables (A : 'M[L]_n) (B : 'M[L]_(n, m)) (C : 'M[L]_(p, n)) (D : 'M[L]_(p, m)) (s g : L).
Let Rm := D^T *m D - (g ^+ 2)%:M.
Let Sm := D *m D^T - (g ^+ 2)%:M.
Definition hamx : 'M[L]_(n + n) :=
  let A1 := A - B *m (invmx Rm *m D^T) *m C in
  block_mx A1 (- g *: B *m (invmx Rm *m B^T)) (g *: C^T *m (invmx Sm *m C)) (- A1^T).

Lemma RmT : Rm^T = Rm.
Proof. by rewrite /Rm linearB /= trmx_mul trmxK tr_scalar_mx. Qed.
Lemma DR : Rm \in unitmx -> Sm \in unitmx -> D *m invmx Rm = invmx Sm *m D.
Proof.
move=> uR uS; have e : Sm *m D = D *m Rm.
  by rewrite /Sm /Rm mulmxBl mulmxBr mulmxA mul_scalar_mx mul_mx_scalar.
by rewrite -[LHS](mulKmx uS) [Sm *m _]mulmxA e mulmxK.
Qed.

Lemma ham_eig (u : 'cV[L]_m) : Rm \in unitmx -> Sm \in unitmx -> g != 0 ->
  s%:M - A \in unitmx -> (- s)%:M - A \in unitmx -> u != 0 ->
  (tfmx A B C D (- s))^T *m tfmx A B C D s *m u = g ^+ 2 *: u ->
  exists2 z : 'cV[L]_(n + n), z != 0 & hamx *m z = s *: z.
Proof.
move=> uR uS g0 uA uA' u0 Hu.
pose v := g^-1 *: (tfmx A B C D s *m u).
pose x := invmx (s%:M - A) *m B *m u.
pose q := (invmx ((- s)%:M - A))^T *m C^T *m v.
have e1 : A *m x + B *m u = s *: x.
  have : (s%:M - A) *m x = B *m u by rewrite /x !mulmxA mulmxV // mul1mx.
  by rewrite mulmxBl mul_scalar_mx => <-; rewrite addrC subrK.
have e2 : A^T *m q + C^T *m v = - s *: q.
  have : ((- s)%:M - A)^T *m q = C^T *m v by rewrite /q !mulmxA -trmx_mul mulVmx // trmx1 mul1mx.
  by rewrite linearB /= tr_scalar_mx mulmxBl mul_scalar_mx => <-; rewrite addrC subrK.
have e3 : C *m x + D *m u = g *: v.
  by rewrite /v scalerA mulfV // scale1r /tfmx mulmxDl addrC /x !mulmxA.
have e4 : B^T *m q + D^T *m v = g *: u.
  have -> : B^T *m q + D^T *m v = (tfmx A B C D (- s))^T *m v.
    by rewrite /tfmx linearD /= mulmxDl addrC /q !trmx_mul !mulmxA.
  by rewrite /v -scalemxAr mulmxA Hu scalerA expr2 mulKf.
have e5 : Rm *m u = - (g *: (B^T *m q) + D^T *m (C *m x)).
  rewrite /Rm mulmxBl mul_scalar_mx expr2 -scalerA -e4 scalerDr -mulmxA.
  have -> : D *m u = g *: v - C *m x by rewrite -e3 addrC addKr.
  by rewrite mulmxBr -scalemxAr zm3.
have e6 : Sm *m v = - (g *: (C *m x) + D *m (B^T *m q)).
  rewrite /Sm mulmxBl mul_scalar_mx expr2 -scalerA -e3 scalerDr -mulmxA.
  have -> : D^T *m v = g *: u - B^T *m q by rewrite -e4 addrC addKr.
  by rewrite mulmxBr -scalemxAr zm3.
have e5' : invmx Rm *m (g *: (B^T *m q) + D^T *m (C *m x)) = - u.
  by rewrite -[LHS]opprK -mulmxN -e5 mulKmx.
have e6' : invmx Sm *m (g *: (C *m x) + D *m (B^T *m q)) = - v.
  by rewrite -[LHS]opprK -mulmxN -e6 mulKmx.
exists (col_mx x q).
  apply: contra u0 => /eqP h.
  have : col_mx x q = col_mx 0 0 by rewrite h col_mx0.
  case/eq_col_mx => ex eq; rewrite -oppr_eq0 -e5' ex eq.
  by rewrite !mulmx0 scaler0 addr0 mulmx0.
rewrite /hamx mul_block_col scale_col_mx; congr col_mx.
  rewrite mulmxBl -!mulmxA -e1 -addrA; congr (_ + _).
  rewrite -scalemxAl scaleNr -opprD -[RHS]opprK; congr (- _).
  by rewrite scalemxAr -mulmxDr scalemxAr -mulmxDr addrC e5' mulmxN.
rewrite linearB /= opprB mulmxBl !trmx_mul trmxK trmx_inv RmT.
have -> : C^T *m (D *m invmx Rm *m B^T) *m q = C^T *m (invmx Sm *m (D *m (B^T *m q))).
  by rewrite (DR uR uS) -!mulmxA.
have -> : g *: C^T *m (invmx Sm *m C) *m x = C^T *m (invmx Sm *m (g *: (C *m x))).
  by rewrite -!scalemxAr -2!scalemxAl -!mulmxA.
rewrite addrA -!mulmxDr e6' mulmxN.
by rewrite -opprD addrC e2 scaleNr opprK.
Qed.
End Ham.
