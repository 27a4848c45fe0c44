(* Specification of linear-quadratic regulation. *)
From mathcomp Require Import all_ssreflect all_algebra.
From Verif Require Import Base SpecSim.

Set Implicit Arguments.
Unset Strict Implicit.
Unset Printing Implicit Defensive.

Import GRing.Theory Num.Theory.
Local Open Scope ring_scope.

Section LQ.
Variable R : realFieldType.

(* x' M x *)
Definition quad k (x : 'cV[R]_k) (M : 'M[R]_k) : R := (x^T *m M *m x) 0 0.

Variables (n m : nat) (disc : bool) (A : 'M[R]_n) (B : 'M[R]_(n, m)).

(* how x' X x changes along  dx/dt = A x + B u  (its derivative) or  x+ = A x + B u  (its increment) *)
Definition drift (X : 'M[R]_n) (x : 'cV[R]_n) (u : 'cV[R]_m) : R :=
  let v := A *m x + B *m u in
  if disc then quad v X - quad x X else (v^T *m X *m x + x^T *m X *m v) 0 0.

(* the weight left on the deviation of the input from -K x *)
Definition rest_weight (X : 'M[R]_n) (Rw : 'M[R]_m) : 'M[R]_m := if disc then B^T *m X *m B + Rw else Rw.

(* The cost [x; u]' W [x; u] and X, K fit together: whatever the input does, the running cost is what x' X x loses
   plus a quadratic penalty on u + K x. *)
Definition lq_optimal (W : 'M[R]_(n + m)) (K : 'M[R]_(m, n)) (X : 'M[R]_n) : Prop :=
  forall x u, quad (col_mx x u) W + drift X x u = quad (u + K *m x) (rest_weight X (drsubmx W)).

(* The algebraic Riccati equations as documented by scipy, X symmetric *)
Definition riccati (Q : 'M[R]_n) (Rw : 'M[R]_m) (Sw : 'M[R]_(n, m)) (X : 'M[R]_n) : Prop :=
  [/\ X^T = X, Q^T = Q, Rw^T = Rw, rest_weight X Rw \in unitmx &
  if disc then A^T *m X *m A - X - (A^T *m X *m B + Sw) *m invmx (rest_weight X Rw) *m (B^T *m X *m A + Sw^T) + Q = 0
  else A^T *m X + X *m A - (X *m B + Sw) *m invmx Rw *m (B^T *m X + Sw^T) + Q = 0].

(* trajectory of x+ = A x + B u *)
Fixpoint traj (x0 : 'cV[R]_n) (u : nat -> 'cV[R]_m) (k : nat) : 'cV[R]_n :=
  if k is k'.+1 then A *m traj x0 u k' + B *m u k' else x0.

End LQ.

(* what the Riccati solvers guarantee for the arrays they are given *)
Definition ric_ok (R : realFieldType) (ric : bool -> arr R -> arr R -> arr R -> arr R -> option (arr R) -> res (arr R)) : Prop :=
  forall disc a b q r s X n m, shp a = (n, n) -> shp b = (n, m) -> ric disc a b q r s = Ok X ->
  [/\ shp X = (n, n), shp q = (n, n), shp r = (m, m), (if s is Some s then shp s = (n, m) else True) &
      riccati disc (amx n n a) (amx n m b) (amx n n q) (amx m m r) (if s is Some s then amx n m s else 0) (amx n n X)].
