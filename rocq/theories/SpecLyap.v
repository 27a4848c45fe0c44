(* What the Lyapunov solvers are about: the four equations and the factorisations the code relies on. *)
From mathcomp Require Import all_ssreflect all_algebra.
From Verif Require Import Base BaseTheory.

Set Implicit Arguments.
Unset Strict Implicit.
Unset Printing Implicit Defensive.

Import GRing.Theory Num.Theory.
Local Open Scope ring_scope.

Section SpecLyap.
Variable R : realFieldType.
Local Notation mx := (mxof [rmorphism of @idfun R]).

(* a well-formed n x n array *)
Definition square (n : nat) (A : arr R) := [/\ wfa A, nr A = n & nc A = n].

(* the docstring's equations (1), (1'), (2), (2') *)
Definition lyap_c (n : nat) (A Y X : arr R) := mx n n X *m mx n n A + (mx n n A)^T *m mx n n X + mx n n Y = 0.
Definition lyap_d (n : nat) (A Y X : arr R) := (mx n n A)^T *m mx n n X *m mx n n A - mx n n X + mx n n Y = 0.
Definition lyap_gc (n : nat) (A E Y X : arr R) :=
  (mx n n E)^T *m mx n n X *m mx n n A + (mx n n A)^T *m mx n n X *m mx n n E + mx n n Y = 0.
Definition lyap_gd (n : nat) (A E Y X : arr R) :=
  (mx n n A)^T *m mx n n X *m mx n n A - (mx n n E)^T *m mx n n X *m mx n n E + mx n n Y = 0.
Definition symmetric (n : nat) (Y : arr R) := (mx n n Y)^T = mx n n Y.

Definition orthogonal (n : nat) (U : arr R) := (mx n n U)^T *m mx n n U = 1%:M.

(* block upper triangular with blocks of size one or two: nothing below the subdiagonal, and no two neighbouring
   entries on it *)
Definition quasi_triangular (n : nat) (T : arr R) :=
  (forall i j, (j.+1 < i < n)%N -> get T i j = 0) /\
  (forall i, (i.+2 < n)%N -> get T i.+1 i != 0 -> get T i.+2 i.+1 = 0).

(* scipy.linalg.schur(A, output='real') = (T, U) *)
Definition real_schur (n : nat) (A T U : arr R) :=
  [/\ square n T, square n U, orthogonal n U, quasi_triangular n T & mx n n A = mx n n U *m mx n n T *m (mx n n U)^T].

(* scipy.linalg.qz(A, E) = (S, T, Q, Z); the solvers take a subdiagonal entry of S for zero when it is at most tol *)
Definition real_qz (tol : R) (n : nat) (A E As Es Q Z : arr R) :=
  [/\ [/\ square n As, square n Es, square n Q & square n Z], orthogonal n Q /\ orthogonal n Z,
      quasi_triangular n As /\ (forall i j, (j < i < n)%N -> get Es i j = 0),
      (forall i, (i.+1 < n)%N -> `|get As i.+1 i| <= tol -> get As i.+1 i = 0) &
      mx n n A = mx n n Q *m mx n n As *m (mx n n Z)^T /\ mx n n E = mx n n Q *m mx n n Es *m (mx n n Z)^T].
End SpecLyap.
