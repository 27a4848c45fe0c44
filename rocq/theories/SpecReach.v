(* Specification of reachability and observability for C75, independent of the model. *)
From mathcomp Require Import all_ssreflect all_algebra.

Set Implicit Arguments.
Unset Strict Implicit.
Unset Printing Implicit Defensive.

Import GRing.Theory.
Local Open Scope ring_scope.

Section Reach.
Variable R : fieldType.

(* the state x(N) of  x(k+1) = A x(k) + B u(k)  started at rest *)
Fixpoint from_rest n m (A : 'M[R]_n) (B : 'M[R]_(n, m)) (u : nat -> 'cV[R]_m) (N : nat) : 'cV[R]_n :=
  if N is k.+1 then A *m from_rest A B u k + B *m u k else 0.

(* every state can be reached from rest by some finite input sequence *)
Definition reachable n m (A : 'M[R]_n) (B : 'M[R]_(n, m)) : Prop :=
  forall x, exists N u, from_rest A B u N = x.

(* the output y(k) of  x(k+1) = A x(k), y = C x  started at x0 *)
Definition free_output n p (A : 'M[R]_n) (C : 'M[R]_(p, n)) (x0 : 'cV[R]_n) (k : nat) : 'cV[R]_p :=
  C *m iter k (mulmx A) x0.

(* different initial states give different zero-input outputs *)
Definition distinguishable n p (A : 'M[R]_n) (C : 'M[R]_(p, n)) : Prop :=
  forall x y, (forall k, free_output A C x k = free_output A C y k) -> x = y.

(* a left eigenvector of A that B does not excite *)
Definition hidden_mode n m (A : 'M[R]_n) (B : 'M[R]_(n, m)) (z : R) : Prop :=
  exists w : 'rV[R]_n, [/\ w != 0, w *m A = z *: w & w *m B = 0].

End Reach.
