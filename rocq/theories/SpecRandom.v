(* Specification of stability without complex numbers. *)
From mathcomp Require Import all_ssreflect all_algebra.

Set Implicit Arguments.
Unset Strict Implicit.
Unset Printing Implicit Defensive.

Import GRing.Theory Num.Theory.
Local Open Scope ring_scope.

(* x + iy is an eigenvalue of A, with eigenvector u + iv *)
Definition is_pole (R : realFieldType) n (A : 'M[R]_n) (x y : R) : Prop :=
  exists u v : 'cV[R]_n, [/\ (u != 0) || (v != 0), A *m u = x *: u - y *: v & A *m v = x *: v + y *: u].

(* the square of the Euclidean length *)
Definition norm2 (R : realFieldType) n (u : 'cV[R]_n) : R := \sum_i u i 0 ^+ 2.

(* v' M v < 0 for every nonzero v *)
Definition dissipative (R : realFieldType) n (M : 'M[R]_n) : Prop :=
  forall v : 'cV[R]_n, v != 0 -> (v^T *m M *m v) 0 0 < 0.
(* |E v| < |v| for every nonzero v *)
Definition contraction (R : realFieldType) n (E : 'M[R]_n) : Prop :=
  forall v : 'cV[R]_n, v != 0 -> norm2 (E *m v) < norm2 v.
