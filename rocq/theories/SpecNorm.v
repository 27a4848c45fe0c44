(* What the two norms of a model are. *)
From mathcomp Require Import all_ssreflect all_algebra.
From Verif Require Import Base BaseTheory Spec ModelState SpecSim.

Set Implicit Arguments.
Unset Strict Implicit.
Unset Printing Implicit Defensive.

Import GRing.Theory Num.Theory.
Local Open Scope ring_scope.

Section SpecNorm.
Variable R : realFieldType.

(* the sum of the squares of the entries *)
Definition frob2 p m (M : 'M[R]_(p, m)) : R := \sum_i \sum_j M i j ^+ 2.

(* the energy of the first N samples of the impulse responses of x+ = A x + B u, y = C x + D u *)
Definition energy n m p (A : 'M[R]_n) (B : 'M[R]_(n, m)) (C : 'M[R]_(p, n)) (D : 'M[R]_(p, m)) (N : nat) : R :=
  \sum_(k < N) frob2 (markov A B C D k).

(* limits *)
Definition tends (u : nat -> R) (l : R) : Prop :=
  forall e, 0 < e -> exists N0, forall N, (N0 <= N)%N -> `|u N - l| < e.
(* A^k goes to zero: every eigenvalue lies in the open unit disc *)
Definition powers_vanish n (A : 'M[R]_n) : Prop := forall i j, tends (fun k => mpow A k i j) 0.

(* x is the nonnegative square root of t *)
Definition is_sqrt (t x : R) : Prop := 0 <= x /\ x ^+ 2 = t.
End SpecNorm.

Section SpecInf.
Variables (R : realFieldType) (L : fieldType) (f : {rmorphism R -> L}) (ii : L) (conj : {rmorphism L -> L}).

(* L is the complex numbers over R: ii the imaginary unit, conj the conjugation *)
Definition complexes : Prop :=
  [/\ ii ^+ 2 = -1, conj ii = - ii, (forall x, conj (f x) = f x) &
      forall x y, f x + ii * f y = 0 -> x = 0 /\ y = 0].

(* (x, y) are the real and imaginary parts of an eigenvalue of M *)
Definition eigenvalue_of n (M : 'M[R]_n) (z : R * R) : Prop :=
  exists2 v : 'cV[L]_n, v != 0 & map_mx f M *m v = (f z.1 + ii * f z.2) *: v.

(* the conjugate transpose *)
Definition adjointc m n (M : 'M[L]_(m, n)) : 'M[L]_(n, m) := (map_mx conj M)^T.
(* the nonnegative number g is a singular value of M *)
Definition singular_value m n (M : 'M[L]_(m, n)) (g : R) : Prop :=
  exists2 u : 'cV[L]_n, u != 0 & adjointc M *m M *m u = f (g ^+ 2) *: u.

(* every element of L is x + ii y *)
Definition cartesian : Prop := forall z, exists x y, z = f x + ii * f y.
(* |u|^2 *)
Definition sqnorm n (u : 'cV[L]_n) : L := (adjointc u *m u) 0 0.
(* g is the largest value of |M u| / |u| *)
Definition induced_norm m n (M : 'M[L]_(m, n)) (g : R) : Prop :=
  [/\ 0 <= g, forall u, exists2 r : R, 0 <= r & f (g ^+ 2) * sqnorm u - sqnorm (M *m u) = f r &
      exists2 u, u != 0 & sqnorm (M *m u) = f (g ^+ 2) * sqnorm u].
End SpecInf.
