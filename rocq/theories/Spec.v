(* The small independent specification used in the theorem statements.
   Nothing here mentions the model of the code. *)
From mathcomp Require Import all_ssreflect all_algebra.

Set Implicit Arguments.
Unset Strict Implicit.
Unset Printing Implicit Defensive.

Import GRing.Theory.
Local Open Scope ring_scope.

Section Spec.
Variable L : fieldType.

(* The transfer matrix of  x' = A x + B u,  y = C x + D u  at the point s. *)
Definition tfmx n m p (A : 'M[L]_n) (B : 'M[L]_(n, m)) (C : 'M[L]_(p, n))
    (D : 'M[L]_(p, m)) (s : L) : 'M[L]_(p, m) :=
  D + C *m invmx (s%:M - A) *m B.

(* s is not a pole of a model with state matrix A *)
Definition regular n (A : 'M[L]_n) (s : L) : bool := s%:M - A \in unitmx.

(* The polynomial whose coefficients are listed highest power first, as in
   numpy's poly1d convention. *)
Definition polyhi (p : seq L) : {poly L} := Poly (rev p).

(* g is a greatest common divisor of the listed polynomials *)
Definition is_gcd (ps : seq (seq L)) (g : {poly L}) : Prop :=
  forall d : {poly L}, (d %| g) <-> (forall p, p \in ps -> d %| polyhi p).

(* l is a least common multiple of the listed polynomials *)
Definition is_lcm (ps : seq (seq L)) (l : {poly L}) : Prop :=
  forall q : {poly L}, (l %| q) <-> (forall p, p \in ps -> polyhi p %| q).

End Spec.
