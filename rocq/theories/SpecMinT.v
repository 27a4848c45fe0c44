(* Specification for C63. *)
From mathcomp Require Import all_ssreflect all_algebra.
From Verif Require Import Base Spec ModelTransfer Cplx ModelMinT.

Set Implicit Arguments.
Unset Strict Implicit.
Unset Printing Implicit Defensive.

Import GRing.Theory Num.Theory.
Local Open Scope ring_scope.

Section SpecMinT.
Variable R : realFieldType.
Variable rts : row R -> seq (cpl R).
Variable sq : R -> R.

(* rts p are the roots of p with their multiplicities; p is listed from its nonzero leading coefficient *)
Definition rts_ok (p : row R) : Prop :=
  map_poly (@c_of R) (polyhi p) = c_of (head 0 p) *: \prod_(x <- rts p) ('X - x%:P).

(* a zero and a pole are taken for equal exactly when they are equal *)
Definition sep (tol : R) (num den : row R) : Prop :=
  forall z p, z \in rts num -> p \in rts den -> (cabs sq (p - z) < tol + tol * cabs sq z) = (p == z).

(* num' / den' is the reduced form of num / den: the same rational function, a monic denominator that divides den, the
   same relative degree, and no common factor *)
Definition reduced (num den num' den' : row R) : Prop :=
  [/\ polyhi num' * polyhi den = polyhi num * polyhi den',
      polyhi den' %| polyhi den, head 0 den' = 1,
      (size num' + size den = size num + size den')%N &
      polyhi num != 0 -> coprimep (polyhi num') (polyhi den')].
End SpecMinT.
