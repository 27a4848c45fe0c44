(* Specification used for state_to_transfer. *)
From mathcomp Require Import all_ssreflect all_algebra.
From Verif Require Import Base BaseTheory.

Set Implicit Arguments.
Unset Strict Implicit.
Unset Printing Implicit Defensive.

Import GRing.Theory Num.Theory.
Local Open Scope ring_scope.

(* the numerator c adj(xI - A) b of c (xI - A)^-1 b, its denominator being det(xI - A) = char_poly A *)
Definition numpoly (F : fieldType) n (A : 'M[F]_n) (b : 'cV[F]_n) (c : 'rV[F]_n) : {poly F} :=
  (map_mx polyC c *m \adj (char_poly_mx A) *m map_mx polyC b) 0 0.

(* What the external computations deliver.  L, with the embedding f of the reals, plays the complex
   numbers, re the real part and absL the modulus. *)
Section Contracts.
Variables (R : realFieldType) (L : fieldType) (f : {rmorphism R -> L}).

Let mx m n (A : arr R) := mxof [rmorphism of @idfun R] m n A.

(* real part and modulus of a real number *)
Definition re_ok (re : L -> R) : Prop := forall x, re (f x) = x.
Definition abs_ok (absL : L -> R) : Prop := forall x, absL (f x) = `|x|.

(* the eigenvalues pp of A are the roots of the characteristic polynomial, with multiplicity *)
Definition eig_ok (A : arr R) (pp : seq L) : Prop :=
  \prod_(x <- pp) ('X - x%:P) = map_poly f (char_poly (mx (nr A) (nr A) A)).

(* the zeros zz of c (xI - A)^-1 b: a list closed under conjugation that factors its numerator *)
Definition tz_ok (A b c : arr R) (zz : seq L) : Prop :=
  exists k (Z : {poly R}), \prod_(z <- zz) ('X - z%:P) = map_poly f Z /\
    numpoly (mx (nr A) (nr A) A) (mx (nr A) 1 b) (mx 1 (nr A) c) = k *: Z.

(* the least squares solution of an invertible system solves it *)
Definition lsq_ok (lsq : arr R -> arr R -> arr R) : Prop := forall n A b, shp A = (n, n) -> shp b = (n, 1)%N ->
  mx n n A \in unitmx -> shp (lsq A b) = (n, 1)%N /\ mx n n A *m mx n 1 (lsq A b) = mx n 1 b.

End Contracts.
