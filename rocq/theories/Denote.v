(* What a State model means: its transfer matrix, entry by entry. *)
From mathcomp Require Import all_ssreflect all_algebra.
From Verif Require Import Base BaseTheory Spec ModelState.

Set Implicit Arguments.
Unset Strict Implicit.
Unset Printing Implicit Defensive.

Import GRing.Theory Num.Theory.
Local Open Scope ring_scope.

Section Denote.
Variables (R : realFieldType) (L : fieldType) (f : {rmorphism R -> L}).

(* s (a point of any extension field L of R) is not a pole of G *)
Definition regS (G : state R) (s : L) : bool :=
  regular (mxof f (snn G) (snn G) (sa G)) s.

(* the p-by-m transfer matrix of G at s *)
Definition evalS p m (G : state R) (s : L) : 'M[L]_(p, m) :=
  tfmx (mxof f (snn G) (snn G) (sa G)) (mxof f (snn G) m (sb G))
       (mxof f p (snn G) (sc G)) (mxof f p m (sd G)) s.

(* its (i,j) entry, for natural numbers i and j:
   D_ij + C_i (sI - A)^-1 B_j *)
Definition ev (G : state R) (s : L) (i j : nat) : L :=
  f (get (sd G) i j) +
  ((\row_k f (get (sc G) i k)) *m
   invmx (s%:M - mxof f (snn G) (snn G) (sa G)) *m
   (\col_k f (get (sb G) k j))) 0 0.

Lemma evalSE p m G s i j : evalS p m G s i j = ev G s i j.
Proof.
rewrite /evalS /tfmx /ev !mxE; congr (_ + _).
apply: eq_bigr => k _; rewrite !mxE; congr (_ * _).
by apply: eq_bigr => l _; rewrite !mxE.
Qed.

End Denote.
