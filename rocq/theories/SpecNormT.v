(* Specification vocabulary for the norms of Transfer models. *)
From mathcomp Require Import all_ssreflect all_algebra.
From Verif Require Import Base ModelTransfer DenoteT SpecDiff ModelDiscT SpecDiscT.

Set Implicit Arguments.
Unset Strict Implicit.
Unset Printing Implicit Defensive.

Import GRing.Theory Num.Theory.
Local Open Scope ring_scope.

Section SpecNormT.
Variable R : realFieldType.
Implicit Types (G : tf R).

(* the transfer matrix at s, and at infinity, as arrays *)
Definition respT (L : fieldType) (f : {rmorphism R -> L}) G (s : L) : arr L := mk (tp G) (tm G) (evT f G s).
Definition respT_inf (L : fieldType) (f : {rmorphism R -> L}) G : arr L := mk (tp G) (tm G) (fun i j => f (at_inf G i j)).

(* h i j is the response of output i to a unit impulse at input j: it solves the difference equation of the entry *)
Definition impulse_response_of G (h : nat -> nat -> nat -> R) : Prop := forall i j, (i < tp G)%N -> (j < tm G)%N ->
  forall N, solves (ent (tn G) i j) (ent (td G) i j) (fun k => if k == 0%N then 1 else 0) (h i j) N.

(* the energy of its first N samples *)
Definition energyT G (h : nat -> nat -> nat -> R) (N : nat) : R :=
  \sum_(k < N) \sum_(i < tp G) \sum_(j < tm G) h i j k ^+ 2.
End SpecNormT.
