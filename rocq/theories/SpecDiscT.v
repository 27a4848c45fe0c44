(* Specification vocabulary for the discretisation of Transfer models. *)
From mathcomp Require Import all_ssreflect all_algebra.
From Coq Require Import String.
From Verif Require Import Base BaseTheory Spec PolyTheory ModelTransfer DenoteT ConvertOps ModelDiscT.

Set Implicit Arguments.
Unset Strict Implicit.
Unset Printing Implicit Defensive.

Import GRing.Theory Num.Theory.
Local Open Scope ring_scope.

Section SpecDiscT.
Variables (R : realFieldType).
Implicit Types (G H : tf R).

(* s is not a pole of any entry *)
Definition all_def (L : fieldType) (f : {rmorphism R -> L}) G (s : L) : Prop :=
  forall i j, (i < tp G)%N -> (j < tm G)%N -> dfT f G s i j.

(* H at z is G at s, when s is not a pole of G *)
Definition tf_same (L : fieldType) (f : {rmorphism R -> L}) G H (z s : L) : Prop :=
  all_def f G s -> forall i j, (i < tp G)%N -> (j < tm G)%N -> dfT f H z i j /\ evT f H z i j = evT f G s i j.

(* H at z is G at infinity, the ratio of the coefficients of the degree of the denominator *)
Definition at_inf G i j : R := (polyhi (ent (tn G) i j))`_(size (ent (td G) i j)).-1 / head 0 (ent (td G) i j).
Definition tf_inf (L : fieldType) (f : {rmorphism R -> L}) G H (z : L) : Prop :=
  forall i j, (i < tp G)%N -> (j < tm G)%N -> dfT f H z i j /\ evT f H z i j = f (at_inf G i j).

(* the entries of G and H are the same rational functions *)
Definition tf_eq G H : Prop := forall i j, (i < tp G)%N -> (j < tm G)%N ->
  polyhi (ent (tn H) i j) * polyhi (ent (td G) i j) = polyhi (ent (tn G) i j) * polyhi (ent (td H) i j).

(* O is a model of the size of G with sampling period dt that remembers the method *)
Definition tf_sampled G (dt : R) (meth : string) (O : dtf R) : Prop :=
  [/\ wfT (ttf O), tshape (ttf O) = tshape G, tdt (ttf O) = Some dt & tmeth O = Some meth].
End SpecDiscT.
