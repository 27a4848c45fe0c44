(* Specification for C76: the low-frequency gain of a State model. *)
From mathcomp Require Import all_ssreflect all_algebra.
From Verif Require Import Base ModelState ModelDc SpecSim.

Set Implicit Arguments.
Unset Strict Implicit.
Unset Printing Implicit Defensive.

Import GRing.Theory Num.Theory.
Local Open Scope ring_scope.

Section Spec.
Variable R : realFieldType.

(* num/den is the (i, j) entry of the transfer matrix D + C (sI - A)^-1 B *)
Definition entry_of (G : state R) (i : 'I_(spn G)) (j : 'I_(smn G)) (num den : {poly R}) : Prop :=
  den != 0 /\ forall s, s%:M - Amx G \in unitmx -> den.[s] != 0 ->
    num.[s] / den.[s] = (Dmx G + Cmx G *m invmx (s%:M - Amx G) *m Bmx G) i j.

(* the value of num/den at x0 after cancellation of the common factors X - x0: finite, or infinite *)
Definition value_at (x0 : R) (num den : {poly R}) (v : fval R) : Prop :=
  exists k a b, [/\ num = ('X - x0%:P) ^+ k * a, den = ('X - x0%:P) ^+ k * b, (a.[x0] != 0) || (b.[x0] != 0) &
    v = if b.[x0] != 0 then Fin (a.[x0] / b.[x0]) else Inf R true].

(* s = 0 for continuous models, z = 1 for discrete ones *)
Definition lowfreq (G : state R) : R := if sdt G is Some _ then 1 else 0.

(* v is the low-frequency gain of channel (i, j): the value of the entry of the transfer matrix, however written *)
Definition dc_of (G : state R) (i : 'I_(spn G)) (j : 'I_(smn G)) (v : fval R) : Prop :=
  (exists num den, entry_of i j num den) /\
  forall num den, entry_of i j num den -> value_at (lowfreq G) num den v.

(* w is v, except that a finite value differing from d by more than big may be reported as inf *)
Definition up_to_big (big d : R) (v w : fval R) : Prop :=
  w = v \/ exists x, [/\ v = Fin x, big < `|x - d| & w = Inf R true].
End Spec.
