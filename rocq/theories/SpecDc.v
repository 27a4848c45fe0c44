(* Specification of the steady-state gain of a rational function num/den at the point x0 (0 for continuous, 1 for
   discrete models): cancel the common factors X - x0, then it is the quotient of the values, or an infinity
   (true: +inf, false: -inf) when only the denominator vanishes; 0 for the zero function. *)
From mathcomp Require Import all_ssreflect all_algebra.
From Verif Require Import Base ModelDc.

Set Implicit Arguments.
Unset Strict Implicit.
Unset Printing Implicit Defensive.

Import GRing.Theory Num.Theory.
Local Open Scope ring_scope.

Definition steady (R : realFieldType) (x0 : R) (num den : {poly R}) (v : fval R) : Prop :=
  if num == 0 then v = Fin 0
  else exists k a b, [/\ num = ('X - x0%:P) ^+ k * a, den = ('X - x0%:P) ^+ k * b, (a.[x0] != 0) || (b.[x0] != 0) &
    v = if b.[x0] != 0 then Fin (a.[x0] / b.[x0]) else Inf R (0 < a.[x0])].
