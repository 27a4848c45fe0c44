(* What the automatic frequency grid depends on, and what it is for. *)
From mathcomp Require Import all_ssreflect all_algebra.
From Verif Require Import Base ModelState SpecHorizon.

Set Implicit Arguments.
Unset Strict Implicit.
Unset Printing Implicit Defensive.

Import GRing.Theory Num.Theory.
Local Open Scope ring_scope.

Section SpecGrid.
Variable R : realFieldType.
(* 10**x and its inverse *)
Definition pow10_like (exp10 log10 : R -> R) : Prop :=
  [/\ forall x, 0 < exp10 x, forall x y, (exp10 x <= exp10 y) = (x <= y),
      forall x, 0 < x -> exp10 (log10 x) = x, exp10 0 = 1 & forall x, exp10 (x + 1) = 10%:R * exp10 x].
(* np.geomspace: the first of n points between numbers of the same sign is the start *)
Definition geom_like (geom : R -> R -> nat -> bool -> seq R) : Prop :=
  forall a b n e, 0 < a * b -> (0 < n)%N -> a \in geom a b n e.
(* np.unique *)
Definition uniq_like (uniq : seq (R * R) -> seq (R * R)) : Prop := forall s, uniq s =i s.

(* the location of a pole or zero x in the s-plane: itself, or log(x) / dt; numbers below tiny count as 0 and are
   placed at the Nyquist frequency *)
Definition splane (pi tiny : R) (cabs : R * R -> R) (clog : R * R -> R * R) (dt : option R) (x : R * R) : R * R :=
  if dt is Some h then
    if tiny < cabs x then ((clog x).1 / h, (clog x).2 / h) else (pi / h, 0)
  else x.
(* poles and zeros at the origin (continuous) or at 1 (discrete) are not located *)
Definition integrator (dt : option R) (x : R * R) : bool := x == (if dt is Some _ then 1 else 0, 0).
(* the frequency of a mode, its damping ratio, and the frequency of its peak *)
Definition ratio (cabs : R * R -> R) (m : R * R) : R := `|m.1| / cabs m.
Definition peak (rt : R -> R) (cabs : R * R -> R) (m : R * R) : R :=
  if ratio cabs m < 2%:R^-1 then cabs m * rt (1 - 2%:R * ratio cabs m ^+ 2) else cabs m.

(* Euler's formula: the points of the upper half of the unit circle and their logarithms *)
Definition polar_like (L : fieldType) (f : {rmorphism R -> L}) (ii : L) (expL : L -> L) (pi : R)
    (cabs : R * R -> R) (clog : R * R -> R * R) : Prop :=
  forall t, 0 < t < pi ->
    exists x, [/\ expL (ii * f t) = f x.1 + ii * f x.2, cabs x = 1, 0 < x.2 & clog x = (0, t)].
End SpecGrid.
