(* What the time grid of the step and impulse responses depends on. *)
From mathcomp Require Import all_ssreflect all_algebra.
From Verif Require Import Base ModelState ModelHorizon.

Set Implicit Arguments.
Unset Strict Implicit.
Unset Printing Implicit Defensive.

Import GRing.Theory Num.Theory.
Local Open Scope ring_scope.

Section SpecHorizon.
Variable R : realFieldType.
(* the greatest integer below *)
Definition floor_like (flr : R -> int) : Prop := forall x, (flr x)%:~R <= x < (flr x)%:~R + 1.
(* the absolute value of a complex number *)
Definition abs_like (cabs : R * R -> R) : Prop :=
  [/\ forall x, `|x.1| <= cabs x, forall x, `|x.2| <= cabs x, cabs (0, 0) = 0 & forall x, cabs (x, 0) = `|x|].
(* log |x| + i arg x: the real part is zero on the unit circle, the imaginary part on the positive real axis *)
Definition clog_like (cabs : R * R -> R) (clog : R * R -> R * R) : Prop :=
  forall x, x != (0, 0) -> ((clog x).1 == 0) = (cabs x == 1) /\ ((clog x).2 == 0) = (0 < x.1) && (x.2 == 0).

(* the size of the response of a mode to an impulse or a step: 0 for an integrator; the conjugate is counted too *)
Definition mode_size (cabs : R * R -> R) (step : bool) (m : mode R) : R :=
  if cabs (mpole m) == 0 then 0
  else mv m * mw m * msens m / (if step then cabs (mpole m) else 1) * (if (mpole m).2 == 0 then 1 else 2%:R).
(* well-conditioned modes have a size; the other ones always matter *)
Definition well (se : R) (m : mode R) : Prop := `|msens m| <= se^-1.
Definition matters (cabs : R * R -> R) (se : R) (step : bool) (ms : seq (mode R)) (m : mode R) : Prop :=
  ~ well se m \/ (forall m', List.In m' ms -> well se m' -> mode_size cabs step m' < 10%:R * mode_size cabs step m) /\ 0 < mode_size cabs step m.
(* it oscillates with negligible damping *)
Definition undamped (se : R) (x : R * R) : bool := (x.2 != 0) && (`|x.1| <= se).
End SpecHorizon.
