(* What the natural frequency and the damping ratio of a pole mean. *)
From mathcomp Require Import all_ssreflect all_algebra.

Set Implicit Arguments.
Unset Strict Implicit.
Unset Printing Implicit Defensive.

Import GRing.Theory Num.Theory.
Local Open Scope ring_scope.

Section Spec.
Variable R : realFieldType.
Definition cj (x : R * R) : R * R := (x.1, - x.2).

(* the modulus of one number *)
Definition abs_at (cabs : R * R -> R) (x : R * R) : Prop := 0 <= cabs x /\ cabs x ^+ 2 = x.1 ^+ 2 + x.2 ^+ 2.

(* the complex exponential and its principal logarithm; ex is the real exponential *)
Definition exp_like (pi : R) (cabs : R * R -> R) (ex : R -> R) (cexp clog : R * R -> R * R) : Prop :=
  [/\ cexp (0, 0) = (1, 0) /\ (forall s, cexp s != (0, 0)), (forall s, cexp (cj s) = cj (cexp s)) /\ (forall a, (cexp (a, pi)).2 = 0),
      forall s, -pi < s.2 -> s.2 <= pi -> clog (cexp s) = s,
      forall z, z != (0, 0) -> cexp (clog z) = z /\ -pi < (clog z).2 <= pi &
      (forall s, cabs (cexp s) = ex s.1) /\ (ex 0 = 1 /\ forall x y, (ex x < ex y) = (x < y))].

(* continuous models need no exponential *)
Definition period_ok (pi : R) cabs ex cexp clog (dt : option R) : Prop :=
  if dt is Some h then 0 < h /\ exp_like pi cabs ex cexp clog else True.

(* s is the location of the pole x in the s-plane: the pole itself, or the s in the strip of the Nyquist frequency for
   which sampling exp(s t) with period h gives powers of x *)
Definition located (pi : R) (cexp : R * R -> R * R) (dt : option R) (x s : R * R) : Prop :=
  if dt is Some h then cexp (h * s.1, h * s.2) = x /\ -pi < h * s.2 <= pi else x = s.
(* natural frequency w and damping ratio d of the mode exp(s t): s^2 + 2 d w s + w^2 = 0 has the roots s and its conjugate *)
Definition mode_of (s : R * R) (w d : R) : Prop :=
  [/\ 0 < w, w ^+ 2 = s.1 ^+ 2 + s.2 ^+ 2 & s.1 = - (d * w)].
Definition stable_pole (cabs : R * R -> R) (dt : option R) (x : R * R) : bool :=
  if dt is Some _ then cabs x < 1 else x.1 < 0.
End Spec.
