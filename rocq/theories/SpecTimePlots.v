(* What the time domain plots show. *)
From mathcomp Require Import all_ssreflect all_algebra.
From Verif Require Import Base Spec ModelState Denote ModelTransfer DenoteT ModelSim SpecSim SpecFeedbackT SpecDiff ModelPlots ModelTimePlots.

Set Implicit Arguments.
Unset Strict Implicit.
Unset Printing Implicit Defensive.

Import GRing.Theory Num.Theory.
Local Open Scope ring_scope.

Section Spec.
Variable R : realFieldType.
(* the curves of the system number ind: one for every output and input, row by row; sty is the style entry, ts the time
   array, ys row col the ordinates; stairs for discrete systems *)
Definition curves_of (ind : nat) (sty : option nat) (G : psys R) (ts : seq R) (ys : nat -> nat -> seq R) : seq (tcurve R) :=
  [seq TC ind sty (if pdt G is Some _ then true else false) row col ts (ys row col)
  | row <- iota 0 (prows G), col <- iota 0 (pcols G)].

(* x is the smallest of the last elements of the first n lists *)
Definition shortest (tss : nat -> seq R) (n : nat) (x : R) : Prop :=
  (forall k, (k < n)%N -> x <= last 0 (tss k)) /\ exists2 k, (k < n)%N & x = last 0 (tss k).

(* the step and the impulse response of entry (row, col) of a discrete system with period dt: the sums of the Markov
   parameters and the Markov parameters over dt, or the solution of the difference equation *)
Definition step_value (G : psys R) (row col : nat) (y : seq R) : Prop :=
  match G with
  | PS G => exists (i : 'I_(spn G)) (j : 'I_(smn G)), [/\ row = i, col = j & forall k, (k < size y)%N ->
      nth 0 y k = \sum_(l < k.+1) markov (Amx G) (Bmx G) (Cmx G) (Dmx G) l i j]
  | PT G => solves (ent (tn G) row col) (ent (td G) row col) (fun _ => 1) (nth 0 y) (size y)
  end.
Definition impulse_value (dt : R) (G : psys R) (row col : nat) (y : seq R) : Prop :=
  match G with
  | PS G => exists (i : 'I_(spn G)) (j : 'I_(smn G)), [/\ row = i, col = j & forall k, (k < size y)%N ->
      nth 0 y k = dt^-1 * markov (Amx G) (Bmx G) (Cmx G) (Dmx G) k i j]
  | PT G => solves (ent (tn G) row col) (ent (td G) row col) (fun k => if k == 0%N then 1 / dt else 0) (nth 0 y) (size y)
  end.

(* a discrete system with period dt that can be simulated *)
Definition ready (eps dt : R) (G : psys R) : Prop :=
  pdt G = Some dt /\ match G with PS G => wfS G /\ (0 < smn G)%N | PT G => convertible eps G end.
(* the time argument t gives the times ts, N of them, for the system *)
Definition pgrid lcmf (eps : R) (auto : state R -> bool -> nat * R) (G : psys R) (step : bool) (dt : R) (N : nat)
    (t : option (nd R)) (ts : seq R) : Prop :=
  exists K, match G with PS G => K = G | PT G => transfer_to_state lcmf eps G = Ok K end /\ grid_ok auto K step dt N t ts.
End Spec.
