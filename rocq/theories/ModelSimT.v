(* Model of /repo/harold/_time_domain.py for Transfer models: they are converted to State models first.
   Definitions only.  The simulation of State models is ModelSim.v, the conversion ModelTransfer.v. *)
From mathcomp Require Import all_ssreflect all_algebra.
From Verif Require Import Base ModelState ModelTransfer ModelSim.

Set Implicit Arguments.
Unset Strict Implicit.
Unset Printing Implicit Defensive.

Import GRing.Theory Num.Theory.
Local Open Scope ring_scope.

Section SimT.
Variable R : realFieldType.
Variables (sq tn : R -> R) (pi : R) (expm : arr R -> arr R) (bal : arr R -> arr R * seq R).
Variables (rtol atol : R).
Variable auto : state R -> bool -> nat * R.
Variable lcmf : seq (row R) -> res (row R * seq (row R)).
Variable eps : R.

(* simulate_linear_system(G, u, t, x0, per_channel), lines 59-154 *)
Definition simulate_t (G : tf R) (u : nd R) (t : option (nd R)) (x0 : option (nd R)) (per_channel : bool) :
    res (yout R * seq R) :=
  guard (if x0 is Some _ then false else true) else ValueError;                (* lines 62-68: gains and Transfer models *)
  do K <- transfer_to_state lcmf eps G;                                        (* lines 80-83 *)
  simulate sq tn pi expm bal rtol atol K u t None per_channel.

(* simulate_step_response, lines 187-203; simulate_impulse_response, lines 237-254 *)
Definition simulate_step_t (G : tf R) (t : option (nd R)) : res (yout R * seq R) :=
  do K <- transfer_to_state lcmf eps G;
  simulate_step sq tn pi expm bal rtol atol auto K t.
Definition simulate_impulse_t (G : tf R) (t : option (nd R)) : res (yout R * seq R) :=
  do K <- transfer_to_state lcmf eps G;
  simulate_impulse sq tn pi expm bal rtol atol auto K t.
End SimT.
