(* Model of /repo/harold/_bd_algebra.py: feedback for State, Transfer and array operands: Transfer operands are converted
   to State models, the loop is closed (ModelFeedback.v), and the result is converted back when every model among the
   operands is a Transfer.  Definitions only. *)
From mathcomp Require Import all_ssreflect all_algebra.
From Verif Require Import Base ModelState ModelTransfer ModelConvert ModelFeedback.

Set Implicit Arguments.
Unset Strict Implicit.
Unset Printing Implicit Defensive.

Import GRing.Theory Num.Theory.
Local Open Scope ring_scope.

Section Feedback.
Variable R : realFieldType.

(* an operand, and a result *)
Inductive fbx := XS of state R | XT of tf R | XA of arr R.
Inductive fbres := RS of state R | RT of tf R.

Variables (L : fieldType) (f : {rmorphism R -> L}) (re : L -> R) (absL : L -> R).
Variables (eig : arr R -> seq L) (tz : arr R -> arr R -> arr R -> seq L) (lsq : arr R -> arr R -> arr R).
Variable lcmf : seq (row R) -> res (row R * seq (row R)).
Variable eps : R.
Let tts := transfer_to_state lcmf eps.
Let stt := state_to_transfer f re absL eig tz lsq lcmf eps.

(* _check_for_feedback_ic, lines 152-199: the two State models and the flag tf_convert *)
Definition check_ic_any (G H : fbx) : res (state R * state R * bool) :=
  do (g, h, t) <-
    (match G, H with
     | XA A, XA B => do g <- mkGain A None; do h <- mkGain B None; Ok (g, h, false)              (* 157-158 *)
     | XS g, XS h => guard sdt g == sdt h else ValueError; Ok (g, h, false)                       (* 178 *)
     | XT G, XT H => guard tdt G == tdt H else ValueError; do g <- tts G; do h <- tts H; Ok (g, h, true)
     | XT G, XS h => guard tdt G == sdt h else ValueError; do g <- tts G; Ok (g, h, false)        (* 172 *)
     | XS g, XT H => guard sdt g == tdt H else ValueError; do h <- tts H; Ok (g, h, false)        (* 174 *)
     | XS g, XA B => do h <- mkGain B (sdt g); Ok (g, h, false)                                   (* 184-187 *)
     | XT G, XA B => do h <- mkGain B (tdt G); do g <- tts G; Ok (g, h, true)
     | XA A, XS h => do g <- mkGain A (sdt h); Ok (g, h, false)                                   (* 189-192 *)
     | XA A, XT H => do g <- mkGain A (tdt H); do h <- tts H; Ok (g, h, true)
     end);
  guard (spn g == smn h) && (smn g == spn h) else ValueError;                                     (* 194-198 *)
  Ok (g, h, t).

(* the closed loop as a State model *)
Definition fb_state (ill : arr R -> bool) (G H : fbx) (negative : bool) : res (state R) :=
  do (g, h, t) <- check_ic_any G H;
  fb_core ill g h negative.

(* feedback.  Line 92 makes Transfer(mat, dt) out of the static loop, which is what state_to_transfer does to the static
   gain State(mat, dt) *)
Definition feedback_any (ill : arr R -> bool) (G H : fbx) (negative : bool) : res fbres :=
  do (g, h, t) <- check_ic_any G H;
  do K <- fb_core ill g h negative;
  if t then do T <- stt K; Ok (RT T) else Ok (RS K).

End Feedback.
Arguments XS {R}.
Arguments XT {R}.
Arguments XA {R}.
