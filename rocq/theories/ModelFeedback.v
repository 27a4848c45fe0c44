(* Model of /repo/harold/_bd_algebra.py: feedback for State models, arrays and numbers.
   Definitions only.  Transfer operands, which are first converted by transfer_to_state
   (lines 163-192), are added in ModelFeedbackT.v. *)
From mathcomp Require Import all_ssreflect all_algebra.
From Coq Require Import String.
From Verif Require Import Base ModelState ModelAux.

Set Implicit Arguments.
Unset Strict Implicit.
Unset Printing Implicit Defensive.

Import GRing.Theory Num.Theory.
Local Open Scope ring_scope.

Section Feedback.
Variable R : realFieldType.

(* An operand: a model, or what _check_for_int_float_array (_arg_utils.py 49-83) makes of a
   number or an ndarray, a 2-D array *)
Inductive fbop := FState of state R | FArr of arr R.

(* _check_for_feedback_ic, lines 130-198, with _check_equal_dts (_arg_utils.py 86-92) *)
Definition check_feedback_ic (G H : fbop) : res (state R * state R) :=
  do (g, h) <-
    (match G, H with
     | FArr A, FArr B => do g <- mkGain A None; do h <- mkGain B None; Ok (g, h)
     | FState g, FState h => guard sdt g == sdt h else ValueError; Ok (g, h)
     | FState g, FArr B => do h <- mkGain B (sdt g); Ok (g, h)
     | FArr A, FState h => do g <- mkGain A (sdt h); Ok (g, h)
     end);
  guard (spn g == smn h) && (smn g == spn h) else ValueError;
  Ok (g, h).

(* Mcl = acl + sign * bcl @ solve(delta, ncl) followed by State of the four parts of matrix_slice(Mcl, (s, s)),
   lines 99-101, 114 and 121-123 *)
Definition close_loop (acl bcl ncl delta : arr R) (sign : R) (s : nat) (dt : option R) : res (state R) :=
  do x <- np_solve delta ncl;
  do y <- np_matmul (ascale sign bcl) x;
  do Mcl <- np_add acl y;
  do (a, b, c, d) <- matrix_slice Mcl s s "nw";
  mkS a b c d dt.

(* feedback, lines 50-127, after the operands have become State models.  ill M is the outcome of the test
   min(svdvals(M)) <= m1 * spacing(10.) of lines 83-84.  The 3x3 np.block of lines 95-97 is
   grouped as a 2x2 block of blocks. *)
Definition fb_core (ill : arr R -> bool) (g h : state R) (negative : bool) : res (state R) :=
  let dt := sdt g in
  let sign : R := if negative then -1 else 1 in
  let p1 := spn g in let m1 := smn g in
  let n1 := snn g in let n2 := snn h in
  let a := sa g in let b := sb g in let c := sc g in let d := sd g in
  let k := sa h in let l := sb h in let m := sc h in let n := sd h in
  do nd <- np_matmul n d;
  do delta <- np_sub (aeye m1) nd;
  guard ~~ ill delta else ValueError;
  if sgain g && sgain h then
    if aany d && aany n then
      do x <- np_solve delta nd;
      do y <- np_matmul d x;
      do mat <- np_add d (ascale sign y);
      mkGain mat dt
    else Err UnboundLocalError            (* mat is not assigned *)
  else if ~~ sgain g && ~~ sgain h then
    do lc <- np_matmul l c; do ld <- np_matmul l d; do nc' <- np_matmul n c;
    let acl := ablock (ablock a (azeros n1 n2) lc k) (avcat b ld) (ahcat c (azeros p1 n2)) d in
    let bcl := avcat (avcat b ld) d in
    let ncl := ahcat (ahcat nc' m) nd in
    close_loop acl bcl ncl delta sign (n1 + n2) dt
  else if sgain g then
    do ld <- np_matmul l d;
    close_loop (ablock k ld (azeros p1 n2) d) (avcat ld d) (ahcat m nd) delta sign n2 dt
  else
    do nc' <- np_matmul n c;
    close_loop (ablock a b c d) (avcat b d) (ahcat nc' nd) delta sign n1 dt.

(* feedback, line 49 and above *)
Definition feedback (ill : arr R -> bool) (G H : fbop) (negative : bool) : res (state R) :=
  do (g, h) <- check_feedback_ic G H;
  fb_core ill g h negative.

End Feedback.
Arguments FState {R}.
Arguments FArr {R}.
