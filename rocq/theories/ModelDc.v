(* Model of Transfer.dcgain, /repo/harold/_classes.py lines 145-201.  Definitions only.

   Simplifications:
   - exact arithmetic; tol stands for 10*np.spacing(1.);
   - a result is a number or an infinity with its sign (numpy's x/0.); 0/0 is Err ZeroDivisionError;
   - for a one-by-one model the code returns the single entry instead of the array. *)
From mathcomp Require Import all_ssreflect all_algebra.
From Verif Require Import Base ModelPoly ModelState ModelTransfer.

Set Implicit Arguments.
Unset Strict Implicit.
Unset Printing Implicit Defensive.

Import GRing.Theory Num.Theory.
Local Open Scope ring_scope.

Section Dc.
Variable R : realFieldType.

(* a floating point value: finite, +inf (true) or -inf (false) *)
Inductive fval := Fin of R | Inf of bool.

(* a / b in numpy *)
Definition fdiv (a b : R) : res fval :=
  if b != 0 then Ok (Fin (a / b))
  else if a == 0 then Err ZeroDivisionError
  else Ok (Inf (0 < a)).

(* lines 168-178: strip common roots at 0; cnt is len(num).  num[-1], den[-1] on an empty array are IndexError.
   The for-else of the code is the case cnt = 0. *)
Fixpoint dc_strip (cnt : nat) (num den : seq R) : res fval :=
  if cnt is c.+1 then
    if num is [::] then Err IndexError
    else if last 0 num == 0 then
      if den is [::] then Err IndexError
      else if last 0 den == 0 then dc_strip c (take (size num).-1 num) (take (size den).-1 den)
      else fdiv (polyval num 0) (polyval den 0)
    else fdiv (polyval num 0) (polyval den 0)
  else Ok (Fin 0).

(* scipy.signal.deconvolve(x, [1, -1])[0]: the running sums of x but the last *)
Definition cumsum (x : seq R) : seq R := scanl +%R 0 x.
Definition deconv1 (x : seq R) : seq R := if (size x < 2)%N then [::] else take (size x).-1 (cumsum x).

Definition asum (x : seq R) : R := foldr +%R 0 x.

(* lines 190-199 *)
Fixpoint dc_strip1 (tol : R) (cnt : nat) (num den : seq R) : res fval :=
  if cnt is c.+1 then
    if (`|asum num| < tol) && (`|asum den| < tol) then dc_strip1 tol c (deconv1 num) (deconv1 den)
    else fdiv (asum num) (asum den)
  else Ok (Fin 0).

Definition dc_entry (tol : R) (dt : option R) (num den : seq R) : res fval :=
  if dt is Some _ then dc_strip1 tol (size num) num den else dc_strip (size num) num den.

(* G.dcgain, as rows of entries *)
Definition tf_dcgain (tol : R) (G : tf R) : res (seq (seq fval)) :=
  if tgain G then do A <- tf_array G; Ok (mkseq (fun i => mkseq (fun j => Fin (get A i j)) (tm G)) (tp G))
  else gridR (tp G) (tm G) (fun i j => dc_entry tol (tdt G) (ent (tn G) i j) (ent (td G) i j)).

End Dc.
