(* Model of pole_properties of State models and Transfers: /repo/harold/_classes.py lines 1038-1054, 2542-2544 and
   _pole_properties, lines 2739-2763.  Definitions only.

   Simplifications:
   - exact arithmetic; complex numbers are pairs of reals, np.abs and np.log of them the arguments cabs and clog; the log
     of 0 is -inf (IEEE), so that its modulus is inf and the ratio of the two nan;
   - the poles, the attribute computed by scipy's eigvals and hence complex, are an argument. *)
From mathcomp Require Import all_ssreflect all_algebra.

Set Implicit Arguments.
Unset Strict Implicit.
Unset Printing Implicit Defensive.

Import GRing.Theory Num.Theory.
Local Open Scope ring_scope.

Section PoleProps.
Variable R : realFieldType.
Variables (cabs : R * R -> R) (clog : R * R -> R * R).

(* a float *)
Inductive flt := Num of R | Inf | NaN.

(* one row of the result: lines 2749-2762 *)
Definition pole_row (dt : option R) (x : R * R) : (R * R) * flt * flt :=
  let z_p := if dt is Some _ then x == (1, 0) else x == (0, 0) in               (* 2749-2752 *)
  if z_p then (x, Num 0, NaN)                                                   (* 2755-2756 *)
  else
    if dt is Some h then                                                        (* 2758-2762 *)
      if x == (0, 0) then (x, Inf, NaN)
      else let p := ((clog x).1 / h, (clog x).2 / h) in (x, Num (cabs p), Num (- p.1 / cabs p))
    else (x, Num (cabs x), Num (- x.1 / cabs x)).

(* pole_properties() of a model with these poles *)
Definition pole_properties (poles : seq (R * R)) (dt : option R) : option (seq ((R * R) * flt * flt)) :=
  if size poles == 0%N then None else Some [seq pole_row dt x | x <- poles].    (* 2741-2744, 2763 *)
End PoleProps.
Arguments Num {R}.
Arguments Inf {R}.
Arguments NaN {R}.
