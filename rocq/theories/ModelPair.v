(* Model of pair_complex_numbers, /repo/harold/_aux_linalg.py lines 148-301.  Definitions only.

   A complex number is the pair of its real and imaginary parts.
   Simplifications:
   - exact arithmetic;
   - realness_tol is at most 1 (np.real_if_close rescales larger values);
   - the argument is a one-dimensional array of numbers;
   - the generator repeat_sign_test and the loop over it are one recursion on the part of the array that is not
     yet treated: the generator only looks at entries behind those the loop body has rearranged. *)
From mathcomp Require Import all_ssreflect all_algebra.
From Verif Require Import Base.

Set Implicit Arguments.
Unset Strict Implicit.
Unset Printing Implicit Defensive.

Import GRing.Theory Num.Theory.
Local Open Scope ring_scope.

Section Pair.
Variable R : realFieldType.
Definition cpx := (R * R)%type.

(* numpy's order of complex numbers *)
Definition cle (x y : cpx) : bool := (x.1 < y.1) || ((x.1 == y.1) && (x.2 <= y.2)).

(* x[::2] and x[1::2] *)
Fixpoint evens (T : Type) (s : seq T) : seq T :=
  match s with [::] => [::] | [:: x] => [:: x] | x :: _ :: s' => x :: evens s' end.
Definition odds (T : Type) (s : seq T) : seq T := evens (behead s).

(* lines 255-276 with the rearrangement of lines 278-283.  l is the distance to the first positive entry at or
   behind position 2; running off the end of the array is an IndexError. *)
Definition first_pos (js : seq R) : nat := 2 + find (fun y => 0 < y) (drop 2 js).
Definition interleave (js : seq R) (l : nat) : seq R :=
  flatten (mkseq (fun i => [:: nth 0 js i; nth 0 js (2 * l - 1 - i)]) l).
Fixpoint fix_signs (fuel : nat) (js : seq R) : res (seq R) :=
  if fuel is k.+1 then
    match js with
    | [::] => Ok [::]
    | a :: b :: t =>
        if (a < 0) && (0 < b) then do t' <- fix_signs k t; Ok (a :: b :: t')
        else if (0 < a) && (b < 0) then do t' <- fix_signs k t; Ok (- a :: - b :: t')
        else
          let l := first_pos js in
          if (size js <= l)%N || (size js < 2 * l)%N then Err IndexError
          else do t' <- fix_signs k (drop (2 * l) js); Ok (interleave js l ++ t')
    | [:: _] => Err IndexError
    end
  else Err RecursionError.

(* any(abs(x[:-1:2] op x[1::2]) > tol) *)
Definition far (tol : R) (op : R -> R -> R) (x : seq R) : bool :=
  has (fun y => tol < `|op y.1 y.2|) (zip (evens x) (odds x)).

(* pair_complex_numbers(a, tol, realness_tol = rtol, positives_first = pf, reals_first = rf) *)
Definition pair_complex (tol rtol : R) (pf rf : bool) (a : seq cpx) : res (seq cpx) :=
  let a := [seq (if `|x.2| < rtol then (x.1, 0) else x) | x <- a] in               (* 215-220 *)
  let imagness (x : cpx) := rtol <= `|x.2| in
  let ent := [seq x <- a | imagness x] in
  let reals := sort cle [seq x <- a | ~~ imagness x] in
  if ent is [::] then Ok [seq (x, 0) | x <- sort <=%R [seq x.1 | x <- a]]          (* 232 *)
  else if odd (size ent) then Err ValueError
  else
    let s := sort cle ent in
    let r := [seq x.1 | x <- s] in
    let j := [seq x.2 | x <- s] in
    if far tol (fun x y => x - y) r then Err ValueError                              (* 249 *)
    else
      do j <- fix_signs (size j).+1 j;
      if far tol +%R j then Err ValueError                                           (* 285 *)
      else
        let one (x : cpx) := if pf then [:: (x.1, - x.2); (x.1, x.2)] else [:: (x.1, x.2); (x.1, - x.2)] in
        let paired := flatten [seq one x | x <- zip (evens r) (evens j)] in          (* 294-301 *)
        Ok (if rf then reals ++ paired else paired ++ reals).
End Pair.
