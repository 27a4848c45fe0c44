(* Model of random_state_model, /repo/harold/_classes.py lines 3363-3501.  Definitions only.

   Every number the random generator can return is an argument:
   - ty k, ps k, r1 k, r2 k are the values drawn in round k of the walk over the diagonal: the pole type, the sign,
     and the arguments of the two calls of exp(exp(rand())); psl, rl are those of the last fill;
   - ra, rb, rc, rd are the arrays returned by rand(...) and rT the one returned by ortho_group.rvs(n).
   Simplifications: n, p, m are nonnegative integers; ee stands for exp(exp(.)), expm for scipy.linalg.expm;
   prob_dist only influences which draws are likely and is left out; rand(1) is taken as a 1-by-1 array, which is
   what State makes of it. *)
From mathcomp Require Import all_ssreflect all_algebra.
From Verif Require Import Base ModelState ModelAux.

Set Implicit Arguments.
Unset Strict Implicit.
Unset Printing Implicit Defensive.

Import GRing.Theory Num.Theory.
Local Open Scope ring_scope.

Section Random.
Variable R : realFieldType.
Variables (ee : R -> R) (expm : arr R -> arr R).

Record draws := Draws {
  ty : nat -> nat; ps : nat -> R; r1 : nat -> R; r2 : nat -> R; psl : R; rl : R;
  ra : arr R; rb : arr R; rc : arr R; rd : arr R; rT : arr R }.

(* a[[d, d, d+1, d+1], [d, d+1, d, d+1]] = [w, x, y, z]; lines 3459-3460 *)
Definition aput4 (A : arr R) (d : nat) (w x y z : R) : arr R :=
  aset (aset (aset (aset A d d w) d d.+1 x) d.+1 d y) d.+1 d.+1 z.

(* pr = -exp(exp(rand())) if stable else ps*exp(exp(rand())); lines 3449, 3457, 3485 *)
Definition pole_re (stable : bool) (s x : R) : R := if stable then - ee x else s * ee x.

(* the loop, lines 3442-3480: fuel rounds are left, k is the number of the round; returns diag_i and a *)
Fixpoint walk (w : draws) (stable : bool) (n fuel k d : nat) (a : arr R) : nat * arr R :=
  if fuel is fuel'.+1 then
    let next d a := if d == n then (d, a) else walk w stable n fuel' k.+1 d a in      (* 3479 *)
    match ty w k with
    | 0 => next d.+1 (aset a d d (pole_re stable (ps w k) (r1 w k)))
    | 1 => if (n - 1 <= d)%N then (d, a)
           else let pr := pole_re stable (ps w k) (r1 w k) in
                let pi := ee (r2 w k) in
                next d.+2 (aput4 a d pr pi (- pi) pr)
    | 2 => next d.+1 (aset a d d 0)
    | 3 => if (n - 1 <= d)%N then (d, a)
           else let pi := ee (r2 w k) in next d.+2 (aput4 a d 0 pi (- pi) 0)
    | _ => next d a
    end
  else (d, a).

(* lines 3440-3486 *)
Definition random_a (w : draws) (stable : bool) (n : nat) : arr R :=
  let: (d, a) := walk w stable n n 0 0 (azeros n n) in
  if d == (n - 1)%N then aset a d d (pole_re stable (psl w) (rl w)) else a.

(* random_state_model(n, p, m, dt, stable=stable) *)
Definition random_state_model (w : draws) (n : nat) (dt : option R) (stable : bool) : res (state R) :=
  if n is 0 then mkGain (rd w) dt
  else if n == 1%N then mkS (aneg (ra w)) (rb w) (rc w) (rd w) dt
  else
    let a := random_a w stable n in
    let a := if dt is Some h then expm (ascale h a) else a in                         (* 3489 *)
    do x <- np_solve (rT w) a;
    do a <- np_matmul x (rT w);
    mkS a (rb w) (rc w) (rd w) dt.

End Random.
