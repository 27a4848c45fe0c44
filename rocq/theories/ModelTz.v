(* Model of transmission_zeros and _tzeros_reduce, /repo/harold/_classes.py lines 3150-3264.  Definitions only.

   Simplifications: exact arithmetic; np.linalg.svd is the argument npsvd and np.spacing(1.) the argument spac
   (ModelAux.v); the tolerance m_eps of line 3226 is the argument meps, a function of A, B, C; scipy's qz is the
   argument qz, which returns the pairs of diagonal entries of its two triangular factors in the complex field L;
   np.real_if_close, which changes no value, and the warnings are left out. *)
From mathcomp Require Import all_ssreflect all_algebra.
From Verif Require Import Base ModelAux ModelFreq.

Set Implicit Arguments.
Unset Strict Implicit.
Unset Printing Implicit Defensive.

Import GRing.Theory Num.Theory.
Local Open Scope ring_scope.

Section Tz.
Variable R : realFieldType.
Variable L : fieldType.
Variable npsvd : arr R -> arr R * seq R * arr R.
Variable spac : R.
Variable meps : arr R -> arr R -> arr R -> R.
Variable qz : arr R -> arr R -> seq (L * L).

(* the arrays A, B, C, D *)
Definition quad := (arr R * arr R * arr R * arr R)%type.

(* one pass of the loop: break with the same arrays, break with empty arrays, or go on *)
Inductive tz_pass := TzStop | TzEmpty | TzNext of quad.

(* lines 3233-3241: Cbd, ss @ vv, sigma; None is the break of line 3238 *)
Definition tz_compress (tol : R) (C D : arr R) : res (option (arr R * arr R * nat)) :=
  if aany D then
    do (q, s, v, sigma) <- haroldsvd npsvd spac D (Some tol);
    if (nr D - sigma)%N == 0%N then Ok None
    else Ok (Some (amul (aT q) C, amul s v, sigma))
  else Ok (Some (C, D, 0%N)).

(* lines 3253-3263 *)
Definition tz_next (q A B Cbar rD : arr R) (sigma nu : nat) : quad :=
  let n := nr A in
  let m := nc B in
  if (0 < sigma)%N then
    let AC := amul (avcat (amul (aT q) A) Cbar) q in
    let BD := avcat (amul (aT q) B) (asubm rD 0 sigma 0 m) in
    (asubm AC 0 nu 0 nu, asubm BD 0 nu 0 m, asubm AC nu (n + sigma) 0 nu, asubm BD nu (n + sigma) 0 m)
  else
    let S := amul (aT q) (ahcat (amul A q) B) in
    (asubm S 0 nu 0 nu, asubm S 0 nu n (n + m), asubm S nu n 0 nu, asubm S nu n n (n + m)).

(* the body of the loop, lines 3230-3263 *)
Definition tz_step (tol : R) (A B C D : arr R) : res tz_pass :=
  let n := nr A in
  let p := nr D in
  do o <- tz_compress tol C D;
  if o is Some (Cbd, rD, sigma) then
    let Cbar := asubm Cbd 0 sigma 0 n in
    let Ctil := asubm Cbd sigma p 0 n in
    do (q, s, v, rho) <- haroldsvd npsvd spac (aT Ctil) (Some tol);
    if rho == 0%N then Ok TzStop
    else if (n - rho)%N == 0%N then Ok TzEmpty
    else Ok (TzNext (tz_next (afliplr q) A B Cbar rD sigma (n - rho)))
  else Ok TzStop.

Definition tz_empty : quad := (azeros 0 0, azeros 0 0, azeros 0 0, azeros 0 0).

Fixpoint tz_loop (fuel : nat) (tol : R) (S : quad) : res quad :=
  if fuel is c.+1 then
    let: (A, B, C, D) := S in
    do x <- tz_step tol A B C D;
    match x with
    | TzStop => Ok S
    | TzEmpty => Ok tz_empty
    | TzNext S' => tz_loop c tol S'
    end
  else Ok S.

(* _tzeros_reduce, lines 3222-3264 *)
Definition tz_reduce (A B C D : arr R) : res quad := tz_loop (nr A) (meps A B C) (A, B, C, D).

(* np.roll(np.roll(V, -m, axis=0), -m, axis=1), line 3208 *)
Definition aroll (V : arr R) (m : nat) : arr R :=
  mk (nr V) (nc V) (fun i j => get V ((i + m) %% nr V) ((j + m) %% nc V)).

(* lines 3205-3219; None is np.inf *)
Definition tz_final (A B C D : arr R) : seq (option L) :=
  let n := nr A in
  let: (_, _, v) := npsvd (ahcat D C) in
  let w := aroll (aT v) (nc D) in
  let T := amul (ahcat A B) w in
  [seq (if x.1 != 0 then Some (x.2 / x.1) else None) | x <- qz (asubm w 0 n 0 n) (asubm T 0 n 0 n)].

(* no reduction needed, line 3184 *)
Definition tz_direct (r p m : nat) : bool := [&& p == 1, m == 1 & 0 < r]%N || (r == minn p m) && (p == m).

(* lines 3187-3190 *)
Definition tz_first (r : nat) (A B C D : arr R) : res quad :=
  if r == nr D then Ok (A, B, C, D) else tz_reduce A B C D.

(* lines 3197-3201 *)
Definition tz_second (S : quad) : res quad :=
  let: (A, B, C, D) := S in
  if aany (ahcat C D) || (nr D != nc D) then
    do (a, c, b, d) <- tz_reduce (aT A) (aT C) (aT B) (aT D);
    Ok (aT a, aT b, aT c, aT d)
  else Ok S.

(* transmission_zeros(A, B, C, D), lines 3150-3219; the first line is matrix_rank(D) *)
Definition transmission_zeros (A B C D : arr R) : res (seq (option L)) :=
  do (_, _, _, r) <- haroldsvd npsvd spac D None;
  if ~~ aany B || ~~ aany C then Ok [::]
  else if tz_direct r (nr D) (nc D) then Ok (tz_final A B C D)
  else
    do X <- tz_first r A B C D;
    if asize X.1.1.1 == 0%N then Ok [::]
    else
      do (A, B, C, D) <- tz_second X;
      if asize A == 0%N then Ok [::] else Ok (tz_final A B C D).
End Tz.
