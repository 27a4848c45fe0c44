(* Model of staircase and minimal_realization of State models, /repo/harold/_system_funcs.py lines 18-126, 220-424.
   Definitions only.

   Simplifications: exact arithmetic; arrays are 2-D; np.linalg.svd is the argument npsvd and np.spacing(1.) the
   argument spac (ModelAux.v); scipy's matrix_balance is the argument balance; the number computed by
   cancellation_distance, which depends on random numbers, is the argument cdist. *)
From mathcomp Require Import all_ssreflect all_algebra.
From Coq Require Import String.
From Verif Require Import Base ModelState ModelAux ModelFreq ModelLyap.

Set Implicit Arguments.
Unset Strict Implicit.
Unset Printing Implicit Defensive.

Import GRing.Theory Num.Theory.
Local Open Scope ring_scope.

Section Stair.
Variable R : realFieldType.
Variable npsvd : arr R -> arr R * seq R * arr R.
Variable spac : R.

(* sb[m:, m:] = 0., lines 84, 111 *)
Definition trunc (s : arr R) (m : nat) : arr R :=
  mk (nr s) (nc s) (fun i j => if (m <= i)%N && (m <= j)%N then 0 else get s i j).

(* norm(A, 1), the largest absolute column sum, line 101 *)
Definition norm1 (A : arr R) : R := smax [seq sumN (nr A) (fun i => `|get A i j|) | j <- iota 0 (nc A)].

(* A0, C0, T and the variables next_, size_ at line 105 *)
Record sst := SSt { stA : arr R; stC : arr R; stT : arr R; stn : nat; sts : nat }.

(* h3 of matrix_slice(A0[next_:, next_:], (size_, size_)), line 105 *)
Definition sub_block (st : sst) : arr R :=
  asubm (stA st) (stn st + sts st) (nr (stA st)) (stn st) (stn st + sts st).

(* the body of the loop, lines 104-122, and the first line of the next round; None is break.  h4 is a view of A0, so
   the product of line 119 sees the columns changed by line 117. *)
Definition st_step (tol : R) (st : sst) : res (option sst) :=
  let: SSt A C T nxt sz := st in
  let n := nr A in
  let k := (nxt + sz)%N in
  let h3 := sub_block st in
  if ~~ aany h3 then Ok None                                                       (* 108 *)
  else
    do (u, s, v, m) <- haroldsvd npsvd spac h3 (Some tol);
    if (0 < m < nr h3)%N then
      let T := aput T k 0 (amul (aT u) (asubm T k n 0 n)) in                       (* 115 *)
      let A := aput A 0 k (amul (asubm A 0 n k n) u) in                            (* 116 *)
      let A := aput A k nxt (amul (trunc s m) v) in                                (* 117 *)
      let A := aput A k k (amul (aT u) (asubm A k n k n)) in                       (* 118 *)
      let C := aput C 0 k (amul (asubm C 0 (nr C) k n) u) in                       (* 120 *)
      Ok (Some (SSt A C T k m))
    else Ok None.

Fixpoint st_loop (fuel : nat) (tol : R) (st : sst) : res sst :=
  if fuel is c.+1 then
    do o <- st_step tol st;
    if o is Some st' then st_loop c tol st' else Ok st
  else Ok st.

(* lines 82-90: A0, B0, C0, T and the rank of B *)
Definition st_start (A B C : arr R) : res (sst * arr R) :=
  do (u, s, v, m) <- haroldsvd npsvd spac B None;
  Ok (SSt (amul (amul (aT u) A) u) (amul C u) (aT u) 0 m, amul (trunc s m) v).

(* lines 92-126 without the flips and the transposes of form 'o' *)
Definition st_core (A B C : arr R) : res (arr R * arr R * arr R * arr R * bool) :=
  do (st, B0) <- st_start A B C;
  if nr A == sts st then Ok (stA st, B0, stC st, stT st, true)
  else
    do st <- st_loop (nr A) ((nr A)%:R * norm1 A * spac) st;
    Ok (stA st, B0, stC st, stT st, false).

(* staircase(A, B, C, form, invert); State.validate_arguments is the test of the shapes *)
Definition staircase (A B C : arr R) (form : string) (invert : bool) : res (arr R * arr R * arr R * arr R) :=
  guard String.eqb form "c" || String.eqb form "o" else ValueError;
  guard [&& nr A == nc A, nr B == nr A & nc C == nr A] else ValueError;
  let formo := String.eqb form "o" in
  let: (a, b, c) := if formo then (aT A, aT C, aT B) else (A, B, C) in
  if ~~ aany b then Ok (A, B, C, aeye (nr A))                                        (* 75-79 *)
  else
    do (A0, B0, C0, T, full) <- st_core a b c;
    let: (A0, B0, C0, T) :=
      if invert then (afliplr (aflipud A0), aflipud B0, afliplr C0, aflipud T) else (A0, B0, C0, T) in
    if ~~ formo then Ok (A0, B0, C0, aT T)
    else if full then Ok (aT A0, aT B0, aT C0, aT T)                                 (* 98 *)
    else Ok (aT A0, aT C0, aT B0, aT T).                                             (* 126 *)

Variable cdist : arr R -> arr R -> R.
(* the checks of cancellation_distance, lines 266-269; svdvals of an array without columns is empty and [-1] fails,
   line 289 *)
Definition cancellation_distance (F G : arr R) : res R :=
  guard nr F == nc F else ValueError;
  guard nr F == nr G else ValueError;
  guard nr F != 0%N else IndexError;
  Ok (cdist F G).

(* lines 391-398; k is the number of states *)
Fixpoint trim_c (tol : R) (k : nat) (A B C : arr R) : res (arr R * arr R * arr R) :=
  if k is k'.+1 then
    let: (A, B, C) := (asubm A 0 k' 0 k', asubm B 0 k' 0 (nc B), asubm C 0 (nr C) 0 k') in
    if k' == 0%N then Ok (A, B, C)
    else
      do kc <- cancellation_distance A B;
      if kc <= tol then trim_c tol k' A B C else Ok (A, B, C)
  else Ok (A, B, C).

(* lines 410-416 *)
Fixpoint trim_o (tol : R) (k : nat) (A B C : arr R) : res (arr R * arr R * arr R) :=
  if k is k'.+1 then
    let: (A, B, C) := (asubm A 1 k 1 k, asubm B 1 k 0 (nc B), asubm C 0 (nr C) 1 k) in
    if k' == 0%N then Ok (A, B, C)
    else
      do ko <- cancellation_distance A B;
      if ko <= tol then trim_o tol k' A B C else Ok (A, B, C)
  else Ok (A, B, C).

Variable balance : arr R -> arr R * arr R.

(* _minimal_realization_state, lines 355-424 *)
Definition min_state (tol : R) (A B C : arr R) : res (arr R * arr R * arr R) :=
  if asize A == 0%N then Ok (A, B, C)
  else
    let: (A, T) := balance A in
    do B <- np_solve T B;
    let C := amul C T in
    do (Ac, Bc, Cc, _) <- staircase A B C "c" false;
    do (Ao, Bo, Co, _) <- staircase A B C "o" true;
    do kc <- cancellation_distance Ac Bc;
    do ko <- cancellation_distance (aT Ao) (aT Co);
    if tol < Num.min kc ko then Ok (A, B, C)
    else
      do (ABC, ko) <-
        (if kc <= tol then
           do (A, B, C) <- trim_c tol (nr Ac) Ac Bc Cc;
           do ko <- cancellation_distance (aT A) (aT C);
           Ok (A, B, C, ko)
         else Ok (A, B, C, ko));
      let: (A, B, C) := ABC in
      if ko <= tol then
        do (Ao, Bo, Co, _) <- staircase A B C "o" true;
        trim_o tol (nr Ao) Ao Bo Co
      else Ok (A, B, C).

(* minimal_realization(G, tol) for a State model, lines 333-344 *)
Definition minimal_realization (tol : R) (G : state R) : res (state R) :=
  if sgain G then mkGain (sd G) None
  else
    do (A, B, C) <- min_state tol (sa G) (sb G) (sc G);
    if (0 < asize A)%N then mkS A B C (sd G) (sdt G) else mkGain (sd G) (sdt G).
End Stair.
