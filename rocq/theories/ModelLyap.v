(* Model of /repo/harold/_solvers.py.  Definitions only.

   Simplifications:
   - exact arithmetic; scipy.linalg.schur(., output='real') and scipy.linalg.qz are arguments;
   - the memory np.empty_like(Y) returns is the argument X0: its contents are arbitrary;
   - cast is what storing a number into that array does to it.  It is the identity for an array of floats; for an
     array of integers (empty_like keeps the type of Y) it cuts off the fractional part;
   - numpy.linalg._umath_linalg.solve and the divisions yield nan or inf for a singular system; here they fail with
     LinAlgError / ZeroDivisionError;
   - the stop None of the last block is the number n;
   - the products that are added to or stored in a slice have the shape of the slice. *)
From mathcomp Require Import all_ssreflect all_algebra.
From Coq Require Import String.
From Verif Require Import Base.

Set Implicit Arguments.
Unset Strict Implicit.
Unset Printing Implicit Defensive.

Import GRing.Theory Num.Theory.
Local Open Scope ring_scope.

Section Lyap.
Variable R : realFieldType.
Implicit Types (A E Y X B : arr R).

(* A[r0:, c0:] = B and A[r0:, c0:] += B on the slice of the size of B *)
Definition inblk (r0 c0 : nat) (B : arr R) (i j : nat) : bool :=
  [&& r0 <= i, i < r0 + nr B, c0 <= j & j < c0 + nc B]%N.
Definition aput (A : arr R) (r0 c0 : nat) (B : arr R) : arr R :=
  mk (nr A) (nc A) (fun i j => if inblk r0 c0 B i j then get B (i - r0) (j - c0) else get A i j).
Definition aincr (A : arr R) (r0 c0 : nat) (B : arr R) : arr R :=
  mk (nr A) (nc A) (fun i j => if inblk r0 c0 B i j then get A i j + get B (i - r0) (j - c0) else get A i j).

Definition get4 A := (get A 0 0, get A 0 1, get A 1 0, get A 1 1).

(* x / y *)
Definition sdiv (x y : R) : res (arr R) := if y == 0 then Err ZeroDivisionError else Ok (of_rows [:: [:: x / y]]).

(* solve(mat33, -Yt.reshape(-1, 1)[[0, 1, 3], :]) and np.array([[a, b], [b, c]]) *)
Definition solve33 (m : seq (seq R)) (Yt : arr R) : res (arr R) :=
  do x <- np_solve (of_rows m) (of_rows [:: [:: - get Yt 0 0]; [:: - get Yt 0 1]; [:: - get Yt 1 1]]);
  Ok (of_rows [:: [:: get x 0 0; get x 1 0]; [:: get x 1 0; get x 2 0]]).
(* solve(mat44, -Yt.reshape(-1, 1)).reshape(2, 2) *)
Definition solve44 (m : seq (seq R)) (Yt : arr R) : res (arr R) :=
  do x <- np_solve (of_rows m) (of_rows [:: [:: - get Yt 0 0]; [:: - get Yt 0 1]; [:: - get Yt 1 0]; [:: - get Yt 1 1]]);
  Ok (of_rows [:: [:: get x 0 0; get x 1 0]; [:: get x 2 0; get x 3 0]]).
(* solve(M, -Yt.T).T *)
Definition solveT (M Yt : arr R) : res (arr R) := do x <- np_solve M (aneg (aT Yt)); Ok (aT x).

(* ---------------------------------------------------------------- mini_sylvester, four times *)
(* _solve_continuous_lyapunov, lines 461-505 *)
Definition c_mini (Ar Yt : arr R) (Al : option (arr R)) : res (arr R) :=
  match Al with
  | None =>
      if asize Ar == 1%N then sdiv (- get Yt 0 0) (get Ar 0 0 * 2%:R)
      else if asize Ar == 4%N then
        let: (a, b, c, d) := get4 Ar in
        solve33 [:: [:: 2%:R * a; 2%:R * c; 0]; [:: b; a + d; c]; [:: 0; 2%:R * b; 2%:R * d]] Yt
      else Err ValueError
  | Some Al =>
      if asize Ar == 4%N then
        if asize Al == 4%N then
          let: (a00, a01, a10, a11) := get4 Al in
          let: (b00, b01, b10, b11) := get4 Ar in
          solve44 [:: [:: a00 + b00; b10; a10; 0]; [:: b01; a00 + b11; 0; a10];
                      [:: a01; 0; a11 + b00; b10]; [:: 0; a01; b01; a11 + b11]] Yt
        else solveT (aadd (aT Ar) (ascale (get Al 0 0) (aeye 2))) Yt
      else if asize Al == 4%N then np_solve (aadd (aT Al) (ascale (get Ar 0 0) (aeye 2))) (aneg Yt)
      else sdiv (- get Yt 0 0) (get Ar 0 0 + get Al 0 0)
  end.

(* _solve_discrete_lyapunov, lines 591-633 *)
Definition d_mini (Al Yt : arr R) (Ar : option (arr R)) : res (arr R) :=
  match Ar with
  | None =>
      if asize Al == 1%N then sdiv (- get Yt 0 0) (get Al 0 0 ^+ 2 - 1)
      else if asize Al == 4%N then
        let: (a, b, c, d) := get4 Al in
        solve33 [:: [:: a ^+ 2 - 1; 2%:R * a * c; c ^+ 2]; [:: a * b; a * d + b * c - 1; c * d];
                    [:: b ^+ 2; 2%:R * b * d; d ^+ 2 - 1]] Yt
      else Err ValueError
  | Some Ar =>
      if asize Al == 4%N then
        if asize Ar == 4%N then
          let: (a00, a01, a10, a11) := get4 Al in
          let: (b00, b01, b10, b11) := get4 Ar in
          solve44 [:: [:: a00 * b00 - 1; a00 * b10; a10 * b00; a10 * b10];
                      [:: a00 * b01; a00 * b11 - 1; a10 * b01; a10 * b11];
                      [:: a01 * b00; a01 * b10; a11 * b00 - 1; a11 * b10];
                      [:: a01 * b01; a01 * b11; a11 * b01; a11 * b11 - 1]] Yt
        else np_solve (asub (ascale (get Ar 0 0) (aT Al)) (aeye 2)) (aneg Yt)
      else if asize Ar == 4%N then solveT (asub (ascale (get Al 0 0) (aT Ar)) (aeye 2)) Yt
      else sdiv (- get Yt 0 0) (get Ar 0 0 * get Al 0 0 - 1)
  end.

(* _solve_continuous_generalized_lyapunov, lines 137-181: the arguments R, S, Yt, U, V *)
Definition gc_mini (M S Yt : arr R) (UV : option (arr R * arr R)) : res (arr R) :=
  match UV with
  | None =>
      if asize M == 1%N then sdiv (- get Yt 0 0) (2%:R * get M 0 0 * get S 0 0)
      else if asize M == 4%N then
        let: (a, b, c, d) := get4 M in
        let: (e, f, g, h) := get4 S in
        solve33 [:: [:: 2%:R * a * e; 2%:R * (a * g + e * c); 2%:R * c * g];
                    [:: a * f + e * b; a * h + e * d + c * f + b * g; c * h + g * d];
                    [:: 2%:R * b * f; 2%:R * (b * h + f * d); 2%:R * d * h]] Yt
      else Err ValueError
  | Some (U, V) =>
      if asize M == 4%N then
        if asize S == 4%N then
          let: (a, b, c, d) := get4 M in
          let: (e, f, g, h) := get4 S in
          let: (k, l, m, n) := get4 U in
          let: (p, q, r, s) := get4 V in
          solve44 [:: [:: a * e + k * p; a * g + k * r; c * e + m * p; c * g + m * r];
                      [:: a * f + k * q; a * h + k * s; c * f + m * q; c * h + m * s];
                      [:: b * e + l * p; b * g + l * r; d * e + n * p; d * g + n * r];
                      [:: b * f + l * q; b * h + l * s; d * f + n * q; d * h + n * s]] Yt
        else np_solve (aadd (ascale (get S 0 0) (aT M)) (ascale (get V 0 0) (aT U))) (aneg Yt)
      else if asize S == 4%N then solveT (aadd (ascale (get M 0 0) (aT S)) (ascale (get U 0 0) (aT V))) Yt
      else sdiv (- get Yt 0 0) (get M 0 0 * get S 0 0 + get U 0 0 * get V 0 0)
  end.

(* _solve_discrete_generalized_lyapunov, lines 298-343: the arguments S, V, Yt, R, U *)
Definition gd_mini (S V Yt : arr R) (MU : option (arr R * arr R)) : res (arr R) :=
  match MU with
  | None =>
      if asize S == 1%N then sdiv (- get Yt 0 0) (get S 0 0 ^+ 2 - get V 0 0 ^+ 2)
      else if asize S == 4%N then
        let: (a, b, c, d) := get4 S in
        let: (e, f, g, h) := get4 V in
        solve33 [:: [:: a * a - e * e; 2%:R * (a * c - e * g); c * c - g * g];
                    [:: a * b - e * f; a * d - e * h + c * b - g * f; c * d - g * h];
                    [:: b * b - f * f; 2%:R * (b * d - f * h); d * d - h * h]] Yt
      else Err ValueError
  | Some (M, U) =>
      if asize S == 4%N then
        if asize M == 4%N then
          let: (a, b, c, d) := get4 M in
          let: (e, f, g, h) := get4 S in
          let: (k, l, m, n) := get4 U in
          let: (p, q, r, s) := get4 V in
          solve44 [:: [:: a * e - k * p; a * g - k * r; c * e - m * p; c * g - m * r];
                      [:: a * f - k * q; a * h - k * s; c * f - m * q; c * h - m * s];
                      [:: b * e - l * p; b * g - l * r; d * e - n * p; d * g - n * r];
                      [:: b * f - l * q; b * h - l * s; d * f - n * q; d * h - n * s]] Yt
        else solveT (asub (ascale (get M 0 0) (aT S)) (ascale (get U 0 0) (aT V))) Yt
      else if asize M == 4%N then np_solve (asub (ascale (get S 0 0) (aT M)) (ascale (get V 0 0) (aT U))) (aneg Yt)
      else sdiv (- get Yt 0 0) (get M 0 0 * get S 0 0 - get U 0 0 * get V 0 0)
  end.

(* ---------------------------------------------------------------- the blocks *)
(* subdiag_indices and bz with nan as None; lines 196-203, 358-365, 521-528, 646-653 *)
Definition subdiag (tol : R) (As : arr R) : seq nat :=
  [seq i <- iota 0 (nr As).-1 | tol < `|get As i.+1 i|].
Definition block_sizes (tol : R) (As : arr R) : seq nat :=
  pmap id (foldl (fun bz x => set_nth None (set_nth None bz x (Some 2%N)) x.+1 None) (nseq (nr As) (Some 1%N))
             (subdiag tol As)).
(* the pairs (bs[k], bs[k+1]); lines 204, 366, 529, 654 *)
Fixpoint mkblocks (n s : nat) (bz : seq nat) : seq (nat * nat) :=
  match bz with
  | [::] => [::]
  | [:: _] => [:: (s, n)]
  | b :: bz' => (s, s + b)%N :: mkblocks n (s + b) bz'
  end.
Definition blocks (tol : R) (As : arr R) : seq (nat * nat) := mkblocks (nr As) 0 (block_sizes tol As).

(* ---------------------------------------------------------------- the loops *)
Variable cast : R -> R.

(* lines 560-578 *)
Fixpoint c_cols (As : arr R) (u v : nat) (cols : seq (nat * nat)) (Ys Xs : arr R) : res (arr R * arr R) :=
  match cols with
  | [::] => Ok (Ys, Xs)
  | (c, d) :: cols' =>
      let n := nr As in
      do x <- c_mini (asubm As c d c d) (asubm Ys u v c d) (Some (asubm As u v u v));
      let Xs := aput (aput Xs u c (amap cast x)) c u (amap cast (aT x)) in
      let Ys := aincr Ys u d (amul x (asubm As c d d n)) in
      let Ys := aincr Ys v c (amul (aT (asubm As u v v d)) x) in
      c_cols As u v cols' Ys Xs
  end.

(* lines 540-578; row != 0 iff its first index is not 0 *)
Fixpoint c_rows (As : arr R) (bl : seq (nat * nat)) (Ys Xs : arr R) : res (arr R) :=
  match bl with
  | [::] => Ok Xs
  | (u, v) :: bl' =>
      let n := nr As in
      let Ys := if u == 0%N then Ys else aincr Ys u u (amul (asubm Xs u v 0 u) (asubm As 0 u u n)) in
      do x <- c_mini (asubm As u v u v) (asubm Ys u v u v) None;
      let Xs := aput Xs u u (amap cast x) in
      let Ys := aincr Ys u v (amul x (asubm As u v v n)) in
      do st <- c_cols As u v bl' Ys Xs;
      c_rows As bl' st.1 st.2
  end.

(* _solve_continuous_lyapunov, lines 452-580 *)
Definition solve_c (schur : arr R -> arr R * arr R) (A Y X0 : arr R) : res (arr R) :=
  if (nr A < 3)%N then c_mini A Y None
  else
    let: (As, U) := schur A in
    let Ys := amul (amul (aT U) Y) U in
    do Xs <- c_rows As (blocks 0 As) Ys X0;
    Ok (amul (amul U Xs) (aT U)).

(* The other three functions have the same loop (lines 216-282, 378-447, 666-712) up to the products.  The term
   (s, P, Q) stands for the summand  s * P.T @ X @ Q  of the equation: the loops keep  X @ Q  of the current row for
   every term, (A, E) and (E, A), resp. (A, A) and -(E, E), resp. (A, A) alone. *)
Definition term := (R * arr R * arr R)%type.
Definition acombine (m n : nat) (s : seq (arr R)) : arr R := foldr (@aadd R) (azeros m n) s.

(* Ys[r0:, c0:] += the sum of s * P[u:v, r0:r1].T @ B over the terms and their B *)
Definition lift (ts : seq term) (u v r0 r1 : nat) (Bs : seq (arr R)) (w : nat) : arr R :=
  acombine (r1 - r0) w [seq ascale tB.1.1.1 (amul (aT (asubm tB.1.1.2 u v r0 r1)) tB.2) | tB <- zip ts Bs].

Section Generic.
Variables (n : nat) (ts : seq term).
Variable msym : nat -> nat -> arr R -> res (arr R).
Variable mgen : nat -> nat -> nat -> nat -> arr R -> res (arr R).

Fixpoint g_cols (u v : nat) (cols : seq (nat * nat)) (acc : seq (arr R)) (Ys Xs : arr R) : res (arr R * arr R) :=
  match cols with
  | [::] => Ok (Ys, Xs)
  | (c, d) :: cols' =>
      do x <- mgen u v c d (asubm Ys u v c d);
      let Xs := aput (aput Xs u c (amap cast x)) c u (amap cast (aT x)) in
      let tmp := [seq amul x (asubm t.2 c d c n) | t <- ts] in                       (* tempe, tempa *)
      let Ys := aincr Ys u c (lift ts u v u v tmp (n - c)) in
      let acc := [seq aincr aB.1 0 (c - u) aB.2 | aB <- zip acc tmp] in
      let Ys := aincr Ys v c (lift ts u v v d [seq asubm a 0 (v - u) (c - u) (d - u) | a <- acc] (d - c)) in
      g_cols u v cols' acc Ys Xs
  end.

Fixpoint g_rows (bl : seq (nat * nat)) (Ys Xs : arr R) : res (arr R) :=
  match bl with
  | [::] => Ok Xs
  | (u, v) :: bl' =>
      let Ys := if u == 0%N then Ys
        else aincr Ys u u (lift ts u v u v [seq amul (asubm Xs u v 0 u) (asubm t.2 0 u u v) | t <- ts] (v - u)) in
      do x <- msym u v (asubm Ys u v u v);
      let Xs := aput Xs u u (amap cast x) in
      let tempx := asubm Xs u v 0 v in
      let acc := [seq amul tempx (asubm t.2 0 v u n) | t <- ts] in
      let Ys := aincr Ys u u (lift ts u v u v acc (n - u)) in
      do st <- g_cols u v bl' acc Ys Xs;
      g_rows bl' st.1 st.2
  end.
End Generic.

(* _solve_discrete_lyapunov, lines 583-714 *)
Definition solve_d (schur : arr R -> arr R * arr R) (A Y X0 : arr R) : res (arr R) :=
  if (nr A < 3)%N then d_mini A Y None
  else
    let: (As, U) := schur A in
    let Ys := amul (amul (aT U) Y) U in
    do Xs <- g_rows (nr As) [:: (1, As, As)]
      (fun u v Yt => d_mini (asubm As u v u v) Yt None)
      (fun u v c d Yt => d_mini (asubm As u v u v) Yt (Some (asubm As c d c d)))
      (blocks 0 As) Ys X0;
    Ok (amul (amul U Xs) (aT U)).

(* _solve_continuous_generalized_lyapunov, lines 122-284; qz returns As, Es, Q, Z *)
Definition solve_gc (tol : R) (qz : arr R -> arr R -> arr R * arr R * arr R * arr R) (A E Y X0 : arr R) : res (arr R) :=
  if (nr A < 3)%N then gc_mini A E Y None
  else
    let: (As, Es, Q, Z) := qz A E in
    let Ys := amul (amul (aT Z) Y) Z in
    do Xs <- g_rows (nr A) [:: (1, As, Es); (1, Es, As)]
      (fun u v Yt => gc_mini (asubm As u v u v) (asubm Es u v u v) Yt None)
      (fun u v c d Yt => gc_mini (asubm As u v u v) (asubm Es c d c d) Yt (Some (asubm Es u v u v, asubm As c d c d)))
      (blocks tol As) Ys X0;
    Ok (amul (amul Q Xs) (aT Q)).

(* _solve_discrete_generalized_lyapunov, lines 287-449 *)
Definition solve_gd (tol : R) (qz : arr R -> arr R -> arr R * arr R * arr R * arr R) (A E Y X0 : arr R) : res (arr R) :=
  if (nr A < 3)%N then gd_mini A E Y None
  else
    let: (As, Es, Q, Z) := qz A E in
    let Ys := amul (amul (aT Z) Y) Z in
    do Xs <- g_rows (nr As) [:: (1, As, As); (-1, Es, Es)]
      (fun u v Yt => gd_mini (asubm As u v u v) (asubm Es u v u v) Yt None)
      (fun u v c d Yt => gd_mini (asubm As c d c d) (asubm Es c d c d) Yt (Some (asubm As u v u v, asubm Es u v u v)))
      (blocks tol As) Ys X0;
    Ok (amul (amul Q Xs) (aT Q)).

(* lyapunov_eq_solver, lines 77-119; E = None selects the first two equations *)
Definition lyapunov_eq_solver (tol : R) schur qz (A Y : arr R) (E : option (arr R)) (form : string) (X0 : arr R) : res (arr R) :=
  guard String.eqb form "c" || String.eqb form "continuous" || String.eqb form "d" || String.eqb form "discrete" else ValueError;
  guard (if E is Some e then nr e == nc e else true) else ValueError;
  guard (nr A == nc A) && (nr Y == nc Y) else ValueError;
  guard (shp A == shp Y) && (if E is Some e then shp A == shp e else true) else ValueError;
  if String.eqb form "c" || String.eqb form "continuous" then
    if E is Some e then solve_gc tol qz A e Y X0 else solve_c schur A Y X0
  else
    if E is Some e then solve_gd tol qz A e Y X0 else solve_d schur A Y X0.
End Lyap.
