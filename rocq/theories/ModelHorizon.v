(* Model of the time grid of simulate_step_response and simulate_impulse_response when t is omitted:
   _compute_tfinal_and_dt and np.arange, /repo/harold/_time_domain.py lines 194-196, 244-246, 257-431, for State
   models (Transfer models are converted first).  Definitions only.

   Simplifications:
   - exact arithmetic; complex numbers are pairs of real and imaginary part; abs of a complex number is the
     argument cabs, np.log of one the argument clog, np.floor the argument flr, np.log(100) the argument ln100,
     sqrt(spacing(1)) the argument se;
   - eigvals(sys.a) is the argument eigs; the balanced eigenvalue decomposition of lines 371-382 is the argument
     modes, which gives for each eigenvalue its value (0 if it is below the spacing of line 378), the bounded
     sensitivity of lines 375-376 and the norms of the row v[k, :] and of the column w[:, k];
   - a time that is infinite (division by zero) is None; np.arange then raises ValueError. *)
From mathcomp Require Import all_ssreflect all_algebra.
From Coq Require Import String.
From Verif Require Import Base ModelState ModelObject ModelDiscrete ModelSim.

Set Implicit Arguments.
Unset Strict Implicit.
Unset Printing Implicit Defensive.

Import GRing.Theory Num.Theory.
Local Open Scope ring_scope.

(* an eigenvalue with its sensitivity, |v[k, :]| and |w[:, k]| *)
Record mode (R : Type) := Mode { mpole : R * R; msens : R; mv : R; mw : R }.

Section Horizon.
Variable R : realFieldType.
Variables (pi se ln100 : R) (cabs : R * R -> R) (clog : R * R -> R * R) (flr : R -> int).
Variable eigs : arr R -> seq (R * R).
Variable modes : state R -> seq (mode R).

(* the limits of lines 302-305 *)
Definition min_points : R := 100%:R.
Definition max_points : R := 100%:R * 100%:R.
Definition max_points_z : R := 75%:R * 1000%:R.

(* a / b for a > 0, None for b = 0 *)
Definition quot (a b : R) : option R := if b == 0 then None else Some (a / b).
Definition omax (a b : option R) : option R :=
  if a is Some x then (if b is Some y then Some (Num.max x y) else None) else None.
(* np.max of a nonempty array *)
Definition omaxs (s : seq (option R)) : option R := foldr omax (head None s) s.
(* np.max, np.min of a nonempty array of numbers *)
Definition rmax (s : seq R) : R := foldr Num.max (head 0 s) s.
Definition rmin (s : seq R) : R := foldr Num.min (head 0 s) s.
(* z / d *)
Definition cdiv (z : R * R) (d : R) : R * R := (z.1 / d, z.2 / d).

(* (p.real < 0) & (np.abs(p.imag) < sqrt_eps), lines 330, 338 *)
Definition negreal (x : R * R) : bool := (x.1 < 0) && (`|x.2| < se).

(* lines 321-358 for sampling period dt and the eigenvalues p *)
Definition disc_time (dt : R) (p : seq (R * R)) : res (option R) :=
  let unstable x := 1 + se <= cabs x in
  let: (p_u, p) := (filter unstable p, filter (predC unstable) p) in
  do t <- if p_u is [::] then Ok (Some 5%:R)
          else
            let q := filter (predC negreal) p_u in
            guard q != [::] else ValueError;                     (* np.max of an empty array *)
            Ok (omax (Some 5%:R) (omaxs [seq quot ln100 (cabs (cdiv (clog x) dt)) | x <- q]));
  let p := [seq x <- p | ~~ (cabs x < se)] in
  let: (p_nr, p) := (filter negreal p, filter (predC negreal) p) in
  let t := if p_nr is [::] then t
           else omax t (omaxs [seq quot ln100 `|(cdiv (clog x) dt).1| | x <- p_nr]) in
  let integ x := (x.1 - 1 < se) && (`|x.2| < se) in
  let: (p_int, p) := (filter integ p, filter (predC integ) p) in
  let pure x := `|cabs x - 1| < se in
  let: (p_w, p) := (filter pure p, filter (predC pure) p) in
  let t := if p_w is [::] then t
           else omax t (quot (5%:R * 2%:R * pi) (rmin [seq cabs (cdiv (clog x) dt) | x <- p_w])) in
  let t := if p is [::] then t
           else omax t (quot ln100 (rmin [seq `|(cdiv (clog x) dt).1| | x <- p])) in
  Ok (if p_int is [::] then t else omap (fun x => x * 5%:R) t).

(* lines 360-367; None stands for nan *)
Definition disc_final (dt : R) (t : option R) : option R :=
  if t is Some tf then
    let k := flr (tf / dt) in
    Some (if max_points_z < k%:~R then dt * max_points_z else dt * k%:~R)
  else None.

(* lines 384-405: the eigenvalues that matter and whether one is zero *)
Definition relevant (step : bool) (ms : seq (mode R)) : seq (R * R) * bool :=
  let ok x := `|msens x| <= 1 / se in
  let wn x := cabs (mpole x) in
  let size0 x := if ok x then mv x * mw x * msens x else 0 in
  let size1 x := if wn x != 0 then size0 x / (if step then wn x else 1) else 0 in
  let dc x := if (mpole x).2 != 0 then size1 x * 2%:R else size1 x in
  let big := rmax [seq dc x | x <- ms] in
  ([seq mpole x | x <- ms & (10%:R^-1 * big < dc x) || ~~ ok x], has (fun x => wn x == 0) ms).

(* lines 407-431 *)
Definition cont_time (psub : seq (R * R)) (origin : bool) : R * R :=
  let ints x := cabs x == 0 in
  let iw x := (x.2 != 0) && (`|x.1| <= se) in
  let osc := filter iw psub in
  let rest := [seq x <- psub | ~~ iw x && ~~ ints x] in
  let tf := [seq 5%:R * 2%:R * pi / cabs x | x <- osc] ++ [seq ln100 / `|x.1| | x <- rest] in
  let ts := [seq 2%:R * pi / 25%:R / cabs x | x <- osc] ++
            [seq Num.min (ln100 / `|x.1| / 50%:R) (2%:R * pi / 25%:R / cabs x) | x <- rest] in
  if tf is [::] then (5%:R * 5%:R, 5%:R * 5%:R / min_points)
  else
    let tfinal := rmax tf * (if origin then 5%:R else 1) in
    let dt := rmin ts in
    let dt := if max_points < (flr (tfinal / dt))%:~R then tfinal / max_points else dt in
    let tfinal := if (flr (tfinal / dt))%:~R < min_points then dt * min_points else tfinal in
    (tfinal, dt).

(* _compute_tfinal_and_dt, lines 257-431; None stands for nan *)
Definition tfinal_dt (G : state R) (step : bool) : res (option R * R) :=
  if sgain G then
    if sdt G is Some dt then Ok (Some (dt * 20%:R), dt) else Ok (Some 5%:R, 5%:R / min_points)
  else if sdt G is Some dt then
    do t <- disc_time dt (eigs (sa G)); Ok (disc_final dt t, dt)
  else
    let: (psub, origin) := relevant step (modes G) in
    let: (tf, dt) := cont_time psub origin in Ok (Some tf, dt).

(* len(np.arange(0, tf+ts, ts)) *)
Definition arange_len (tf ts : R) : nat := if - flr (- ((tf + ts) / ts)) is Posz n then n else 0%N.

(* the generated time array: its length and its increment *)
Definition auto_time (G : state R) (step : bool) : res (nat * R) :=
  do (tf, ts) <- tfinal_dt G step;
  if tf is Some tf then Ok (arange_len tf ts, ts) else Err ValueError.

Section Responses.
Variables (sq tn : R -> R) (expm : arr R -> arr R) (bal : arr R -> arr R * seq R) (rtol atol : R).
(* simulate_step_response(G), simulate_impulse_response(G) *)
Definition simulate_step_auto (G : state R) : res (yout R * seq R) :=
  do g <- auto_time G true; simulate_step sq tn pi expm bal rtol atol (fun _ _ => g) G None.
Definition simulate_impulse_auto (G : state R) : res (yout R * seq R) :=
  do g <- auto_time G false; simulate_impulse sq tn pi expm bal rtol atol (fun _ _ => g) G None.
End Responses.
End Horizon.
