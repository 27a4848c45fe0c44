(* Model of /repo/harold/_time_domain.py for State models.  Definitions only.
   Arrays of at most two dimensions of real numbers; Transfer models (converted first, lines 79-83)
   are not modelled here.  _compute_tfinal_and_dt (lines 257-431, eigenvalue heuristics) and np.arange
   are the argument auto, which returns the number of points and the increment of the generated time array.
   rtol and atol are the tolerances of np.isclose / np.allclose (1e-5 and 1e-8). *)
From mathcomp Require Import all_ssreflect all_algebra.
From Coq Require Import String.
From Verif Require Import Base ModelState ModelObject ModelDiscrete.

Set Implicit Arguments.
Unset Strict Implicit.
Unset Printing Implicit Defensive.

Import GRing.Theory Num.Theory.
Local Open Scope ring_scope.

Section Sim.
Variable R : realFieldType.
Variables (sq tn : R -> R) (pi : R) (expm : arr R -> arr R) (bal : arr R -> arr R * seq R).
Variables (rtol atol : R).
Variable auto : state R -> bool -> nat * R.

(* array_like arguments by number of dimensions *)
Inductive nd := N0 of R | N1 of seq R | N2 of arr R.

(* x.squeeze() *)
Definition squeeze (x : nd) : nd :=
  match x with
  | N0 a => N0 a
  | N1 [:: a] => N0 a
  | N1 s => N1 s
  | N2 A => if (nr A == 1%N) && (nc A == 1%N) then N0 (get A 0 0)
            else if nr A == 1%N then N1 (mkseq (get A 0) (nc A))
            else if nc A == 1%N then N1 (mkseq (fun i => get A i 0) (nr A))
            else N2 A
  end.

(* s[:, None] *)
Definition acolumn (s : seq R) : arr R := mk (size s) 1 (fun i _ => nth 0 s i).

(* np.isclose(a, b) *)
Definition isclose (a b : R) : bool := `|a - b| <= atol + rtol * `|b|.

(* np.diff(t) *)
Definition diff (t : seq R) : seq R := mkseq (fun i => nth 0 t i.+1 - nth 0 t i) (size t).-1.

(* np.linspace(0, stop, num=N) *)
Definition linspace (stop : R) (N : nat) : seq R := mkseq (fun k => k%:R * (stop / N.-1%:R)) N.

(* len(u) *)
Definition np_len (u : nd) : res nat :=
  match u with N0 _ => Err TypeError | N1 s => Ok (size s) | N2 A => Ok (nr A) end.
Definition np_size (u : nd) : nat :=
  match u with N0 _ => 1%N | N1 s => size s | N2 A => asize A end.

(* _check_u_and_t_for_simulation, lines 434-474; u has been squeezed and is not one-dimensional *)
Definition check_u_t (m : nat) (dt : option R) (u : nd) (t : option nd) : res (arr R * seq R) :=
  do t <- match t with
          | None => if dt is Some dt then do N <- np_len u; Ok (linspace (N.-1%:R * dt) N)
                    else Err ValueError
          | Some t =>
              if squeeze t is N1 t then
                let td := diff t in
                if td is d0 :: _ then
                  guard all (fun d => isclose d d0) td && (0 < d0) else ValueError;
                  guard (if dt is Some dt then isclose dt d0 else true) else ValueError;
                  Ok t
                else Err IndexError                               (* t_diff[0] *)
              else Err ValueError
          end;
  guard ~~ (np_size u < 1)%N else ValueError;
  do N <- np_len u;
  guard N == size t else ValueError;
  if u is N2 u then guard nc u == m else ValueError; Ok (u, t)
  else Err IndexError.                                            (* u.shape[1]; never reached *)

Definition arow (A : arr R) k := asubm A k k.+1 0 (nc A).
Definition acol (A : arr R) j := asubm A 0 (nr A) j j.+1.

(* the loop  xout[row] = xout[row-1] @ at + Bu[row-1]:  x is xout[0], us the rows of Bu that are used *)
Fixpoint run (at_ x : arr R) (us : seq (arr R)) : seq (arr R) :=
  x :: if us is u :: us' then run at_ (aadd (amul x at_) u) us' else [::].
(* xout for N samples *)
Definition xout (at_ x0 Bu : arr R) (N n : nat) : arr R :=
  let xs := run at_ x0 [seq arow Bu k | k <- iota 0 N.-1] in
  mk N n (fun k j => get (nth (azeros 1 n) xs k) 0 j).

(* lines 142-152; x0 is a row *)
Definition sim_comb (a b c d u x0 : arr R) : arr R :=
  let n := nr a in let N := nr u in
  let BDu := amul u (ahcat (aT b) (aT d)) in
  let Bu := asubm BDu 0 N 0 n in
  let Du := asubm BDu 0 N n (nc BDu) in
  aadd (amul (xout (aT a) x0 Bu N n) (aT c)) Du.

(* lines 127-141, the slice [:, :, col] *)
Definition sim_chan (a b c d u x0 : arr R) (col : nat) : arr R :=
  let n := nr a in let N := nr u in
  let Bu := amul (acol u col) (arow (aT b) col) in
  aadd (amul (xout (aT a) x0 Bu N n) (aT c)) (mk N (nr d) (fun i k => get u i col * get d k col)).

(* the response: two-dimensional, or three-dimensional as the list of slices [:, :, k] *)
Inductive yout := Y2 of arr R | Y3 of seq (arr R).

(* lines 61-77: the initial state as a row; None if it was not given *)
Definition check_x0 (G : state R) (x0 : option nd) : res (option (arr R)) :=
  if x0 is Some x0 then
    guard ~~ sgain G else ValueError;
    match squeeze x0 with
    | N2 _ => Err ValueError
    | N0 _ => Err IndexError                                      (* x0[:, None] of a 0-d array *)
    | N1 s => guard size s == snn G else ValueError; Ok (Some (aT (acolumn s)))
    end
  else Ok None.

(* simulate_linear_system, lines 59-154 *)
Definition simulate (G : state R) (u : nd) (t : option nd) (x0 : option nd) (per_channel : bool) :
    res (yout * seq R) :=
  do x0 <- check_x0 G x0;
  let m := smn G in
  let u := if squeeze u is N1 s then N2 (acolumn s) else squeeze u in
  do (u, t) <- check_u_t m (sdt G) u t;
  if sgain G then
    if (spn G == 1%N) && (smn G == 1%N) then
      Ok (Y2 (ascaler u (get (sd G) 0 0)), t)
    else if per_channel && (m != 1%N) then
      Ok (Y3 (mkseq (fun j => mk (nr u) (spn G) (fun i k => get u i j * get (sd G) k j)) m), t)
    else do y <- np_matmul u (aT (sd G)); Ok (Y2 y, t)
  else
    do G <- (if sdt G is Some _ then Ok G
             else do o <- discretize sq tn pi expm bal G (nth 0 t 1 - nth 0 t 0) "zoh" 0 None; Ok (dst o));
    let x0 := if x0 is Some x0 then x0 else azeros 1 (snn G) in
    if per_channel && (m != 1%N) then
      Ok (Y3 (mkseq (sim_chan (sa G) (sb G) (sc G) (sd G) u x0) m), t)
    else Ok (Y2 (sim_comb (sa G) (sb G) (sc G) (sd G) u x0), t).

(* _check_custom_time_input, lines 477-499 *)
Definition check_time (t : nd) : res (seq R * R) :=
  do t <- match t with
          | N0 a => Ok [:: a]                                     (* atleast_1d *)
          | N1 s => Ok s
          | N2 A => match squeeze (N2 A) with
                    | N0 a => Ok [:: a] | N1 s => Ok s | N2 _ => Err ValueError end
          end;
  guard ~~ (size t < 2)%N else ValueError;
  let dt := nth 0 t 1 - nth 0 t 0 in
  guard 0 < dt else ValueError;
  guard all (fun d => isclose d dt) (diff t) else ValueError;
  Ok (t, dt).

(* t = np.arange(0, tf+ts, ts) or the checked argument; lines 194-198 and 244-248 *)
Definition time_grid (G : state R) (step : bool) (t : option nd) : res (seq R * R) :=
  if t is Some t then check_time t
  else let: (N, ts) := auto G step in Ok (mkseq (fun k => k%:R * ts) N, ts).

(* simulate_step_response, lines 187-203 *)
Definition simulate_step (G : state R) (t : option nd) : res (yout * seq R) :=
  do (t, ts) <- time_grid G true t;
  simulate G (N2 (aones (size t) (smn G))) (Some (N1 t)) None true.

(* simulate_impulse_response, lines 237-254 *)
Definition simulate_impulse (G : state R) (t : option nd) : res (yout * seq R) :=
  do (t, ts) <- time_grid G false t;
  guard (0 < size t)%N else IndexError;                           (* u[0] *)
  simulate G (N2 (mk (size t) (smn G) (fun i _ => if i == 0%N then 1 / ts else 0))) (Some (N1 t)) None true.

End Sim.
