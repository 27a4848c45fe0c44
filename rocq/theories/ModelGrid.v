(* Model of the automatic frequency grid: _get_freq_grid with w=None and _loglog_points_around,
   /repo/harold/_frequency_domain.py lines 186-193, 217-341 and 344-380, and of frequency_response without
   frequencies.  Definitions only.

   Simplifications:
   - exact arithmetic; complex numbers are pairs of reals, np.abs and np.log of them the arguments cabs, clog;
     np.log10, 10**x, np.sqrt, np.spacing, np.floor and np.geomspace are the arguments log10, exp10, rt, spc, flr
     and geom, and eps, np.sqrt(eps), np.spacing(100.), np.spacing(1000.), np.pi the numbers eps, sqeps, sp100,
     sp1000, pi;
   - the poles and the zeros of the channels are arguments; they are finite numbers;
   - np.unique is the argument uniq;
   - samples is None or a natural number;
   - the output unit of the grid is always rad/s, as in the call at line 55;
   - an empty grid, possible only for discrete models sampled so that no point is left below the Nyquist frequency,
     is passed on to the model of ModelFreq.v, which raises where the code would fail in numpy. *)
From mathcomp Require Import all_ssreflect all_algebra.
From Coq Require Import String.
From Verif Require Import Base ModelState ModelTransfer ModelFreq.

Set Implicit Arguments.
Unset Strict Implicit.
Unset Printing Implicit Defensive.

Import Order.Theory GRing.Theory Num.Theory.
Local Open Scope ring_scope.

Section Grid.
Variable R : realFieldType.
Variables (pi eps sqeps sp100 sp1000 : R) (spc rt log10 exp10 : R -> R).
Variables (cabs : R * R -> R) (clog : R * R -> R * R) (flr : R -> int).
Variable geom : R -> R -> nat -> bool -> seq R.
Variable uniq : seq (R * R) -> seq (R * R).

(* np.floor, np.ceil *)
Definition rfloor (x : R) : R := (flr x)%:~R.
Definition rceil (x : R) : R := (- flr (- x))%:~R.

(* np.logspace(a, b, n) *)
Definition logsp (a b : R) (n : nat) : seq R := mkseq (fun k => exp10 (a + k%:R * ((b - a) / n.-1%:R))) n.

(* _loglog_points_around(x, w, 0.15, num), lines 367-380 *)
Definition around (x : R) (w : option R) (num : nat) : seq R :=
  let: (s, e) := (x * (1 - 3%:R / 20%:R), x * (1 + 3%:R / 20%:R)) in
  let: (sl, el, xl) := (log10 s, log10 e, log10 x) in
  let shr := `|rceil xl| + 1 in
  let shl := `|rceil xl| + 1 in
  let g := [seq exp10 (y + shr) | y <- geom (sl - shr) (xl - shr) num true] in
  let g := if w is Some w then [seq y <- g | w * (1 + 17%:R / 100%:R + 87%:R / 100%:R ^+ 2 + 68%:R / 100%:R ^+ 3 + 63%:R / 100%:R ^+ 4) < y]
           else g in                                                             (* 1.17876863 *)
  g ++ [seq exp10 (y - shl) | y <- geom (xl + shl) (el + shl) num false].

(* lines 240-265: the list of finite modes in the s-plane; dt is None for continuous models *)
Definition grid_modes (dt : option R) (pz : seq (R * R)) : seq (R * R) :=
  let int_pole : R * R := (if dt is Some _ then 1 else 0, 0) in
  let pz := [seq x <- pz | (x != int_pole) && ~~ (x.2 < 0)] in
  let pz := uniq pz in
  let pz := if pz is [::] then
              (if dt is Some _ then [:: (100%:R^-1, 0); (- (4%:R / 5%:R), 0)]
               else [:: ((10 * 100)%:R^-1, 0); (100%:R, 0)])
            else pz in
  if dt is Some h then
    [seq if sp1000 < cabs x then ((clog x).1 / h, (clog x).2 / h) else (pi / h, 0) | x <- pz]
  else pz.

(* lines 267-270: sorted by natural frequency *)
Definition by_freq (ms : seq (R * R)) : seq (R * R) := sort (fun x y => cabs x <= cabs y) ms.
Definition damp (x : R * R) : R := `|x.1| / cabs x.

(* lines 272-283: the exponents of the end points *)
Definition grid_ends (dt : option R) (ms : seq (R * R)) : R * R :=
  let smallest := Num.max (cabs (head (0, 0) ms)) sp100 in
  let largest := Num.min (cabs (last (0, 0) ms)) (10%:R ^+ 16) in
  let: (ud, ld) := (rceil (log10 largest) + 1, rfloor (log10 smallest) - 1) in
  if dt is Some h then
    let ud := Num.min ud (log10 (pi / h)) in
    (ud, if ud - ld < 1 then rfloor (ud - 2%:R) else ld)
  else (ud, ld).

(* lines 300-322 *)
Definition center (x : R * R) : R :=
  let wp := if damp x < 2%:R^-1 then cabs x * rt (1 - 2%:R * damp x ^+ 2) else cabs x in
  if damp x < Num.min sqeps 2%:R^-1 then wp + 100%:R * rt (spc wp) else wp.
Definition extra_num (x : R * R) : nat :=
  if damp x < 2%:R^-1 then
    if 5%:R - - flr (- log10 (Num.max (damp x) sqeps)) is Posz n then maxn 5 n else 5%N
  else 3%N.
Definition extras (ms : seq (R * R)) : seq R :=
  foldl (fun acc x => acc ++ around (center x) (if acc is y :: s then Some (last y s) else None) (extra_num x)) [::] ms.

(* _get_freq_grid(G, None, samples, _, 'rad/s') for a model with sampling period dt, poles and zeros pz *)
Definition auto_grid (gain : bool) (dt : option R) (pz : seq (R * R)) (samples : option nat) : res (seq R) :=
  if gain then                                                                  (* lines 220-225 *)
    let ud := if dt is Some h then log10 (pi / h) else 2%:R in
    let ld := if dt is Some _ then ud - 2%:R else - 2%:R in
    Ok (logsp ld ud (odflt 2%N samples))
  else
    let ms := by_freq (grid_modes dt pz) in
    let: (ud, ld) := grid_ends dt ms in
    let nd := - flr (- (ud - ld)) in                                            (* 284 *)
    do samples <- (if samples is Some n then Ok n
                   else if 15%:R * nd is Posz n then Ok n else Err ValueError); (* logspace refuses it *)
    let w_extra := extras ms ++
      (if dt is Some _ then logsp (ud + log10 (3%:R / 4%:R)) (199%:R / 200%:R * ud) 15 else [::]) in
    let w := sort <=%O (logsp ld ud samples ++ w_extra) in
    let w := if dt is Some h then
               let lim := 199%:R / 200%:R * (pi / h) in
               if lim < last 0 w then [seq x <- w | x <= lim] else w
             else w in
    Ok (foldl (fun w p => [seq x <- w | ~~ (`|x - p| < 100%:R * eps)]) w
              [seq cabs x | x <- ms & damp x < sqeps]).

(* frequency_response(G, samples=samples, w_unit=iu, output_unit=ou), lines 48-114.  The lines after the call of
   _get_freq_grid are those of fr_state and fr_transfer (ModelFreq.v), which leave a list of frequencies in rad/s
   up to the Nyquist frequency unchanged. *)
Section Response.
Variables (L : fieldType) (f : {rmorphism R -> L}) (qr hess : arr R -> arr R * arr R) (ii : L) (expL : L -> L).
Variable poles : state R -> seq (R * R).
Variable zeros : state R -> seq (R * R).
Variable polesT : tf R -> seq (R * R).
Variable zerosT : tf R -> seq (R * R).
Definition fr_state_auto (G : state R) (samples : option nat) (iu ou : string) : res (fr_result R L) :=
  guard unit_ok iu && unit_ok ou else ValueError;
  do w <- auto_grid (sgain G) (sdt G) (poles G ++ zeros G) samples;
  fr_state f qr hess ii expL (2%:R * pi) G w "rad/s" ou.
Definition fr_transfer_auto (G : tf R) (samples : option nat) (iu ou : string) : res (fr_result R L) :=
  guard unit_ok iu && unit_ok ou else ValueError;
  do w <- auto_grid (tgain G) (tdt G) (polesT G ++ zerosT G) samples;
  fr_transfer f ii expL (2%:R * pi) G w "rad/s" ou.
End Response.
End Grid.
