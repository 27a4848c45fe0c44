(* Model of the data drawn by step_response_plot and impulse_response_plot, /repo/harold/_time_domain_plots.py lines 10-33,
   64-127 and 158-218.  Definitions only.

   Simplifications:
   - what is modelled is the list of curves handed to matplotlib and the right end of the time axis; figure layout, labels
     and grids are not;
   - matplotlib's refusal of curves with x and y of different lengths and of infinite limits is ValueError;
   - a style is its number of entries, nsty; the curves of the i-th system carry its i-th entry;
   - a scalar system's output array has one column. *)
From mathcomp Require Import all_ssreflect all_algebra.
From Verif Require Import Base ModelState ModelTransfer ModelSim ModelSimT ModelPlots.

Set Implicit Arguments.
Unset Strict Implicit.
Unset Printing Implicit Defensive.

Import Order.Theory GRing.Theory Num.Theory.
Local Open Scope ring_scope.

Section TimePlots.
Variable R : realFieldType.
Variables (sq tn : R -> R) (pi : R) (expm : arr R -> arr R) (bal : arr R -> arr R * seq R).
Variables (rtol atol : R).
Variable auto : state R -> bool -> nat * R.
Variable lcmf : seq (row R) -> res (row R * seq (row R)).
Variable eps : R.

(* simulate_step_response(sys, t=t), simulate_impulse_response(sys, t=t) *)
Definition step_resp (G : psys R) (t : option (nd R)) : res (yout R * seq R) :=
  match G with
  | PS G => simulate_step sq tn pi expm bal rtol atol auto G t
  | PT G => simulate_step_t sq tn pi expm bal rtol atol auto lcmf eps G t
  end.
Definition impulse_resp (G : psys R) (t : option (nd R)) : res (yout R * seq R) :=
  match G with
  | PS G => simulate_impulse sq tn pi expm bal rtol atol auto G t
  | PT G => simulate_impulse_t sq tn pi expm bal rtol atol auto lcmf eps G t
  end.
Definition psiso (G : psys R) : bool := match G with PS G => sSISO G | PT G => tSISO G end.

(* a curve: system, style entry, stairs or straight lines, row and column of the axes, abscissae, ordinates *)
Record tcurve := TC { tc_sys : nat; tc_style : option nat; tc_stairs : bool; tc_row : nat; tc_col : nat;
                      tc_x : seq R; tc_y : seq R }.

(* the body of the loop, lines 99-121 and 193-212 *)
Definition ycol (Y : arr R) (k : nat) : seq R := mkseq (fun i => get Y i k) (nr Y).
Definition time_curves (ind : nat) (sty : option nat) (G : psys R) (r : yout R * seq R) : res (seq tcurve) :=
  let: (y, ts) := r in
  let d := if pdt G is Some _ then true else false in
  let put row col ys := guard size ys == size ts else ValueError; Ok (TC ind sty d row col ts ys) in
  if psiso G then do c <- put 0%N 0%N (match y with Y2 Y => ycol Y 0 | Y3 s => ycol (head (azeros 0 0) s) 0 end); Ok [:: c]
  else match y with
       | Y2 Y => collect (fun row => put row 0%N (ycol Y row)) (iota 0 (nc Y))
       | Y3 s => collect (fun rc : nat * nat => put rc.1 rc.2 (ycol (nth (azeros 0 0) s rc.2) rc.1))
                   [seq (row, col) | row <- iota 0 (nc (head (azeros 0 0) s)), col <- iota 0 (size s)]
       end.

(* the loop and the limit of the axis: tmin = np.min([tout[-1], tmin]) *)
Definition time_loop (resp : psys R -> option (nd R) -> res (yout R * seq R)) (Gs : seq (nat * option nat * psys R))
    (t : option (nd R)) : res (seq tcurve * R) :=
  do rs <- collect (fun x : nat * option nat * psys R =>
              do r <- resp x.2 t;
              guard (0 < size r.2)%N else IndexError;
              do c <- time_curves x.1.1 x.1.2 x.2 r; Ok (c, last 0 r.2)) Gs;
  guard (0 < size rs)%N else ValueError;
  Ok (flatten (map fst rs), foldr Num.min (head 0 (map snd rs)) (map snd rs)).

(* step_response_plot, lines 64-127: zip(syslist, style) ends with the shorter list *)
Definition step_plot (Gs : seq (psys R)) (t : option (nd R)) (nsty : nat) : res (seq tcurve * R) :=
  guard (0 < size Gs)%N else ValueError;
  time_loop step_resp (take nsty [seq (i, Some i, nth (PT (Tf [::] [::] false None)) Gs i) | i <- iota 0 (size Gs)]) t.
(* impulse_response_plot, lines 158-218: the loop does not use style *)
Definition impulse_plot (Gs : seq (psys R)) (t : option (nd R)) (nsty : nat) : res (seq tcurve * R) :=
  guard (0 < size Gs)%N else ValueError;
  time_loop impulse_resp [seq (i, None, nth (PT (Tf [::] [::] false None)) Gs i) | i <- iota 0 (size Gs)] t.
End TimePlots.
