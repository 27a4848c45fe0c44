(* Model of the data drawn by bode_plot and nyquist_plot, /repo/harold/_frequency_domain_plots.py lines 36-96, 141-271 and
   302-375.  Definitions only.

   Simplifications:
   - what is modelled is the list of curves handed to matplotlib: the number of the system, the row and the column of the
     axes, and the points; figure layout, labels, grids, vertical lines, ticks and axis limits are not;
   - matplotlib's refusal of curves with x and y of different lengths is ValueError;
   - a style is its number of entries, nsty;
   - the automatic grid and the response on it (frequency_response without frequencies, see ModelGrid.v) are the
     arguments own and fauto; the response on a given grid is ModelFreq.v;
   - cmod, angle are np.abs and np.angle, unwrap is np.unwrap of one list, log10, exp10, flr as in ModelGrid.v;
     junk is what np.empty_like leaves at a position; a sample that is nan or inf is None. *)
From mathcomp Require Import all_ssreflect all_algebra.
From Coq Require Import String.
From Verif Require Import Base ModelState ModelTransfer ModelFreq ModelGrid.

Set Implicit Arguments.
Unset Strict Implicit.
Unset Printing Implicit Defensive.

Import Order.Theory GRing.Theory Num.Theory.
Local Open Scope ring_scope.

(* a loop that collects results *)
Fixpoint collect (A B : Type) (F : A -> res B) (s : seq A) : res (seq B) :=
  if s is x :: s then do y <- F x; do r <- collect F s; Ok (y :: r) else Ok [::].

Section Plots.
Variables (R : realFieldType) (L : fieldType) (f : {rmorphism R -> L}).
Variables (qr hess : arr R -> arr R * arr R) (ii : L) (expL : L -> L) (twopi : R).

(* a model *)
Inductive psys := PS of state R | PT of tf R.
Definition prows (G : psys) : nat := match G with PS G => spn G | PT G => tp G end.
Definition pcols (G : psys) : nat := match G with PS G => smn G | PT G => tm G end.
Definition pdt (G : psys) : option R := match G with PS G => sdt G | PT G => tdt G end.
Definition pgain (G : psys) : bool := match G with PS G => sgain G | PT G => tgain G end.

(* frequency_response(G, w, w_unit=u, output_unit=u) *)
Definition fresp (G : psys) (w : seq R) (u : string) : res (fr_result R L) :=
  match G with
  | PS G => fr_state f qr hess ii expL twopi G w u u
  | PT G => fr_transfer f ii expL twopi G w u u
  end.
Variable own : psys -> res (seq R).
Variable fauto : psys -> string -> res (fr_result R L).
Variables (log10 exp10 : R -> R) (flr : R -> int).

(* _get_common_freq_grid, lines 64-96.  The body of the loop: w is the grid before the loop touches it, also at line 92 *)
Definition nsamp (g : bool) (x : R) : res nat :=
  if g then Ok 5%N else if - flr (- (x * 15%:R)) is Posz n then Ok n else Err ValueError.
Definition pad (minw maxw : R) (G : psys) (w : seq R) : res (seq R) :=
  let: (w0, w1) := (head 0 w, last 0 w) in
  do low <- (if minw < w0 then
               do n <- nsamp (pgain G) (log10 w0 - log10 minw);
               Ok (logsp exp10 (log10 minw) (log10 w0) n ++ w)
             else Ok w);                                                        (* 77-84 *)
  if (w1 < maxw) && (if pdt G is Some _ then false else true) then
    do n <- nsamp (pgain G) (log10 maxw - log10 w1);
    Ok (w ++ logsp exp10 (log10 w1) (log10 maxw) n)                             (* 88-95 *)
  else Ok low.
Definition common_grid (Gs : seq psys) : res (seq (seq R)) :=
  do W <- collect own Gs;
  guard all (fun w => w != [::]) W else IndexError;
  let minw := foldr Num.min (head 0 (head [::] W)) [seq head 0 w | w <- W] in
  let maxw := foldr Num.max (last 0 (head [::] W)) [seq last 0 w | w <- W] in
  collect (fun x => pad minw maxw x.1 x.2) (zip Gs W).

(* lines 174-199, 337-350: the grid of the loop.  w is assigned in the first iteration and is not None afterwards *)
Definition plot_grid (Gs : seq psys) (w : option (seq R)) (u : string) : res (option (seq R)) :=
  if w is Some w then Ok (Some w)
  else if (1 < size Gs)%N then
    do W <- common_grid Gs;
    let w := head [::] W in
    Ok (Some (if (u =? "Hz")%string then [seq x / twopi | x <- w] else w))
  else Ok None.
Definition respond (w : option (seq R)) (u : string) (G : psys) : res (fr_result R L) :=
  if w is Some w then fresp G w u else fauto G u.

(* a curve: system, row and column of the axes, abscissae, ordinates (None is nan) *)
Definition curve := (nat * nat * nat * seq R * seq (option R))%type.

Section Bode.
Variables (scale unit_ : R) (cmod angle : L -> R) (unwrap : seq R -> seq R) (junk : nat -> R).

(* lines 201-202: zero samples become nan *)
Definition denan (v : option L) : option L := if v is Some x then (if x == 0 then None else v) else None.
Definition magn (v : option L) : option R := omap (fun x => scale * log10 (cmod x)) (denan v).

(* lines 205-211: the phases of all channels *)
Definition chan (fre : seq (seq (seq (option L)))) (i j : nat) : seq (option L) := nth [::] (nth [::] fre i) j.
Definition phases (fre : seq (seq (seq (option L)))) (i j : nat) : seq (option R) :=
  let flat := [seq denan v | v <- flatten (flatten fre)] in
  let pha : seq R :=
    if has (fun v => ~~ isSome v) flat then                                     (* 206-207 *)
      let u := unwrap [seq angle x | x <- pmap id flat] in
      let pos := (sumn [seq sumn [seq size c | c <- row] | row <- take i fre] + sumn [seq size c | c <- take j (nth [::] fre i)])%N in
      mkseq (fun k => let q := (pos + k)%N in
                      if nth None flat q is Some _ then nth 0 u (count isSome (take q flat)) else junk q) (size (chan fre i j))
    else unwrap [seq angle x | x <- pmap id (chan fre i j)] in                  (* 209 *)
  [seq Some (unit_ * x) | x <- pha].

(* lines 215-229 *)
Definition bode_curves (ind : nat) (G : psys) (r : fr_result R L) : res (seq curve) :=
  let: (fre, ww) := r in
  do cs <- collect (fun rc : nat * nat =>
        let: (row, col) := rc in
        let: (m, p) := ([seq magn v | v <- chan fre row col], phases fre row col) in
        guard (size m == size ww) && (size p == size ww) else ValueError;
        Ok [:: (ind, (2 * row)%N, col, ww, m); (ind, (2 * row).+1, col, ww, p)])
      [seq (row, col) | col <- iota 0 (pcols G), row <- iota 0 (prows G)];
  Ok (flatten cs).

(* bode_plot(Gs, w, use_hz=(u is Hz)); zip(syslist, style) ends with the shorter list *)
Definition bode_plot (Gs : seq psys) (w : option (seq R)) (u : string) (nsty : nat) : res (seq curve) :=
  guard (0 < size Gs)%N else ValueError;                                             (* np.max of an empty array *)
  do w <- plot_grid Gs w u;
  do cs <- collect (fun x : nat * psys => do r <- respond w u x.2; bode_curves x.1 x.2 r)
                   (take nsty (zip (iota 0 (size Gs)) Gs));
  Ok (flatten cs).
End Bode.

(* nyquist_plot: the curve and its mirror image; points are complex numbers (re, im), None is nan *)
Section Nyquist.
Variables (re im : L -> R).
Definition ncurve := (nat * nat * nat * seq (option (R * R)))%type.
Definition nyquist_curves (ind : nat) (G : psys) (r : fr_result R L) : seq ncurve :=
  flatten [seq let: (row, col) := rc in let c := nth [::] (nth [::] r.1 row) col in
    [:: (ind, row, col, [seq omap (fun x => (re x, im x)) v | v <- c]);
        (ind, row, col, [seq omap (fun x => (re x, - im x)) v | v <- c]);
        (ind, row, col, [:: Some (-1, 0)])]
   | rc <- [seq (row, col) | col <- iota 0 (pcols G), row <- iota 0 (prows G)]].
Definition nyquist_plot (Gs : seq psys) (w : option (seq R)) (u : string) (nsty : nat) : res (seq ncurve) :=
  guard (0 < size Gs)%N else ValueError;
  do w <- plot_grid Gs w u;
  do cs <- collect (fun x : nat * psys => do r <- respond w u x.2; Ok (nyquist_curves x.1 x.2 r))
                   (take nsty (zip (iota 0 (size Gs)) Gs));
  Ok (flatten cs).
End Nyquist.
End Plots.
