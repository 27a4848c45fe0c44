(* Model of hessenberg_realization, /repo/harold/_system_funcs.py lines 126-217, and of frequency_response
   for a user-given frequency list, /repo/harold/_frequency_domain.py.  Definitions only.

   Simplifications:
   - exact arithmetic; scipy.linalg.qr is the argument qr (Q and R), scipy.linalg.hessenberg(., calc_q=True)
     the argument hess (H and Q);
   - L stands for the complex numbers with the embedding f of the reals and the imaginary unit ii; np.exp is
     the argument expL, 2 pi the argument twopi;
   - a sample that is inf or nan is None;
   - frequency_response is modelled for use_minreal=False and w given as a list of numbers; for the
     automatic grid (w=None) see ModelGrid.v. *)
From mathcomp Require Import all_ssreflect all_algebra.
From Coq Require Import String.
From Verif Require Import Base ModelPoly ModelState ModelTransfer ModelCtrl.

Set Implicit Arguments.
Unset Strict Implicit.
Unset Printing Implicit Defensive.

Import GRing.Theory Num.Theory.
Local Open Scope ring_scope.

(* np.flipud, np.fliplr *)
Definition aflipud (F : fieldType) (A : arr F) : arr F := mk (nr A) (nc A) (fun i j => get A ((nr A).-1 - i) j).
Definition afliplr (F : fieldType) (A : arr F) : arr F := mk (nr A) (nc A) (fun i j => get A i ((nc A).-1 - j)).

Section Hess.
Variable R : realFieldType.
Variable qr : arr R -> arr R * arr R.
Variable hess : arr R -> arr R * arr R.

(* _system_funcs.py lines 183-204: ah, bh, ch, T; formo is  form == 'o' *)
Definition hess_core (a b c : arr R) (formo invert : bool) : arr R * arr R * arr R * arr R :=
  let: (a, b, c) := if formo then (aT a, aT c, aT b) else (a, b, c) in
  let: (qq, bh) := qr b in
  let ab := amul (amul (aT qq) a) qq in
  let cb := amul c qq in
  let: (ah, qh) := hess ab in
  let ch := amul cb qh in
  let T := amul qq qh in
  let: (ah, bh, ch, T) :=
    if invert then (afliplr (aflipud ah), aflipud bh, afliplr ch, aflipud T) else (ah, bh, ch, T) in
  if formo then (aT ah, aT ch, aT bh, T) else (ah, bh, ch, T).

(* hessenberg_realization(G, compute_T=True, form, invert) for a State model with states; without compute_T
   only the first component is returned *)
Definition hessenberg_realization (G : state R) (formo invert : bool) : res (state R * arr R) :=
  let: (ah, bh, ch, T) := hess_core (sa G) (sb G) (sc G) formo invert in
  do K <- mk_state (Some ah) (Some bh) (Some ch) None (sdt G);
  Ok (K, T).
End Hess.

Section Freq.
Variables (R : realFieldType) (L : fieldType) (f : {rmorphism R -> L}).
Variable qr : arr R -> arr R * arr R.
Variable hess : arr R -> arr R * arr R.
Variables (ii : L) (expL : L -> L) (twopi : R).

(* _State_freq_resp, lines 151-157: one frequency.  U is [sI - A | B]. *)
Definition fr_start (mA mb : arr R) (s : L) : arr L :=
  mk (nr mA) (nr mA + nc mb)
     (fun i j => if (j < nr mA)%N then - f (get mA i j) + (if i == j then s else 0) else f (get mb i (j - nr mA))).
Definition fr_step (U : arr L) (x : nat) : arr L :=
  mk (nr U) (nc U) (fun i j => if (i == x) && (x <= j)%N
    then get U x j - get U x x.-1 / get U x.-1 x.-1 * get U x.-1 j else get U i j).
Fixpoint fr_elim (U : arr L) (x cnt : nat) : option (arr L) :=
  if cnt is c.+1 then
    if get U x.-1 x.-1 == 0 then None else fr_elim (fr_step U x) x.+1 c
  else Some U.
Definition state_freq_resp (mA mb : arr R) (sc : R) (s : L) : option (seq L) :=
  let n := nr mA in
  obind (fun U => if get U n.-1 n.-1 == 0 then None
                  else Some [seq get U n.-1 (n + k) / get U n.-1 n.-1 * f sc | k <- iota 0 (nc mb)])
        (fr_elim (fr_start mA mb s) 1 n.-1).

(* the point of the complex plane, lines 98-100 and 153 *)
Definition fr_point (dt : option R) (w : R) : L :=
  if dt is Some h then expL (f (h * w) * ii) else f w * ii.

(* np.max of a nonempty list *)
Definition lmax (w : seq R) : R := foldr Num.max (head 0 w) w.

(* _get_freq_grid with a user grid and ou = 'rad/s', lines 190-215 and 338-341 *)
Definition freq_grid (w : seq R) (iu : string) (dt : option R) : res (seq R) :=
  let wu := if (iu =? "Hz")%string then [seq x * twopi | x <- w] else w in
  if dt is Some h then
    guard wu != [::] else ValueError;                      (* np.max of an empty array *)
    let nyq := twopi / 2%:R / h in
    let wo := if nyq < lmax wu then [seq x <- wu | x <= nyq] else wu in
    guard wo != [::] else ValueError;
    Ok wo
  else Ok wu.

(* lines 50-53 *)
Definition unit_ok (u : string) : bool := (lower u =? "hz")%string || (lower u =? "rad/s")%string.

(* the returned array indexed [row][column][frequency], and the returned grid; the squeezing of SISO results
   to one dimension is not modelled *)
Definition fr_result := (seq (seq (seq (option L))) * seq R)%type.
Definition out_grid (ou : string) (w : seq R) : seq R :=
  if (ou =? "rad/s")%string then w else [seq x / twopi | x <- w].      (* 114: w/2/pi *)

(* frequency_response(G, w, w_unit=iu, output_unit=ou) for a State model, lines 48-96, 114 *)
Definition fr_state (G : state R) (w : seq R) (iu ou : string) : res fr_result :=
  guard unit_ok iu && unit_ok ou else ValueError;
  do w <- freq_grid w iu (sdt G);
  let fr :=
    if sgain G then
      mkseq (fun i => mkseq (fun j => nseq 2 (Some (f (get (sd G) i j)))) (smn G)) (spn G)     (* 62, 67 *)
    else
      mkseq (fun i =>
        let: (aa, bb, cc, _) := hess_core qr hess (sa G) (sb G) (arows (sc G) [:: i]) true true in
        let rs := [seq state_freq_resp aa bb (get cc 0 (nc cc).-1) (fr_point (sdt G) x) | x <- w] in   (* 84 *)
        mkseq (fun j =>
          [seq omap (fun r => nth 0 r j + (if aany (sd G) then f (get (sd G) i j) else 0)) r | r <- rs])  (* 87 *)
          (smn G)) (spn G) in
  Ok (fr, out_grid ou w).

(* polyval(num, x)/polyval(den, x) *)
Definition fr_quot (num den : seq R) (x : L) : option L :=
  let d := polyval [seq f c | c <- den] x in
  if d == 0 then None else Some (polyval [seq f c | c <- num] x / d).

(* the same for a Transfer model, lines 48-69, 97-114 *)
Definition fr_transfer (G : tf R) (w : seq R) (iu ou : string) : res fr_result :=
  guard unit_ok iu && unit_ok ou else ValueError;
  do w <- freq_grid w iu (tdt G);
  do fr <-
    (if tgain G then
       if tSISO G then Ok [:: [:: nseq 2 (Some (f (head 0 (ent (tn G) 0 0))))]]               (* 60 *)
       else
         do A <- tf_array G;
         Ok (mkseq (fun i => mkseq (fun j => nseq 2 (Some (f (get A i j)))) (tm G)) (tp G))     (* 65 *)
     else
       Ok (mkseq (fun i => mkseq (fun j =>
         [seq fr_quot (ent (tn G) i j) (ent (td G) i j) (fr_point (tdt G) x) | x <- w]) (tm G)) (tp G)));
  Ok (fr, out_grid ou w).
End Freq.
