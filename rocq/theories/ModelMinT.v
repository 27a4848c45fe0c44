(* Model of minimal_realization for Transfer models, /repo/harold/_system_funcs.py lines 345-352 and 424-532.
   Definitions only.

   Simplifications:
   - exact arithmetic; np.roots is the argument rts and np.sqrt in np.abs the argument sq;
   - a division by a vanishing leading coefficient (nan in numpy) is reported as ZeroDivisionError;
   - roots that are not closed under conjugation, for which np.poly returns complex coefficients, are reported as
     TypeError. *)
From mathcomp Require Import all_ssreflect all_algebra.
From Verif Require Import Base ModelPoly ModelState ModelTransfer Cplx.

Set Implicit Arguments.
Unset Strict Implicit.
Unset Printing Implicit Defensive.

Import GRing.Theory Num.Theory.
Local Open Scope ring_scope.

Section MinT.
Variable R : realFieldType.
Variable rts : row R -> seq (cpl R).
Variable sq : R -> R.
Variable lcmf : seq (row R) -> res (row R * seq (row R)).
Variable eps : R.
Local Notation C := (cpl R).

(* np.abs *)
Definition cabs (x : C) : R := sq (cnorm2 x).

(* np.min and np.argmin of a nonempty array *)
Definition lmin (s : seq R) : R := if s is x :: s' then foldl Num.min x s' else 0.
Definition argmin (s : seq R) : nat := seq.index (lmin s) s.

(* np.delete(plz, i) *)
Definition del (i : nat) (s : seq C) : seq C := take i s ++ drop i.+1 s.

(* one round of the loop, lines 484-530: the poles and the zeros that stay *)
Definition mt_step (tol : R) (z : C) (st : seq C * seq C) : res (seq C * seq C) :=
  let: (plz, safe) := st in
  let near (l : seq C) := lmin [seq cabs (p - z) | p <- l] < tol + tol * cabs z in
  let pos (l : seq C) := argmin [seq cabs (p - z) | p <- l] in
  let cz := 0 < cim z in
  guard plz != [::] else ValueError;                                              (* np.min of an empty array *)
  if near plz then
    let i := pos plz in
    let pz := nth 0 plz i in
    let cp := 0 < cim pz in
    let plz := del i plz in
    if cz && cp then                                                              (* 494-498 *)
      guard conj pz \in plz else IndexError;
      Ok (rem (conj pz) plz, safe)
    else if cz then                                                               (* 500-515 *)
      guard plz != [::] else ValueError;
      if near plz then Ok (del (pos plz) plz, safe)
      else Err TypeError                                                          (* list += number *)
    else if cp then                                                               (* 517-522 *)
      guard conj pz \in plz else IndexError;
      Ok (set_nth 0 plz (seq.index (conj pz) plz) (c_of (cre pz)), safe)
    else Ok (plz, safe)
  else Ok (plz, safe ++ z :: (if cz then [:: conj z] else [::])).

Fixpoint mt_walk (tol : R) (zs : seq C) (st : seq C * seq C) : res (seq C * seq C) :=
  if zs is z :: zs' then do st <- mt_step tol z st; mt_walk tol zs' st else Ok st.

(* np.poly *)
Definition np_poly (s : seq C) : res (row R) :=
  guard perm_eq s (map (@conj R) s) else TypeError;
  Ok [seq cre x | x <- haroldpoly s].

(* _minimal_realization_simplify, lines 453-532 *)
Definition mt_simplify (tol : R) (num den : row R) : res (row R * row R) :=
  guard (num != [::]) && (den != [::]) else IndexError;
  let d0 := head 0 den in
  guard d0 != 0 else ZeroDivisionError;
  if size num == 1%N then Ok ([seq x / d0 | x <- num], [seq x / d0 | x <- den])
  else
    let k := head 0 num / d0 in
    let zrz := rts num in
    let zrz := [seq z <- zrz | cim z == 0] ++ [seq z <- zrz | 0 < cim z] in
    do (plz, safe) <- mt_walk tol zrz (rts den, [::]);
    do n <- np_poly safe;
    do d <- np_poly plz;
    Ok ([seq k * x | x <- n], d).

(* minimal_realization(G, tol) for a Transfer model, lines 345-352 and 424-450 *)
Definition minimal_transfer (tol : R) (G : tf R) : res (tf R) :=
  if tgain G then do A <- tf_array G; mk_tf lcmf eps (TArr A) TNone None
  else
    do es <- gridR (tp G) (tm G) (fun i j => mt_simplify tol (ent (tn G) i j) (ent (td G) i j));
    let N := grid (tp G) (tm G) (fun i j => (nth ([::], [::]) (nth [::] es i) j).1) in
    let D := grid (tp G) (tm G) (fun i j => (nth ([::], [::]) (nth [::] es i) j).2) in
    mk_tf lcmf eps (pm_arg (tSISO G) N) (pm_arg (tSISO G) D) (tdt G).
End MinT.
