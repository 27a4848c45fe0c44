(* Model of state_to_transfer, /repo/harold/_classes.py, lines 2766-2895, for State arguments and
   output='system'.  Definitions only.

   Simplifications:
   - exact arithmetic; L stands for the complex numbers, f embeds the reals, re is the real part and
     absL the modulus;
   - eigvals, transmission_zeros and lstsq are arguments;
   - tuple arguments and output='polynomials' (which returns the arguments of the last call) are not modelled. *)
From mathcomp Require Import all_ssreflect all_algebra.
From Verif Require Import Base ModelPoly ModelState ModelTransfer.

Set Implicit Arguments.
Unset Strict Implicit.
Unset Printing Implicit Defensive.

Import GRing.Theory Num.Theory.
Local Open Scope ring_scope.

Section Convert.
Variables (R : realFieldType) (L : fieldType) (f : {rmorphism R -> L}).
Variables (re : L -> R) (absL : L -> R) (eig : arr R -> seq L) (tz : arr R -> arr R -> arr R -> seq L).
Variable lsq : arr R -> arr R -> arr R.
Variable lcmf : seq (row R) -> res (row R * seq (row R)).
Variable eps : R.

(* np.max of moduli, at least 1/2, times two: lines 2857 and 2860 *)
Definition stt_s0 (xs : seq L) : R :=
  Num.max (foldr (fun x a => Num.max (absL x) a) 0 xs) (1 / 2%:R) * 2%:R.

(* one entry, lines 2842-2882 *)
Definition stt_entry (A b c : arr R) (d : R) (pp : seq L) (den : row R) : res (row R * row R) :=
  let zz := tz A b c in
  guard (pp ++ zz) != [::] else ValueError;                   (* max() of an empty array *)
  let s0 := stt_s0 (pp ++ zz) in                              (* 2857, 2860 *)
  let zero_prod := if zz == [::] then 1 else re (foldr (fun z a => (f s0 - z) * a) 1 zz) in
  let cab := get (amul c (lsq (asub (ascale s0 (aeye (nr A))) A) b)) 0 0 in   (* 2863 *)
  let pole_prod := re (foldr (fun p a => (f s0 - p) * a) 1 pp) in
  let gain := cab * pole_prod / zero_prod in
  do num <- (if zz == [::] then Ok [:: gain]
             else np_convolve [:: gain] [seq re x | x <- haroldpoly zz]);     (* 2871-2875 *)
  do num <- haroldpolyadd [:: num; [seq d * x | x <- den]] true;              (* 2876 *)
  if num == [::] then Ok ([:: 0], [:: 1]) else Ok (num, den).                 (* 2877-2880 *)

(* lines 2825-2895 *)
Definition state_to_transfer (G : state R) : res (tf R) :=
  if sgain G then mk_tf lcmf eps (TArr (sd G)) TNone (sdt G)                  (* 2828 *)
  else
    let A := sa G in
    let p := nr (sc G) in let m := nc (sb G) in
    let pp := eig A in
    let den := [seq re x | x <- haroldpoly pp] in                             (* 2836 *)
    do es <- gridR p m (fun i j =>
      stt_entry A (asubm (sb G) 0 (nr (sb G)) j j.+1) (asubm (sc G) i i.+1 0 (nc (sc G))) (get (sd G) i j) pp den);
    let N := grid p m (fun i j => (nth ([::], [::]) (nth [::] es i) j).1) in
    let D := grid p m (fun i j => (nth ([::], [::]) (nth [::] es i) j).2) in
    let siso := (p, m) == (1, 1)%N in
    mk_tf lcmf eps (pm_arg siso N) (pm_arg siso D) (sdt G).

End Convert.
