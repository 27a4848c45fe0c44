(* Model of /repo/harold/_aux_linalg.py (except pair_complex_numbers, see ModelPair.v) and of
   concatenate_state_matrices (ModelState.v).  Definitions only. *)
From mathcomp Require Import all_ssreflect all_algebra.
From Coq Require Import String.
From Verif Require Import Base ModelState.

Set Implicit Arguments.
Unset Strict Implicit.
Unset Printing Implicit Defensive.

Import GRing.Theory Num.Theory.
Local Open Scope ring_scope.

Section Aux.
Variable F : fieldType.

(* M[:p, ...] / M[p:, ...] : where numpy cuts x rows for the bound p = z (z may exceed x) and for the
   bound p = x - z (negative if z > x, then counted from the end) *)
Definition cut_pos (x z : nat) : nat := minn z x.
Definition cut_sub (x z : nat) : nat := if (z <= x)%N then (x - z)%N else ((x + x) - z)%N.

(* M[:p, :m], M[:p, m:], M[p:, :m], M[p:, m:] *)
Definition slice4 (M : arr F) (p m : nat) : arr F * arr F * arr F * arr F :=
  (asubm M 0 p 0 m, asubm M 0 p m (nc M), asubm M p (nr M) 0 m, asubm M p (nr M) m (nc M)).

(* matrix_slice, lines 366-441 *)
Definition matrix_slice (M : arr F) (z w : nat) (corner : string) : res (arr F * arr F * arr F * arr F) :=
  let x := nr M in let y := nc M in
  if String.eqb corner "nw" then Ok (slice4 M (cut_pos x z) (cut_pos y w))
  else if String.eqb corner "ne" then Ok (slice4 M x (cut_sub y w))       (* p, m = x, y - w *)
  else if String.eqb corner "sw" then Ok (slice4 M (cut_sub x z) (cut_pos y w))
  else if String.eqb corner "se" then Ok (slice4 M (cut_sub x z) (cut_sub y w))
  else Err ValueError.

(* A[i, j] = v *)
Definition aset (A : arr F) (i j : nat) (v : F) : arr F :=
  mk (nr A) (nc A) (fun i' j' => if (i' == i) && (j' == j) then v else get A i' j').

(* e_i, lines 304-363.  idx is np.arange(width)[nth] with slices and negative indices already
   resolved by numpy; an index that is out of range is an IndexError. *)
Definition e_i (width : nat) (idx : seq nat) (output : string) : res (arr F) :=
  guard all (fun x => (x < width)%N) idx else IndexError;
  let m := size idx in
  if String.eqb output "c" then
    Ok (foldl (fun E k => aset E (nth 0%N idx k) k 1) (azeros width m) (iota 0 m))
  else
    Ok (foldl (fun E k => aset E k (nth 0%N idx k) 1) (azeros m width) (iota 0 m)).

End Aux.

Section Svd.
Variable R : realFieldType.

(* np.linalg.svd(A, full_matrices=True): (u, s, vh) *)
Variable npsvd : arr R -> arr R * seq R * arr R.
(* np.spacing(1.) *)
Variable spac : R.

Definition smax (s : seq R) : R := foldr Num.max 0 s.

(* haroldsvd(A, also_rank=True, rank_tol), lines 71-88 *)
Definition haroldsvd (A : arr R) (rank_tol : option R) : res (arr R * arr R * arr R * nat) :=
  let p := nr A in let m := nc A in
  let: (u, s, v) := npsvd A in
  let diags := mk p m (fun i j => if i == j then nth 0 s i else 0) in
  do tol <- (if rank_tol is Some t then Ok t
             else if s == [::] then Err ValueError          (* s.max() *)
             else Ok (smax s * (maxn p m)%:R * spac));
  Ok (u, diags, v, count (fun x => tol < x) s).

(* haroldker, lines 118-145 *)
Definition haroldker (N : arr R) (side : string) : res (arr R) :=
  guard String.eqb side "left" || String.eqb side "right" else ValueError;
  let A := if String.eqb side "left" then aT N else N in
  let m := nr A in let n := nc A in
  if (asize A <= 1)%N then Ok (azeros 1 1)
  else
    do (u, s, V, r) <- haroldsvd A None;
    if (r == minn m n) && (n <= m)%N then Ok (azeros n 1)
    else Ok (asubm V 0 (nr V) r (nc V)).

(* What numpy promises: orthogonal factors, nonnegative nonincreasing singular values, A = u diag(s) vh *)
Definition npsvd_ok (A : arr R) (usv : arr R * seq R * arr R) : Prop :=
  let: (u, s, v) := usv in
  [/\ [/\ wfa u, shp u = (nr A, nr A), wfa v & shp v = (nc A, nc A)],
      amul (aT u) u = aeye (nr A), amul v (aT v) = aeye (nc A),
      [/\ size s = minn (nr A) (nc A), all (fun x => 0 <= x) s & sorted (fun x y => y <= x) s]
    & A = amul u (amul (mk (nr A) (nc A) (fun i j => if i == j then nth 0 s i else 0)) v)].

End Svd.
