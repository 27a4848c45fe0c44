(* Model of cancellation_distance, /repo/harold/_system_funcs.py lines 225-294.  Definitions only.

   Simplifications:
   - exact arithmetic over a numerically closed field C (the complex numbers); F and G are arrays over C;
   - the orthonormal columns computed by qr from random numbers are the argument rndq, by size; eig (the eigenvalues and the
     array of eigenvectors), cond and svdvals are the arguments eig, cond and svdvals;
   - an entry of upp0 whose denominator is zero is None (inf or nan in numpy, which argsort puts last);
   - e_i(n, slice) is written as the columns of the identity (ModelAux.v models e_i);
   - for an F without rows svdvals is empty and [-1] raises IndexError. *)
From mathcomp Require Import all_ssreflect all_algebra.
From Verif Require Import Base.

Set Implicit Arguments.
Unset Strict Implicit.
Unset Printing Implicit Defensive.

Import GRing.Theory Num.Theory.
Local Open Scope ring_scope.

Section Cancel.
Variable C : numClosedFieldType.
Variable rndq : nat -> nat -> arr C.
Variable eig : arr C -> seq C * arr C.
Variable cond : arr C -> C.
Variable svdvals : arr C -> seq C.

(* norm of a vector, lines 284 *)
Definition vnorm (v : arr C) : C := sqrtC (sumN (nr v) (fun i => `|get v i 0| ^+ 2)).

(* the arrays A, B, D of lines 271-274 *)
Definition cd_A (F G : arr C) : arr C := aT (ahcat F G).
Definition cd_B (n m : nat) : arr C := mk n m (fun i j => (i == j)%:R).
Definition cd_D (n m : nat) : arr C := mk n (n - m) (fun i j => (i == (m + j)%N)%:R).

(* upp0[x], lines 278-284 *)
Definition cd_upp0 (n m : nat) (Q V : arr C) (evals : seq C) (x : nat) : option C :=
  let X := asubm V 0 m x x.+1 in
  let Y := asubm V m n x x.+1 in
  let d := vnorm X in
  if d == 0 then None
  else Some (vnorm (amul (asub Q (ascale (nth 0 evals x) (cd_D n m))) Y) / d).

(* np.argsort(upp0)[0], line 286 *)
Definition argmin (s : seq (option C)) : nat :=
  if pmap id s is v :: vs then seq.index (Some (foldr Num.min v vs)) s else 0%N.

(* the matrix whose smallest singular value is upper2 when p is e_f, line 289 *)
Definition cd_pencil (F G : arr C) (p : C) : arr C :=
  asub (cd_A F G) (ascale p (cd_B (nr F + nc G) (nr F))).

(* [A C], line 276 *)
Definition cd_square (F G : arr C) : arr C := ahcat (cd_A F G) (rndq (nr F + nc G) (nc G)).

(* upper2, upper1, lower0, e_f, radius *)
Record cdist := CDist { upper2 : C; upper1 : option C; lower0 : C; e_f : C; radius : C }.

Definition cancellation_distance (F G : arr C) : res cdist :=
  guard nr F == nc F else ValueError;
  guard nr F == nr G else ValueError;
  let n := (nr F + nc G)%N in let m := nr F in
  let: (evals, V) := eig (cd_square F G) in
  let K := cond V in
  let upp0 := [seq cd_upp0 n m (rndq n (n - m)) V evals x | x <- iota 0 n] in
  let f := argmin upp0 in
  let e := nth 0 evals f in
  let sv := svdvals (cd_pencil F G e) in
  guard m != 0%N else IndexError;
  let u2 := last 0 sv in
  Ok (CDist u2 (nth None upp0 f) (u2 / (K + 1)) e (u2 * K)).
End Cancel.
