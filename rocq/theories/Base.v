(* Python-level results, dynamic 2-D arrays and the numpy/scipy primitives that
   the modelled code uses.  Definitions only; the lemmas are in BaseTheory.v. *)
From mathcomp Require Import all_ssreflect all_algebra.

Set Implicit Arguments.
Unset Strict Implicit.
Unset Printing Implicit Defensive.

Import GRing.Theory.
Local Open Scope ring_scope.

(* ------------------------------------------------------------------ *)
(* Exceptions as values.                                                *)

Inductive exc :=
  ValueError | IndexError | TypeError | AttributeError | LinAlgError
| RecursionError | UnboundLocalError | NameError | ZeroDivisionError.

Inductive res (A : Type) := Ok of A | Err of exc.
Arguments Ok {A}. Arguments Err {A}.

Definition bind {A B : Type} (x : res A) (k : A -> res B) : res B :=
  match x with Ok a => k a | Err e => Err e end.

Notation "'do' x <- e ; k" := (bind e (fun x => k))
  (at level 200, x pattern, e at level 100, k at level 200,
   format "'do'  x  <-  e ; '//' k").
Notation "'guard' b 'else' e ; k" := (if b then k else Err e)
  (at level 200, b at level 100, e at level 100, k at level 200,
   format "'guard'  b  'else'  e ; '//' k").

Definition is_ok {A} (x : res A) := if x is Ok _ then true else false.

Definition res_map {A B : Type} (h : A -> B) (x : res A) : res B :=
  if x is Ok a then Ok (h a) else
  match x with Err e => Err e | Ok a => Ok (h a) end.

(* ------------------------------------------------------------------ *)
(* numpy 2-D arrays: run-time shape plus rows.                          *)

Section Arr.
Variable F : fieldType.

Record arr := Arr { nr : nat; nc : nat; dat : seq (seq F) }.

Definition get (A : arr) (i j : nat) : F := nth 0 (nth [::] (dat A) i) j.

Definition mk (m n : nat) (g : nat -> nat -> F) : arr :=
  Arr m n (mkseq (fun i => mkseq (g i) n) m).

(* well-formed: the rows agree with the shape *)
Definition wfa (A : arr) : bool :=
  (size (dat A) == nr A) && all (fun r => size r == nc A) (dat A).

Definition shp (A : arr) := (nr A, nc A).
Definition asize (A : arr) := (nr A * nc A)%N.

(* finite sums as an executable loop *)
Definition sumN (n : nat) (g : nat -> F) : F :=
  foldr (fun k acc => g k + acc) 0 (iota 0 n).

(* np.zeros, np.eye, np.ones, np.full *)
Definition azeros m n := mk m n (fun _ _ => 0).
Definition aeye n := mk n n (fun i j => (i == j)%:R).
Definition aones m n := mk m n (fun _ _ => 1).

(* A.T *)
Definition aT (A : arr) := mk (nc A) (nr A) (fun i j => get A j i).

(* elementwise *)
Definition amap (h : F -> F) (A : arr) := mk (nr A) (nc A) (fun i j => h (get A i j)).
Definition aneg A := amap (fun x => - x) A.
Definition ascale (c : F) A := amap (fun x => c * x) A.
Definition aadd (A B : arr) :=
  mk (nr A) (nc A) (fun i j => get A i j + get B i j).
Definition asub (A B : arr) :=
  mk (nr A) (nc A) (fun i j => get A i j - get B i j).

(* numpy elementwise binary operation with 2-D broadcasting *)
Definition bdim (x y : nat) : option nat :=
  if x == y then Some x else if x == 1%N then Some y else if y == 1%N then Some x else None.
Definition bidx (x i : nat) : nat := if x == 1%N then 0%N else i.
Definition np_op2 (h : F -> F -> F) (A B : arr) : res arr :=
  match bdim (nr A) (nr B), bdim (nc A) (nc B) with
  | Some m, Some n =>
      Ok (mk m n (fun i j => h (get A (bidx (nr A) i) (bidx (nc A) j))
                               (get B (bidx (nr B) i) (bidx (nc B) j))))
  | _, _ => Err ValueError
  end.
Definition np_add := np_op2 (fun x y => x + y).
Definition np_sub := np_op2 (fun x y => x - y).
Definition np_mul := np_op2 (fun x y => x * y).

(* A @ B *)
Definition amul (A B : arr) :=
  mk (nr A) (nc B) (fun i j => sumN (nc A) (fun k => get A i k * get B k j)).
Definition np_matmul (A B : arr) : res arr :=
  if nc A == nr B then Ok (amul A B) else Err ValueError.

(* np.hstack / np.vstack / np.block of 2-D arrays *)
Definition ahcat (A B : arr) :=
  mk (nr A) (nc A + nc B)
     (fun i j => if (j < nc A)%N then get A i j else get B i (j - nc A)).
Definition avcat (A B : arr) :=
  mk (nr A + nr B) (nc A)
     (fun i j => if (i < nr A)%N then get A i j else get B (i - nr A) j).
Definition np_hstack A B : res arr :=
  if nr A == nr B then Ok (ahcat A B) else Err ValueError.
Definition np_vstack A B : res arr :=
  if nc A == nc B then Ok (avcat A B) else Err ValueError.
Definition ablock A B C D := avcat (ahcat A B) (ahcat C D).

(* scipy.linalg.block_diag of two / many arrays *)
Definition adiag2 (A B : arr) :=
  ablock A (azeros (nr A) (nc B)) (azeros (nr B) (nc A)) B.
Definition adiag (s : seq arr) : arr := foldr adiag2 (azeros 0 0) s.

(* np.kron *)
Definition akron (A B : arr) :=
  mk (nr A * nr B) (nc A * nc B)
     (fun i j => get A (i %/ nr B) (j %/ nc B) * get B (i %% nr B) (j %% nc B)).

(* A[r0:r1, c0:c1] for in-range bounds *)
Definition asubm (A : arr) r0 r1 c0 c1 :=
  mk (r1 - r0) (c1 - c0) (fun i j => get A (r0 + i) (c0 + j)).
(* A[rows, :] and A[:, cols] for index lists *)
Definition arows (A : arr) (rs : seq nat) :=
  mk (size rs) (nc A) (fun i j => get A (nth 0%N rs i) j).
Definition acols (A : arr) (cs : seq nat) :=
  mk (nr A) (size cs) (fun i j => get A i (nth 0%N cs j)).

(* np.any(A) : some entry is nonzero *)
Definition aany (A : arr) : bool :=
  has (fun i => has (fun j => get A i j != 0) (iota 0 (nc A))) (iota 0 (nr A)).

(* equality of arrays, np.array_equal *)
Definition aeq (A B : arr) : bool :=
  (nr A == nr B) && (nc A == nc B) &&
  all (fun i => all (fun j => get A i j == get B i j) (iota 0 (nc A))) (iota 0 (nr A)).

(* Determinant by expansion along the first row (executable). *)
Fixpoint detN (n : nat) (g : nat -> nat -> F) : F :=
  if n is n'.+1 then
    sumN n (fun j => g 0%N j * ((-1) ^+ j *
              detN n' (fun i k => g i.+1 (bump j k))))
  else 1.

Definition adet (A : arr) := detN (nr A) (get A).

(* Adjugate: (-1)^(i+j) times the minor without row j and column i *)
Definition aadj (A : arr) :=
  mk (nr A) (nr A) (fun i j =>
     (-1) ^+ (j + i) * detN (nr A).-1 (fun k l => get A (bump j k) (bump i l))).

Definition ainv (A : arr) := ascale (adet A)^-1 (aadj A).

(* scipy.linalg.solve(A, B): exact arithmetic; LinAlgError iff A is singular;
   ValueError on shape mismatch or non-square A. *)
Definition np_solve (A B : arr) : res arr :=
  if (nr A != nc A) || (nr A != nr B) then Err ValueError
  else if adet A == 0 then Err LinAlgError
  else Ok (amul (ainv A) B).

(* matrix power A^k *)
Fixpoint apow (A : arr) (k : nat) : arr :=
  if k is k'.+1 then amul A (apow A k') else aeye (nr A).

End Arr.

Arguments azeros {F}. Arguments aeye {F}. Arguments aones {F}.
Arguments Arr {F}.

(* from a literal list of rows; the shape is read off (np.array) *)
Definition of_rows (F : fieldType) (s : seq (seq F)) : arr F :=
  Arr (size s) (size (head [::] s)) s.

(* ------------------------------------------------------------------ *)
(* 1-D helpers                                                          *)
Section Seq1.
Variable F : fieldType.

(* np.trim_zeros(p, 'f') *)
Fixpoint trimf (p : seq F) : seq F :=
  if p is c :: q then if c == 0 then trimf q else p else [::].

(* np.polyval: Horner, highest power first *)
Definition polyval (p : seq F) (x : F) : F := foldl (fun acc c => acc * x + c) 0 p.

(* np.convolve (full) *)
Definition convolve (p q : seq F) : seq F :=
  if (p == [::]) || (q == [::]) then [::] else
  mkseq (fun k => sumN k.+1 (fun i => nth 0 p i * nth 0 q (k - i)))
        (size p + size q).-1.

End Seq1.
