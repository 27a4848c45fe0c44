(* Model of system_norm, /repo/harold/_system_props.py lines 15-148.  Definitions only.

   Simplifications:
   - exact arithmetic; np.sqrt is the argument sq, sqrt(spacing(1)) the argument sqeps, the absolute tolerance of
     np.allclose the argument atol, eigvals the argument eigs (real and imaginary parts), abs of a complex number
     the argument cabs, scipy's norm(., ord=2) the argument norm2;
   - the attributes poles and _isstable of the State object are the arguments poles and stable: they are computed
     by the constructor (ModelObject.v);
   - a frequency response that contains inf or nan fails with ValueError at once; the code fails with the same
     exception when scipy.linalg.solve checks the matrix built from it;
   - im/re of a pole on the imaginary axis (possible for a discrete model) is 0 instead of inf or nan; only the
     choice of a starting frequency depends on it. *)
From mathcomp Require Import all_ssreflect all_algebra.
From Coq Require Import String.
From Verif Require Import Base ModelPoly ModelState ModelTransfer ModelFreq ModelLyap.

Set Implicit Arguments.
Unset Strict Implicit.
Unset Printing Implicit Defensive.

Import GRing.Theory Num.Theory.
Local Open Scope ring_scope.

(* the argument p: 2, np.inf, anything else *)
Inductive normp := P2 | PInf | POther.
(* the returned number: np.Inf or a finite one *)
Inductive normv (R : Type) := NInf | NVal of R.
Arguments NInf {R}. Arguments NVal {R}.

Section Norm.
Variables (R : realFieldType) (L : fieldType) (f : {rmorphism R -> L}).
Variables (qr hess : arr R -> arr R * arr R) (ii : L) (expL : L -> L) (twopi : R).     (* frequency_response *)
Variables (tol : R) (schur : arr R -> arr R * arr R) (qz : arr R -> arr R -> arr R * arr R * arr R * arr R).
Variable X0 : nat -> arr R.                      (* np.empty_like in the Lyapunov solvers, by size *)
Variables (sq : R -> R) (atol sqeps : R).
Variable eigs : arr R -> seq (R * R).
Variable cabs : R * R -> R.
Variable norm2 : arr L -> R.
Variable poles : state R -> seq (R * R).
Variable stable : state R -> bool.

(* np.trace of a square array *)
Definition atrace (A : arr R) : R := sumN (nr A) (fun i => get A i i).

(* np.allclose(d, np.zeros_like(d)) *)
Definition azero_like (D : arr R) : bool :=
  all (fun i => all (fun j => `|get D i j| <= atol) (iota 0 (nc D))) (iota 0 (nr D)).

(* p == 2, lines 72-84 *)
Definition norm_2 (T : state R) : res (normv R) :=
  let: (a, b, c, d) := (sa T, sb T, sc T, sd T) in
  if ~~ azero_like d || ~~ stable T then Ok NInf
  else if sdt T is None then
    do x <- lyapunov_eq_solver id tol schur qz (aT a) (amul b (aT b)) None "c" (X0 (nr a));
    Ok (NVal (sq (atrace (amul (amul c x) (aT c)))))
  else
    do x <- lyapunov_eq_solver id tol schur qz (aT a) (amul b (aT b)) None "d" (X0 (nr a));
    Ok (NVal (sq (atrace (aadd (amul (amul c x) (aT c)) (amul d (aT d)))))).

(* np.argmax: the first index of the largest element *)
Definition argmax (s : seq R) : nat := seq.index (lmax s) s.

(* lines 98-103 *)
Definition low_damp (ps : seq (R * R)) : res R :=
  if has (fun x => x.2 != 0) ps then
    Ok (cabs (nth (0, 0) ps (argmax [seq `|x.2 / x.1 / cabs x| | x <- ps])))
  else
    guard ps != [::] else ValueError;                     (* np.min of an empty array *)
    Ok (foldr Num.min (head 0 [seq cabs x | x <- ps]) [seq cabs x | x <- ps]).

(* the response at sample k as a matrix, None if an entry is inf or nan *)
Definition fr_at (T : state R) (fr : seq (seq (seq (option L)))) (k : nat) : option (arr L) :=
  let e i j := nth None (nth [::] (nth [::] fr i) j) k in
  if all (fun i => all (fun j => isSome (e i j)) (iota 0 (smn T))) (iota 0 (spn T))
  then Some (mk (spn T) (smn T) (fun i j => odflt 0 (e i j))) else None.

(* frequency_response(T, w=w, w_unit='rad/s', output_unit='rad/s') and np.max of the norms, lines 105-111, 141-146;
   the number of samples is that of the returned grid *)
Definition peak (T : state R) (w : seq R) : res R :=
  do (fr, wo) <- fr_state f qr hess ii expL twopi T w "rad/s" "rad/s";
  let ms := [seq fr_at T fr k | k <- iota 0 (size wo)] in
  guard all isSome ms else ValueError;
  let ns := [seq norm2 (odflt (azeros 0 0) m) | m <- ms] in
  guard ns != [::] else ValueError;                       (* np.max of an empty array *)
  Ok (lmax ns).

(* the Hamiltonian matrix of step b2, lines 120-129 *)
Definition ham (T : state R) (g : R) : res (arr R) :=
  let: (a, b, c, d) := (sa T, sb T, sc T, sd T) in
  let Rm := asub (amul (aT d) d) (ascale (g ^+ 2) (aeye (nc d))) in
  let Sm := asub (amul d (aT d)) (ascale (g ^+ 2) (aeye (nr d))) in
  do x1 <- np_solve Rm (aT d);
  do x2 <- np_solve Rm (aT b);
  do x3 <- np_solve Sm c;
  let a1 := asub a (amul (amul b x1) c) in
  Ok (ablock a1 (amul (ascale (- g) b) x2) (amul (ascale g (aT c)) x3) (aneg (aT a1))).

(* (w_i[1:] + w_i[:-1]) / 2 *)
Definition midpoints (w : seq R) : seq R := [seq (x.1 + x.2) / 2%:R | x <- zip (behead w) w].

(* lines 116-148; k is the number of passes left *)
Fixpoint hinf_loop (eig_tol : R) (T : state R) (k : nat) (lb : R) : res R :=
  if k is k'.+1 then
    let g := lb * (1 + 2%:R * sqeps) in
    do M <- ham T g;
    let im_eigs := [seq x <- eigs M | `|x.1| <= eig_tol] in
    if im_eigs is [::] then Ok ((lb + g) / 2%:R)
    else
      let w := sort <=%R (undup [seq `|x.2| | x <- im_eigs]) in
      do lb <- peak T (midpoints w);
      hinf_loop eig_tol T k' lb
  else Err UnboundLocalError.                             (* gamma_ub was never assigned *)

(* p = inf, lines 86-148 *)
Definition norm_inf (eig_tol : R) (T : state R) : res (normv R) :=
  if ~~ stable T then Ok NInf
  else
    do w0 <- low_damp (poles T);
    do lb <- peak T [:: 0; w0];
    do v <- hinf_loop eig_tol T 51 (Num.max lb (norm2 (mk (nr (sd T)) (nc (sd T)) (fun i j => f (get (sd T) i j)))));
    Ok (NVal v).

(* system_norm(G, p) for a State model, lines 62-148; hinf_tol is not used by the code *)
Definition system_norm (G : state R) (p : normp) (eig_tol : R) : res (normv R) :=
  match p with
  | POther => Err ValueError
  | P2 => norm_2 G
  | PInf => norm_inf eig_tol G
  end.

(* for a Transfer model, line 68 *)
Definition system_norm_t (lcmf : seq (row R) -> res (row R * seq (row R))) (eps : R)
    (G : tf R) (p : normp) (eig_tol : R) : res (normv R) :=
  if p is POther then Err ValueError
  else do T <- transfer_to_state lcmf eps G; system_norm T p eig_tol.
End Norm.
