(* Model of /repo/harold/_static_ctrl_design.py: ackermann and lqr for State models.  Definitions only.
   np.linalg.svd is the argument npsvd, np.spacing(1.) the argument spac, scipy's solve_continuous_are and
   solve_discrete_are the argument ric, scipy.linalg.eigvals the argument eigvals. *)
From mathcomp Require Import all_ssreflect all_algebra.
From Coq Require Import String Ascii.
From Verif Require Import Base ModelState ModelAux ModelKalman.

Set Implicit Arguments.
Unset Strict Implicit.
Unset Printing Implicit Defensive.

Import GRing.Theory Num.Theory.
Local Open Scope ring_scope.

(* str.lower() on ASCII *)
Definition lower1 (c : ascii) : ascii :=
  let n := nat_of_ascii c in if (65 <= n <= 90)%N then ascii_of_nat (n + 32) else c.
Fixpoint lower (s : string) : string :=
  if s is String c s' then String (lower1 c) (lower s') else EmptyString.
(* w in s, for strings: w is a substring of s *)
Definition substring_of (w s : string) : bool := isSome (index 0 w s).

Section Ctrl.
Variable R : realFieldType.
Variable npsvd : arr R -> arr R * seq R * arr R.
Variable spac : R.

(* an entry of the list of pole locations *)
Inductive pole := PReal of R | PComplex of R & R.
(* array(loc, dtype=float) of a list: TypeError for complex entries *)
Definition as_float (loc : seq pole) : res (seq R) :=
  if all (fun z => if z is PReal _ then true else false) loc
  then Ok [seq (if z is PReal x then x else 0) | z <- loc] else Err TypeError.

(* np.poly of a 1-D array: convolution with [1, -z], zero by zero *)
Definition np_poly (zs : seq R) : seq R := foldl (fun a z => convolve a [:: 1; - z]) [:: 1] zs.

(* the loop  pmat += p[pow_a] * matrix_power(A, pow_a),  pow_a = k, k+1, ..., k+fuel-1 *)
Fixpoint ack_loop (A : arr R) (p : seq R) (pmat : arr R) (k fuel : nat) : res (arr R) :=
  if fuel is f.+1 then
    guard (k < size p)%N else IndexError;
    ack_loop A p (aadd pmat (ascale (nth 0 p k) (apow A k))) k.+1 f
  else Ok pmat.

(* ackermann, lines 162-191 *)
Definition ackermann (g : sarg R) (loc : seq pole) : res (arr R) :=
  do (A, B) <- get_ab g;
  let n := nr A in
  guard nc B == 1%N else ValueError;
  do loc <- as_float loc;
  do (Cc, _, r) <- controllability_matrix npsvd spac (Tup [:: A; B]) false;
  guard ~~ (r < nr Cc)%N else ValueError;
  guard loc != [::] else TypeError;                         (* np.poly([]) is the float 1.0 *)
  let p := rev (np_poly loc) in
  do pmat <- ack_loop A p (azeros n n) 0 n.+1;
  do X <- np_solve Cc pmat;
  guard (0 < nr X)%N else IndexError;
  Ok (arows X [:: (nr X).-1]).

(* scipy Riccati solvers: discrete?, a, b, q, r, s *)
Variable ric : bool -> arr R -> arr R -> arr R -> arr R -> option (arr R) -> res (arr R).
Variables (E : Type) (eigvals : arr R -> E).

(* K, lines 126-130 *)
Definition lqr_gain (disc : bool) (a b X Rw : arr R) (Sw : option (arr R)) : res (arr R) :=
  let BX := amul (aT b) X in
  let lhs := if disc then np_add (amul BX b) Rw else Ok Rw in
  let rhs0 := if disc then amul BX a else BX in
  do l <- lhs;
  do r <- (if Sw is Some s then np_add rhs0 (aT s) else Ok rhs0);
  np_solve l r.

(* lqr for State models, lines 76-132 *)
Definition lqr (G : state R) (Q : arr R) (Rw Sw : option (arr R)) (weight_on : string) : res (arr R * arr R * E) :=
  guard ~~ sgain G else ValueError;
  guard substring_of (lower weight_on) "state, output" else ValueError;
  let n := snn G in let m := smn G in let p := spn G in
  let disc := isSome (sdt G) in
  let Rw := odflt (aeye m) Rw in
  do (Q, Rw, Sw) <-
    (if String.eqb weight_on "output" then
       guard (nr Q == p) && (nr Q == nc Q) else ValueError;
       guard (nr Rw == m) && (nr Rw == nc Rw) else ValueError;
       let mat := ablock (sc G) (sd G) (azeros m n) (aeye m) in
       do fact <- (if Sw is Some s then
                     guard shp s == (p, m) else ValueError;
                     Ok (ablock Q s (aT s) Rw)
                   else Ok (adiag2 Q Rw));
       let fact := amul (amul (aT mat) fact) mat in
       do (Q', S', _, R') <- matrix_slice fact m m "se";
       Ok (Q', R', Some S')
     else Ok (Q, Rw, Sw));
  do X <- ric disc (sa G) (sb G) Q Rw Sw;
  do K <- lqr_gain disc (sa G) (sb G) X Rw Sw;
  Ok (K, X, eigvals (asub (sa G) (amul (sb G) K))).

End Ctrl.
