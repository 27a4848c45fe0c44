(* Specification of linear simulation: the response of a discrete-time state equation. *)
From mathcomp Require Import all_ssreflect all_algebra.
From Verif Require Import Base ModelState ModelSim.

Set Implicit Arguments.
Unset Strict Implicit.
Unset Printing Implicit Defensive.

Import GRing.Theory Num.Theory.
Local Open Scope ring_scope.

(* A^k *)
Definition mpow (R : ringType) n (A : 'M[R]_n) (k : nat) : 'M[R]_n := iter k (mulmx A) 1%:M.

(* row k of an array (sample k of a signal) as a column vector *)
Definition sample (R : realFieldType) (Y : arr R) (n k : nat) : 'cV[R]_n := \col_j get Y k j.

(* a two-dimensional array as a matrix *)
Definition amx (R : realFieldType) m n (A : arr R) : 'M[R]_(m, n) := \matrix_(i, j) get A i j.

(* the output at time k of  x+ = A x + B u, y = C x + D u  from x0 *)
Definition response (R : realFieldType) n m p (A : 'M[R]_n) (B : 'M[R]_(n, m)) (C : 'M[R]_(p, n))
    (D : 'M[R]_(p, m)) (x0 : 'cV[R]_n) (u : nat -> 'cV[R]_m) (k : nat) : 'cV[R]_p :=
  C *m mpow A k *m x0 + \sum_(j < k) C *m mpow A (k - 1 - j) *m B *m u j + D *m u k.

(* what simulate_linear_system accepts as an N-by-m input with at least two samples *)
Definition as_input (R : realFieldType) (N m : nat) (u : nd R) (U : arr R) : Prop :=
  [/\ wfa U, nr U = N, nc U = m & u = N2 U \/ (m = 1%N /\ u = N1 (mkseq (fun k => get U k 0) N))].

(* a vector of n entries as an initial condition *)
Definition as_vector (R : realFieldType) (n : nat) (x : option (nd R)) (v : 'cV[R]_n) : Prop :=
  match x with
  | None => v = 0
  | Some (N1 s) => size s = n /\ v = \col_i nth 0 s i
  | Some (N2 A) => (shp A = (n, 1%N) /\ v = \col_i get A i 0) \/ (shp A = (1%N, n) /\ v = \col_i get A 0 i)
  | Some (N0 _) => False
  end.

(* ts are N increasing points with spacing h, given by the user or (for a discrete model) generated;
   a discrete model has the sampling period h *)
Definition time_ok (R : realFieldType) (dt : option R) (h : R) (N : nat) (t : option (nd R)) (ts : seq R) : Prop :=
  [/\ 0 < h, size ts = N, (forall k, (k.+1 < N)%N -> nth 0 ts k.+1 - nth 0 ts k = h),
      dt = None \/ dt = Some h &
      match t with
      | None => dt = Some h /\ ts = mkseq (fun k => k%:R * h) N
      | Some t => t = N1 ts
      end].

(* Markov parameters: D, CB, CAB, ... *)
Definition markov (R : realFieldType) n m p (A : 'M[R]_n) (B : 'M[R]_(n, m)) (C : 'M[R]_(p, n))
    (D : 'M[R]_(p, m)) (k : nat) : 'M[R]_(p, m) :=
  if k is k'.+1 then C *m mpow A k' *m B else D.

(* the response from input channel j *)
Definition channel (R : realFieldType) (y : yout R) (j : nat) : arr R :=
  match y with Y2 Y => Y | Y3 s => nth (azeros 0 0) s j end.
(* number of slices *)
Definition channels (R : realFieldType) (y : yout R) : nat := if y is Y3 s then size s else 1%N.

(* the time argument of the step and impulse responses: an evenly spaced list, or the generated one *)
Definition grid_ok (R : realFieldType) (auto : state R -> bool -> nat * R) (G : state R) (step : bool) (h : R) (N : nat)
    (t : option (nd R)) (ts : seq R) : Prop :=
  match t with
  | Some t => t = N1 ts
  | None => auto G step = (N, h) /\ ts = mkseq (fun k => k%:R * h) N
  end /\ time_ok (sdt G) h N (Some (N1 ts)) ts.

(* the matrices of a model *)
Section Matrices.
Variables (R : realFieldType) (G : state R).
Definition Amx := amx (snn G) (snn G) (sa G).
Definition Bmx := amx (snn G) (smn G) (sb G).
Definition Cmx := amx (spn G) (snn G) (sc G).
Definition Dmx := amx (spn G) (smn G) (sd G).
End Matrices.
