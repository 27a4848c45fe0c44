(* Specification used for hessenberg_realization and frequency_response. *)
From mathcomp Require Import all_ssreflect all_algebra.
From Coq Require Import String.
From Verif Require Import Base BaseTheory.

Set Implicit Arguments.
Unset Strict Implicit.
Unset Printing Implicit Defensive.

Import GRing.Theory Num.Theory.
Local Open Scope ring_scope.

Section SpecFreq.
Variable R : realFieldType.
Local Notation mx := (mxof [rmorphism of @idfun R]).

(* entries below the first subdiagonal are zero *)
Definition upper_hess (A : arr R) : Prop := forall i j, (i < nr A)%N -> (j.+1 < i)%N -> get A i j = 0.

(* Q, R of a QR factorisation of b: Q orthogonal, R zero below the diagonal, Q R = b *)
Definition qr_ok (b : arr R) (q : arr R * arr R) : Prop :=
  let n := nr b in let m := nc b in
  [/\ [/\ wfa q.1, shp q.1 = (n, n), wfa q.2 & shp q.2 = (n, m)],
      (mx n n q.1)^T *m mx n n q.1 = 1%:M, mx n n q.1 *m mx n m q.2 = mx n m b &
      forall i j, (j < i)%N -> get q.2 i j = 0].

(* H, Q of a Hessenberg reduction of A: Q orthogonal with first column e_1 (the reflectors act on the other
   coordinates), H upper Hessenberg, Q H Q' = A *)
Definition hess_ok (A : arr R) (h : arr R * arr R) : Prop :=
  let n := nr A in
  [/\ [/\ wfa h.1, shp h.1 = (n, n), wfa h.2 & shp h.2 = (n, n)],
      (mx n n h.2)^T *m mx n n h.2 = 1%:M, mx n n h.2 *m mx n n h.1 *m (mx n n h.2)^T = mx n n A,
      upper_hess h.1 & forall i, (i < n)%N -> get h.2 i 0 = (i == 0%N)%:R].

(* determinant of the leading k-by-k block of sI - A *)
Definition lead_minor (L : fieldType) (f : {rmorphism R -> L}) (A : arr R) (s : L) (k : nat) : L :=
  \det (s%:M - mxof f k k A).

(* the requested frequencies w, given in the unit u, in rad/s *)
Definition in_rad (twopi : R) (u : string) (w : seq R) : seq R :=
  if (u =? "Hz")%string then [seq x * twopi | x <- w] else w.
(* frequencies x in rad/s expressed in the unit u *)
Definition to_unit (twopi : R) (u : string) (w : seq R) : seq R :=
  if (u =? "Hz")%string then [seq x / twopi | x <- w] else w.
(* those not above the Nyquist frequency pi/dt of a discrete model, all of them for a continuous one *)
Definition below_nyquist (twopi : R) (dt : option R) (w : seq R) : seq R :=
  if dt is Some h then [seq x <- w | x <= twopi / 2%:R / h] else w.
Definition known_unit (u : string) : bool := (u =? "Hz")%string || (u =? "rad/s")%string.

(* the point of the complex plane that belongs to the frequency x: j x, or exp(j x dt) *)
Definition jw (L : fieldType) (f : {rmorphism R -> L}) (ii : L) (expL : L -> L) (dt : option R) (x : R) : L :=
  if dt is Some h then expL (ii * f (x * h)) else ii * f x.

(* sample k of entry (i,j) of a returned array; None stands for inf or nan *)
Definition sample (L : Type) (fr : seq (seq (seq (option L)))) (i j k : nat) : option L :=
  nth None (nth [::] (nth [::] fr i) j) k.
Definition samples (L : Type) (fr : seq (seq (seq (option L)))) (i j : nat) : seq (option L) :=
  nth [::] (nth [::] fr i) j.

End SpecFreq.
