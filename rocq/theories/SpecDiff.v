(* Difference equations. *)
From mathcomp Require Import all_ssreflect all_algebra.
From Verif Require Import Base Spec.

Set Implicit Arguments.
Unset Strict Implicit.
Unset Printing Implicit Defensive.

Import GRing.Theory.
Local Open Scope ring_scope.

Section Spec.
Variable R : realFieldType.
(* the value of a signal i steps before k, zero before the start *)
Definition past (y : nat -> R) (k i : nat) : R := if (i <= k)%N then y (k - i)%N else 0.

(* at the times k < N, u and y satisfy
     den_0 y(k) + den_1 y(k-1) + ... = b_0 u(k) + b_1 u(k-1) + ...,
   the difference equation of num/den at rest before time 0: coefficients from the highest power, b_i is the coefficient
   of num that belongs to the same power as den_i *)
Definition solves (num den : seq R) (u y : nat -> R) (N : nat) : Prop := forall k, (k < N)%N ->
  \sum_(i < size den) nth 0 den i * past y k i =
  \sum_(i < size den) (polyhi num)`_((size den).-1 - i) * past u k i.
End Spec.
