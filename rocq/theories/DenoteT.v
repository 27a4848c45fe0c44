(* What a Transfer model means: its entries num(s)/den(s). *)
From mathcomp Require Import all_ssreflect all_algebra.
From Verif Require Import Base BaseTheory Spec ModelPoly ModelState ModelTransfer.

Set Implicit Arguments.
Unset Strict Implicit.
Unset Printing Implicit Defensive.

Import GRing.Theory Num.Theory.
Local Open Scope ring_scope.

Section DenoteT.
Variables (R : realFieldType) (L : fieldType) (f : {rmorphism R -> L}).

(* the value at s, a point of any extension field L of R, of the polynomial with
   coefficient list p *)
Definition pev (p : seq R) (s : L) : L := (map_poly f (polyhi p)).[s].

(* entry (i,j) is defined at s *)
Definition dfT (G : tf R) (s : L) (i j : nat) : bool := pev (ent (td G) i j) s != 0.

(* its value there *)
Definition evT (G : tf R) (s : L) (i j : nat) : L :=
  pev (ent (tn G) i j) s / pev (ent (td G) i j) s.

End DenoteT.

Section Wf.
Variable R : realFieldType.

(* p rows of m entries *)
Definition rect (A : Type) (p m : nat) (M : seq (seq A)) : bool :=
  (size M == p) && all (fun r => size r == m) M.

(* a valid sampling period: none, or positive *)
Definition posdt (dt : option R) : bool := if dt is Some v then 0 < v else true.

(* A consistent Transfer object: num and den are p-by-m, the denominators are listed from
   their nonzero leading coefficient, the entries are causal, the gain flag tells whether all
   denominators are constants, the sampling period is positive. *)
Definition wfT (G : tf R) : bool :=
  [&& [&& (0 < tp G)%N, (0 < tm G)%N, rect (tp G) (tm G) (tn G) & rect (tp G) (tm G) (td G)],
      all (fun d => head 0 d != 0) (flatten (td G)),
      all (fun i => all (fun j => (size (polyhi (ent (tn G) i j)) <= size (ent (td G) i j))%N)
          (iota 0 (tm G))) (iota 0 (tp G)),
      tgain G == (all (fun d => size d == 1%N) (flatten (td G))) &
      posdt (tdt G)].

End Wf.
