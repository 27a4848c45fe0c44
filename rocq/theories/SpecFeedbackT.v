(* Specification of the feedback loop for any kind of operand: what the operands and the result mean. *)
From mathcomp Require Import all_ssreflect all_algebra.
From Verif Require Import Base BaseTheory Spec ModelState Denote ModelTransfer DenoteT
  ConvertOps ConvertState ModelFeedbackT.

Set Implicit Arguments.
Unset Strict Implicit.
Unset Printing Implicit Defensive.

Import GRing.Theory Num.Theory.
Local Open Scope ring_scope.

Section Spec.
Variable R : realFieldType.
Implicit Types X Y : fbx R.

(* shape and sampling period; an array has none of its own *)
Definition xshape X : nat * nat :=
  match X with XS G => sshape G | XT G => tshape G | XA A => shp A end.
Definition xdt X : option (option R) :=
  match X with XS G => Some (sdt G) | XT G => Some (tdt G) | XA _ => None end.
(* the sampling period of the loop, when those of the models agree *)
Definition loop_dt X Y : option R := odflt (odflt None (xdt Y)) (xdt X).
Definition dts_agree X Y : Prop := if (xdt X, xdt Y) is (Some a, Some b) then a = b else True.

(* the transfer matrix at s, and whether s is a pole *)
Definition xdef (L : fieldType) (f : {rmorphism R -> L}) X (s : L) : Prop :=
  match X with
  | XS G => regS f G s
  | XT G => forall i j, (i < tp G)%N -> (j < tm G)%N -> dfT f G s i j
  | XA _ => True
  end.
Definition xval (L : fieldType) (f : {rmorphism R -> L}) p m X (s : L) : 'M[L]_(p, m) :=
  match X with
  | XS G => evalS f p m G s
  | XT G => \matrix_(i, j) evT f G s i j
  | XA A => \matrix_(i, j) f (get A i j)
  end.
(* the value at infinity *)
Definition xinf p m X : 'M[R]_(p, m) :=
  match X with
  | XS G => \matrix_(i, j) get (sd G) i j
  | XT G => \matrix_(i, j) ((polyhi (ent (tn G) i j))`_(size (ent (td G) i j)).-1 / head 0 (ent (td G) i j))
  | XA A => \matrix_(i, j) get A i j
  end.
(* not a constant: a State model with states, a Transfer some entry of which is not its value at infinity *)
Definition dynamic X : Prop :=
  match X with
  | XS G => (0 < snn G)%N
  | XT G => exists i j, [/\ (i < tp G)%N, (j < tm G)%N &
      polyhi (ent (tn G) i j) != ((polyhi (ent (tn G) i j))`_(size (ent (td G) i j)).-1 / head 0 (ent (td G) i j)) *: polyhi (ent (td G) i j)]
  | XA _ => False
  end.
(* constants: a State model without states, a Transfer whose entries are numbers, an array *)
Definition static X : Prop :=
  match X with XS G => snn G = 0%N | XT G => tgain G | XA _ => True end.
Definition is_transfer X : bool := if X is XT _ then true else false.
Definition is_state X : bool := if X is XS _ then true else false.

(* what is needed for the conversion: constants are given as constants, no coefficient of a remainder falls below the
   clean-up threshold, numerators have no superfluous leading zeros *)
Definition convertible (eps : R) (G : tf R) : Prop :=
  [/\ wfT G,
      tgain G -> forall i j, (i < tp G)%N -> (j < tm G)%N -> size (ent (tn G) i j) = 1%N,
      tSISO G -> size (polyhi (ent (tn G) 0 0)) = size (ent (td G) 0 0) -> above eps (remS (ent (tn G) 0 0) (ent (td G) 0 0)) &
      ~~ tSISO G -> clean_ok eps G /\ slim G].

(* the operands the loop can be closed on *)
Definition xok (eps : R) X : Prop :=
  match X with XS G => wfS G | XT G => convertible eps G | XA A => wfa A end.
(* the result is a Transfer when some operand is and none is a State model *)
Definition back X Y : bool := [&& is_transfer X || is_transfer Y, ~~ is_state X & ~~ is_state Y].

(* the same for results *)
Definition rok (K : fbres R) : Prop := match K with RS G => wfS G | RT G => wfT G end.
Definition ofres (K : fbres R) : fbx R := match K with RS G => XS G | RT G => XT G end.
End Spec.
