(* A small ring tactic for mathcomp commutative rings: reifies both sides (ignoring which
   canonical structure the operations come from) and uses the verified normaliser of
   Coq.setoid_ring.Ring_polynom. *)
From mathcomp Require Import all_ssreflect all_algebra.
From Coq Require Import ZArith Ring_theory Ring_polynom InitialRing BinList Setoid.

Set Implicit Arguments.
Unset Strict Implicit.
Unset Printing Implicit Defensive.

Import GRing.Theory.
Local Open Scope ring_scope.

Section RingTac.
Variable R : comRingType.

Definition mc_sub (x y : R) := x - y.

Lemma mc_ring : ring_theory (0 : R) 1 (@GRing.add R) (@GRing.mul R) mc_sub (@GRing.opp R) eq.
Proof.
split; [exact: add0r|exact: addrC|exact: addrA|exact: mul1r|exact: mulrC|exact: mulrA|exact: mulrDl|by []|exact: addrN].
Qed.

Lemma mc_ext : ring_eq_ext (@GRing.add R) (@GRing.mul R) (@GRing.opp R) eq.
Proof. by split=> [? ? -> ? ? ->|? ? -> ? ? ->|? ? ->]. Qed.

Definition mc_phi : Z -> R := gen_phiZ 0 1 (@GRing.add R) (@GRing.mul R) (@GRing.opp R).

Lemma mc_morph : ring_morph 0 1 (@GRing.add R) (@GRing.mul R) mc_sub (@GRing.opp R) eq
  0%Z 1%Z Z.add Z.mul Z.sub Z.opp Zeq_bool mc_phi.
Proof. exact: (gen_phiZ_morph (Eqsth _) mc_ext mc_ring). Qed.

Definition mc_pow (x : R) (n : N) : R := pow_N 1 (@GRing.mul R) x n.

Lemma mc_power : power_theory 1 (@GRing.mul R) eq (fun n : N => n) mc_pow.
Proof. by split. Qed.

Definition mc_eval (l : list R) (e : PExpr Z) : R :=
  PEeval 0 1 (@GRing.add R) (@GRing.mul R) mc_sub (@GRing.opp R) mc_phi (fun n : N => n) mc_pow l e.

Definition mc_norm (e : PExpr Z) : Pol Z :=
  norm_subst 0%Z 1%Z Z.add Z.mul Z.sub Z.opp Zeq_bool (triv_div 0%Z 1%Z Zeq_bool) 0%N nil e.

Lemma mc_ring_correct (l : list R) (e1 e2 : PExpr Z) :
  Peq Zeq_bool (mc_norm e1) (mc_norm e2) = true ->
  mc_eval l e1 = mc_eval l e2.
Proof.
move=> h; have A := Rth_ARth (Eqsth _) mc_ext mc_ring.
exact: (@ring_correct _ _ _ _ _ _ _ _ (Eqsth _) mc_ext A _ _ _ _ _ _ _ _ _ mc_morph _ _ _ mc_power
  _ (triv_div_th (Eqsth _) mc_ext A mc_morph) 0%N l nil e1 e2 I h).
Qed.

End RingTac.

(* reification: collects atoms up to syntactic equality *)
Ltac mc_mem t l :=
  match l with
  | nil => constr:(false)
  | cons t _ => constr:(true)
  | cons _ ?l' => mc_mem t l'
  end.
Ltac mc_add t l := lazymatch mc_mem t l with true => l | false => constr:(cons t l) end.
Ltac mc_atoms t l :=
  lazymatch t with
  | @GRing.add _ ?a ?b => let l1 := mc_atoms a l in mc_atoms b l1
  | @GRing.mul _ ?a ?b => let l1 := mc_atoms a l in mc_atoms b l1
  | @GRing.opp _ ?a => mc_atoms a l
  | @GRing.zero _ => l
  | @GRing.one _ => l
  | @GRing.natmul _ ?a O => l
  | @GRing.natmul _ ?a (S ?n) => mc_atoms a l
  | @GRing.exp _ ?a O => l
  | @GRing.exp _ ?a (S ?n) => mc_atoms a l
  | _ => mc_add t l
  end.
Ltac mc_find t l :=
  lazymatch l with
  | cons t _ => constr:(1%positive)
  | cons _ ?l' => let p := mc_find t l' in constr:(Pos.succ p)
  end.
Ltac mc_reify t l :=
  lazymatch t with
  | @GRing.add _ ?a ?b => let x := mc_reify a l in let y := mc_reify b l in constr:(PEadd x y)
  | @GRing.mul _ ?a ?b => let x := mc_reify a l in let y := mc_reify b l in constr:(PEmul x y)
  | @GRing.opp _ ?a => let x := mc_reify a l in constr:(PEopp x)
  | @GRing.zero _ => constr:(@PEO Z)
  | @GRing.one _ => constr:(@PEI Z)
  | @GRing.natmul _ ?a O => constr:(@PEO Z)
  | @GRing.natmul _ ?a (S O) => mc_reify a l
  | @GRing.natmul _ ?a (S ?n) => let x := mc_reify a l in let y := mc_reify (a *+ n) l in constr:(PEadd x y)
  | @GRing.exp _ ?a O => constr:(@PEI Z)
  | @GRing.exp _ ?a (S O) => mc_reify a l
  | @GRing.exp _ ?a (S ?n) => let x := mc_reify a l in let y := mc_reify (a ^+ n) l in constr:(PEmul x y)
  | _ => let p := mc_find t l in let p' := eval vm_compute in p in constr:(@PEX Z p')
  end.
Ltac mc_ring R :=
  lazymatch goal with
  | |- ?a = ?b =>
    let l0 := constr:(@nil (GRing.ComRing.sort R)) in
    let l1 := mc_atoms a l0 in let l := mc_atoms b l1 in
    let x := mc_reify a l in let y := mc_reify b l in
    change (mc_eval l x = mc_eval l y); apply: mc_ring_correct; vm_compute; reflexivity
  end.

Section Test.
Variable R : realFieldType.
Lemma mc_test (a b c : R) : (a - b) ^+ 2 * c + 4%:R * a * b * c = (a + b) * (b *+ 2 - b + a) * c.
Proof.
  mc_ring R. Qed.
End Test.
