(* Specification vocabulary for the discretisation theorems. *)
From mathcomp Require Import all_ssreflect all_algebra.
From Coq Require Import String.
From Verif Require Import Base BaseTheory Spec ModelState Denote StateTheory ModelDiscrete.

Set Implicit Arguments.
Unset Strict Implicit.
Unset Printing Implicit Defensive.

Import GRing.Theory Num.Theory.
Local Open Scope ring_scope.

Section DenoteD.
Variables (R : realFieldType) (L : fieldType) (f : {rmorphism R -> L}).

(* Gd at z is G at s: z is a pole of Gd exactly if s is a pole of G, and otherwise the transfer
   matrices agree *)
Definition same_value (G Gd : state R) (z s : L) : Prop :=
  regS f Gd z = regS f G s /\
  (regS f G s -> evalS f (spn G) (smn G) Gd z = evalS f (spn G) (smn G) G s).

(* Gd at z is G at infinity, i.e. its feedthrough matrix *)
Definition value_at_inf (G Gd : state R) (z : L) : Prop :=
  regS f Gd z /\ evalS f (spn G) (smn G) Gd z = mxof f (spn G) (smn G) (sd G).

End DenoteD.

(* o is a model of the size of G with sampling period dt that remembers the method *)
Definition sampled (R : realFieldType) (G : state R) (dt : R) (meth : string) (o : dsys R) : Prop :=
  [/\ wfS (dst o), sdt (dst o) = Some dt, snn (dst o) = snn G, sshape (dst o) = sshape G &
      dmeth o = Some meth].

(* D^-1 X D for D = diag(sca) *)
Definition dscale (R : realFieldType) (sca : seq R) (X : arr R) : arr R :=
  mk (nr X) (nc X) (fun i j => get X i j * (nth 0 sca j / nth 0 sca i)).

(* matrix_balance(M, permute=0, separate=1): a diagonal similarity *)
Definition balances (R : realFieldType) (bal : arr R -> arr R * seq R) : Prop :=
  forall M, nr M = nc M -> (bal M).1 = dscale (bal M).2 M /\ (forall i, (i < nr M)%N -> nth 0 (bal M).2 i != 0).

(* what is needed of expm: square results, and expm (D^-1 X D) = D^-1 (expm X) D *)
Definition exp_like (R : realFieldType) (expm : arr R -> arr R) : Prop :=
  forall X, wfa X -> nr X = nc X -> [/\ wfa (expm X), shp (expm X) = shp X &
   forall sca, (forall i, (i < nr X)%N -> nth 0 sca i != 0) -> expm (dscale sca X) = dscale sca (expm X)].

(* what is needed of logm *)
Definition log_like (R : realFieldType) (logm : arr R -> res (arr R)) : Prop :=
  forall X Y, wfa X -> nr X = nc X -> logm X = Ok Y -> [/\ wfa Y, shp Y = shp X &
   forall sca, (forall i, (i < nr X)%N -> nth 0 sca i != 0) -> logm (dscale sca X) = Ok (dscale sca Y)].

(* [[A, B], [0, 0]] *)
Definition zohM (R : realFieldType) (G : state R) : arr R :=
  avcat (ahcat (sa G) (sb G)) (azeros (smn G) (smn G + snn G)).
(* [[A dt, B dt, 0], [0, 0, I], [0, 0, 0]] *)
Definition fohM (R : realFieldType) (G : state R) (dt : R) : arr R :=
  avcat (adiag2 (ascaler (ahcat (sa G) (sb G)) dt) (aeye (smn G)))
        (azeros (smn G) (snn G + 2 * smn G)).
