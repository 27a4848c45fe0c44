(* What a Bode plot shows. *)
From mathcomp Require Import all_ssreflect all_algebra.
From Verif Require Import Base ModelState Denote ModelTransfer DenoteT ModelFreq SpecFreq FreqTheory PropsFreq ModelPlots.

Set Implicit Arguments.
Unset Strict Implicit.
Unset Printing Implicit Defensive.

Import GRing.Theory Num.Theory.
Local Open Scope ring_scope.

Section Spec.
Variables (R : realFieldType) (L : fieldType).
(* np.unwrap: the first element is kept, every element changes by a multiple of 2 pi, steps are at most pi *)
Definition unwrap_like (pi : R) (unwrap : seq R -> seq R) : Prop := forall s,
  [/\ size (unwrap s) = size s, head 0 (unwrap s) = head 0 s,
      forall k, (k < size s)%N -> exists z : int, nth 0 (unwrap s) k = nth 0 s k + z%:~R * (2%:R * pi) &
      forall k, (k.+1 < size s)%N -> `|nth 0 (unwrap s) k.+1 - nth 0 (unwrap s) k| <= pi].

(* the magnitude that belongs to a response v: none if v is not a number or is zero *)
Definition shown_mag (scale : R) (log10 : R -> R) (cmod : L -> R) (v : option L) (y : option R) : Prop :=
  match v with
  | Some x => if x == 0 then y = None else y = Some (scale * log10 (cmod x))
  | None => y = None
  end.
(* y is the phase of v in the unit u, up to full turns *)
Definition shown_phase (pi u : R) (angle : L -> R) (v : option L) (y : option R) : Prop :=
  if v is Some x then x != 0 -> exists z : int, y = Some (u * (angle x + z%:~R * (2%:R * pi))) else True.
(* every sample is a number other than zero *)
Definition clean (fre : seq (seq (seq (option L)))) : Prop :=
  forall i j k, (k < size (samples fre i j))%N -> exists2 x, sample fre i j k = Some x & x != 0.
End Spec.

Section Values.
Variables (R : realFieldType) (L : fieldType) (f : {rmorphism R -> L}).
Variables (qr hess : arr R -> arr R * arr R).
(* v is the response of entry (i,j) at s: the value of the transfer function, nothing at a pole; a State model lacks the
   sample also where a leading minor of the Hessenberg form of its row i vanishes (C45) *)
Definition pval (G : psys R) (s : L) (i j : nat) (v : option L) : Prop :=
  match G with
  | PT G => v = if dfT f G s i j then Some (evT f G s i j) else None
  | PS G => if v is Some x then regS f G s /\ x = ev f G s i j
            else exists l, (l <= snn G)%N /\ lead_minor f (row_hess qr hess G i) s l = 0
  end.
(* consistent models with dynamics *)
Definition pdyn (G : psys R) : Prop :=
  match G with
  | PT G => tgain G = false
  | PS G => [/\ wfS G, sgain G = false, (0 < snn G)%N &
      forall i, (i < spn G)%N -> hess_req qr hess (aT (sa G)) (aT (arows (sc G) [:: i]))]
  end.
End Values.
