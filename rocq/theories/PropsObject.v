(* Properties C20 - C22: histories of assignments to State (and Transfer) objects.
   eig and tz stand for eigvals and transmission_zeros, inZ p and inR p for |p| < 1 and Re p < 0. *)
From mathcomp Require Import all_ssreflect all_algebra.
From Coq Require Import String.
From Verif Require Import Base BaseTheory Spec ModelPoly ModelState Denote ModelTransfer ModelObject ObjectTheory.

Set Implicit Arguments.
Unset Strict Implicit.
Unset Printing Implicit Defensive.

Import Order.TTheory GRing.Theory Num.Theory.
Local Open Scope ring_scope.

Local Notation Q := rat_realFieldType.

(* ------------------------------------------------------------------ C20 *)
(* a rejected assignment leaves the object unchanged *)
Theorem C20_rejected (R : realFieldType) (P Z : Type) (eig : arr R -> seq P) (tz : state R -> Z) nz (inZ inR : P -> bool)
    (o o' : sobj R P Z) (x : sassign R) e :
  sstep eig tz nz inZ inR o x = (o', Some e) -> o' = o.
Proof. exact: sstep_rejected. Qed.
Print Assumptions C20_rejected.

(* After every history the matrices are consistent (wfS), shape, number of states and the gain flag are
   the original ones, and the poles are those of the current a.  Full statement: without the
   hypothesis about empty d arguments for static gains. *)
Theorem C20_history_partial (R : realFieldType) (P Z : Type) (eig : arr R -> seq P) (tz : state R -> Z) nz
    (inZ inR : P -> bool) (a b c d : option (arr R)) dt (o : sobj R P Z) (l : seq (sassign R)) :
  new_sobj eig tz nz inZ inR a b c d dt = Ok o -> wfS (ost o) ->
  (0 < spn (ost o))%N -> (0 < smn (ost o))%N ->
  all (fun x => match x with SetA (Some v) | SetB (Some v) | SetC (Some v) | SetD (Some v) | SetQ v => wfa v
                           | _ => true end) l ->
  (sgain (ost o) ->
   all (fun x => match x with SetD None => false | SetD (Some v) => nr v != 0%N | _ => true end) l) ->
  let o' := srun eig tz nz inZ inR o l in
  [/\ wfS (ost o'), sshape (ost o') = sshape (ost o), snn (ost o') = snn (ost o), sgain (ost o') = sgain (ost o)
    & opoles o' = if sgain (ost o') then [::] else eig (sa (ost o'))].
Proof.
move=> hn w hp hm ha he o'; have [_ [ep _]] := new_ok hn.
have ok : okS eig (ost o) o by [].
have [|w1 w2 w3 w4 w5] := srun_ok tz nz inZ inR hp hm ok ha; last by split.
apply/negP => /andP[/he {}he]; apply/negP; rewrite -all_predC; move: he; congr is_true.
by apply: eq_all => -[v|v|[v|]|[v|]|v|v|v|v].
Qed.
Print Assumptions C20_history_partial.

(* False of the code: a static gain accepts d = None and then has an empty feedthrough *)
Theorem C20_empty_d_refuted (P Z : Type) eig tz (nz : Z) (inZ inR : P -> bool) :
  let o : sobj Q P Z := SObj (St (azeros 0 0) (azeros 0 0) (azeros 0 0) (aones 2 3) true None) [::] nz true None None 0 in
  let r := sstep eig tz nz inZ inR o (SetD None) in
  [/\ new_sobj eig tz nz inZ inR (Some (aones 2 3)) None None None None = Ok o, r.2 = None,
      sshape (ost o) = (2, 3)%N & sshape (ost r.1) = (0, 0)%N].
Proof. by []. Qed.
Print Assumptions C20_empty_d_refuted.

Definition eG : res (sobj Q Q nat) :=
  new_sobj (fun A => [:: get A 0 0]) (fun _ => 0%N) 0%N (fun x : Q => `|x| < 1) (fun x : Q => x < 0)
    (Some (of_rows [:: [:: -2%:~R]])) (Some (aones 1 2)) (Some (aones 1 1)) None None.
Example C20_ex : if eG is Ok o then
    let o' := srun (fun A => [:: get A 0 0]) (fun _ => 0%N) 0%N (fun x : Q => `|x| < 1) (fun x : Q => x < 0) o
      [:: SetD (Some (aones 1 2)); SetA (Some (aones 2 2)); SetA (Some (of_rows [:: [:: 5%:~R]]));
          SetB (Some (aones 3 1)); SetDt (Some (1 / 2%:~R)); SetMeth "zoh"; SetPw 3%:~R] in
    [&& wfS (ost o), wfS (ost o'), get (sa (ost o')) 0 0 == 5%:~R, get (sd (ost o')) 0 1 == 1,
        shp (sb (ost o')) == (1, 2)%N & isSome (ometh o')]
  else false.
Proof. by vm_compute. Qed.

(* ------------------------------------------------------------------ C21 *)
(* Full statement: the flag always agrees with the current poles and sampling period.  It does as long as
   the sampling period is not assigned, *)
Theorem C21_flag_partial (R : realFieldType) (P Z : Type) (eig : arr R -> seq P) (tz : state R -> Z) nz
    (inZ inR : P -> bool) (a b c d : option (arr R)) dt (o : sobj R P Z) (l : seq (sassign R)) :
  new_sobj eig tz nz inZ inR a b c d dt = Ok o ->
  ~~ has (fun x => if x is SetDt _ then true else false) l ->
  let o' := srun eig tz nz inZ inR o l in
  ostable o' = all (if sdt (ost o') is Some _ then inZ else inR) (opoles o').
Proof.
move=> hn hl o'; have [_ [_ f]] := new_ok hn; have := srun_flag eig tz nz f hl; rewrite -/o' /flag_ok => ->.
by rewrite /stab; case: (sdt _).
Qed.
Print Assumptions C21_flag_partial.

(* and after every accepted assignment of a matrix, whatever happened before. *)
Theorem C21_refresh_partial (R : realFieldType) (P Z : Type) (eig : arr R -> seq P) (tz : state R -> Z) nz
    (inZ inR : P -> bool) (o o' : sobj R P Z) (x : sassign R) :
  (match x with SetA _ | SetB _ | SetC _ | SetD _ => true | _ => false end) ->
  sstep eig tz nz inZ inR o x = (o', None) ->
  ostable o' = all (if sdt (ost o') is Some _ then inZ else inR) (opoles o').
Proof. by move=> hx /(sstep_refresh hx) ->; rewrite /stab; case: (sdt _). Qed.
Print Assumptions C21_refresh_partial.

Theorem C21_transfer_refresh_partial (R : realFieldType) (P : Type) (eig : arr R -> seq P)
    (inZ inR : P -> bool) lcmf eps (o o' : tobj R P) (x : tassign R) :
  (match x with ANum _ | ADen _ => true | ADt _ => false end) ->
  tostep eig inZ inR lcmf eps o x = (o', None) ->
  otstable o' = all (if tdt (ott o') is Some _ then inZ else inR) (otpoles o').
Proof.
move=> hx h; have -> := tostep_refresh (x := x) _ h; last by case: x hx {h}.
by rewrite /stab; case: (tdt _).
Qed.
Print Assumptions C21_transfer_refresh_partial.

(* False of the code: assigning the sampling period never touches the flag, *)
Theorem C21_stale_flag_refuted (R : realFieldType) (P Z : Type) (eig : arr R -> seq P) (tz : state R -> Z) nz
    (inZ inR : P -> bool) (o : sobj R P Z) v :
  ostable (sstep eig tz nz inZ inR o (SetDt v)).1 = ostable o.
Proof. by have [] := setdt_keeps eig tz nz inZ inR o v. Qed.
Print Assumptions C21_stale_flag_refuted.

Theorem C21_transfer_stale_flag_refuted (R : realFieldType) (P : Type) (eig : arr R -> seq P)
    (inZ inR : P -> bool) lcmf eps (o : tobj R P) v :
  otstable (tostep eig inZ inR lcmf eps o (ADt v)).1 = otstable o.
Proof. by have [] := adt_keeps eig inZ inR lcmf eps o v. Qed.
Print Assumptions C21_transfer_stale_flag_refuted.

(* so x' = -2x stays "stable" when it becomes x+ = -2x *)
Theorem C21_witness_refuted : if eG is Ok o then
    let o' := (sstep (fun A => [:: get A 0 0]) (fun _ => 0%N) 0%N (fun x : Q => `|x| < 1) (fun x : Q => x < 0) o
               (SetDt (Some 1))).1 in
    [&& ostable o', opoles o' == [:: -2%:~R] & sdt (ost o') == Some 1] else false.
Proof. by vm_compute. Qed.
Print Assumptions C21_witness_refuted.

(* ------------------------------------------------------------------ C22 *)
(* False of the code: a static gain rejects every new nonempty feedthrough (and a, b, c) *)
Theorem C22_gain_d_refuted (R : realFieldType) (P Z : Type) (eig : arr R -> seq P) (tz : state R -> Z) nz
    (inZ inR : P -> bool) (o : sobj R P Z) (M : arr R) :
  wfS (ost o) -> sgain (ost o) -> (0 < spn (ost o))%N -> (0 < smn (ost o))%N ->
  nr M = spn (ost o) -> nc M = smn (ost o) ->
  exists e, sstep eig tz nz inZ inR o (SetD (Some M)) = (o, Some e).
Proof.
move=> w g hp hm e1 e2; apply: (gain_rejects eig tz nz inZ inR w g hp hm (x := SetD (Some M))).
by rewrite /= e1 -lt0n.
Qed.
Print Assumptions C22_gain_d_refuted.

(* dynamic models accept it *)
Theorem C22_dynamic_d (R : realFieldType) (P Z : Type) (eig : arr R -> seq P) (tz : state R -> Z) nz
    (inZ inR : P -> bool) (o : sobj R P Z) (M : arr R) :
  wfS (ost o) -> ~~ sgain (ost o) -> nr M = spn (ost o) -> nc M = smn (ost o) ->
  let r := sstep eig tz nz inZ inR o (SetD (Some M)) in r.2 = None /\ sd (ost r.1) = M.
Proof.
move=> w /negbTE g e1 e2; have [_ [na nb ncc pc mb]] := StateTheory.wfS_dyn w g.
rewrite /snn in na nb ncc; rewrite /sstep /st_validate /zlike /= na eqxx /= nb eqxx /= ncc eqxx /=.
by rewrite /shp e1 e2 pc mb eqxx.
Qed.
Print Assumptions C22_dynamic_d.

Example C22_ex : wfS (St (azeros 0 0) (azeros 0 0) (azeros 0 0) (aones 2 3) true (None : option Q)).
Proof. by vm_compute. Qed.
