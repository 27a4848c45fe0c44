(* Properties C09 - C19 of the State class.  Each theorem is closed by a lemma
   proved elsewhere; Examples show concrete cases that meet the hypotheses.
   Notation: ev f G s i j is the (i,j) entry of D + C (sI - A)^-1 B (Denote.v), regS f G s
   says that s is not a pole of G, wfS G that G is a consistent State object. *)
From mathcomp Require Import all_ssreflect all_algebra.
From Verif Require Import Base BaseTheory Spec ModelState Denote StateTheory StateOps StateMul StateProps.

Set Implicit Arguments.
Unset Strict Implicit.
Unset Printing Implicit Defensive.

Import Order.TTheory GRing.Theory Num.Theory.
Local Open Scope ring_scope.

(* The concrete models exG, exH, exM, exGd, exK of the examples are in StateProps.v. *)


(* ------------------------------------------------------------------ C09 *)
(* State + State adds the transfer matrices, with numpy's broadcasting when one of them is
   1-by-1 (bidx) - which is the identity on indices for equal shapes. *)
Theorem C09_state_add (R : realFieldType) lim (G H K : state R) :
  wfS G -> wfS H -> sshape G = sshape H -> st_add lim G (OState H) = Ok K ->
  [/\ wfS K, sshape K = sshape G & (sgain G = false -> sgain H = false -> snn K = (snn G + snn H)%N)] /\
  forall (L : fieldType) (f : {rmorphism R -> L}) (s : L), regS f G s -> regS f H s ->
    regS f K s /\
    forall i j, (i < spn G)%N -> (j < smn G)%N -> ev f K s i j = ev f G s i j + ev f H s i j.
Proof. exact: state_add_same. Qed.
Print Assumptions C09_state_add.

Theorem C09_state_add_siso (R : realFieldType) lim (G H K : state R) :
  wfS G -> wfS H -> spn G = 1%N -> smn G = 1%N -> st_add lim G (OState H) = Ok K ->
  wfS K /\ sshape K = sshape H /\
  forall (L : fieldType) (f : {rmorphism R -> L}) (s : L), regS f G s -> regS f H s ->
    regS f K s /\
    forall i j, (i < spn H)%N -> (j < smn H)%N -> ev f K s i j = ev f G s 0%N 0%N + ev f H s i j.
Proof. exact: state_add_siso. Qed.
Print Assumptions C09_state_add_siso.

Example C09_ex : [/\ wfS exG, wfS exH, sshape exG = sshape exH & is_ok (st_add 5 exG (OState exH))].
Proof. by split; vm_compute. Qed.
Example C09_ex_siso : [/\ wfS exG, wfS exM & is_ok (st_add 5 exG (OState exM))].
Proof. by split; vm_compute. Qed.

(* ------------------------------------------------------------------ C10 *)
(* False of the code: two dynamic models with the same sampling period dt produce a model
   without it (line 1982 builds State(...) without dt).  Full statement:
     forall G H K, wfS G -> wfS H -> st_add lim G (OState H) = Ok K -> sdt K = sdt G. *)
Theorem C10_add_keeps_dt_refuted :
  exists G H K : state Q, [/\ wfS G, wfS H, sdt G = sdt H, st_add 5 G (OState H) = Ok K & sdt K <> sdt G].
Proof. exact: add_drops_dt. Qed.
Print Assumptions C10_add_keeps_dt_refuted.

(* What holds: the period survives as soon as one operand is a static gain, or the operand is
   a number or an array. *)
Theorem C10_add_keeps_dt_partial (R : realFieldType) lim (G K : state R) (o : operand R) :
  wfS G -> (forall H, o = OState H -> wfS H /\ (sgain G || sgain H)) ->
  st_add lim G o = Ok K -> sdt K = sdt G.
Proof. exact: add_keeps_dt. Qed.
Print Assumptions C10_add_keeps_dt_partial.

(* How it fails: dynamic + dynamic always loses it. *)
Theorem C10_add_drops_dt_dynamic (R : realFieldType) lim (G H K : state R) :
  wfS G -> wfS H -> sgain G = false -> sgain H = false -> st_add lim G (OState H) = Ok K -> sdt K = None.
Proof. exact: add_dyn_drops_dt. Qed.
Print Assumptions C10_add_drops_dt_dynamic.

(* ------------------------------------------------------------------ C11 *)
(* False of the code: a SISO dynamic model plus a 1-by-1 array recurses for ever: whatever the
   recursion limit, RecursionError is the result (lines 2082-2087). *)
Theorem C11_add_terminates_refuted (R : realFieldType) (G : state R) (A : arr R) :
  wfS G -> sgain G = false -> spn G = 1%N -> smn G = 1%N -> nr A = 1%N -> nc A = 1%N ->
  forall lim, st_add lim G (OArr2 A) = Err RecursionError.
Proof. exact: add_array11_loops. Qed.
Print Assumptions C11_add_terminates_refuted.
Example C11_ex : [/\ wfS exG, sgain exG = false, spn exG = 1%N, smn exG = 1%N &
   forall lim, st_add lim exG (OState exK) = Err RecursionError].
Proof. exact: add_gain11_loops. Qed.

(* Everywhere else State + State with compatible shapes and equal periods returns a model with
   recursion depth 3. *)
Theorem C11_add_terminates_partial (R : realFieldType) lim (G H : state R) :
  wfS G -> wfS H -> sdt G = sdt H ->
  [\/ sshape G = sshape H, sSISO G | sSISO H] ->
  ~~ (sSISO G && sSISO H && (sgain G != sgain H)) ->
  exists K, st_add lim.+3 G (OState H) = Ok K.
Proof. exact: st_add_state_ok. Qed.
Print Assumptions C11_add_terminates_partial.

(* ------------------------------------------------------------------ C12 *)
Theorem C12_state_matmul (R : realFieldType) lim (G H K : state R) :
  wfS G -> wfS H -> smn G = spn H -> st_matmul lim G (OState H) = Ok K ->
  [/\ wfS K, sdt K = sdt G, spn K = spn G & smn K = smn H] /\
  forall (L : fieldType) (f : {rmorphism R -> L}) (s : L), regS f G s -> regS f H s ->
    regS f K s /\
    forall i j, (i < spn G)%N -> (j < smn H)%N ->
      ev f K s i j = \sum_(l < smn G) ev f G s i l * ev f H s l j.
Proof. exact: state_matmul. Qed.
Print Assumptions C12_state_matmul.

(* it succeeds on every conforming pair with equal sampling periods *)
Theorem C12_state_matmul_ok (R : realFieldType) lim (G H : state R) :
  wfS G -> wfS H -> sdt G = sdt H -> smn G = spn H ->
  exists K, st_matmul lim.+2 G (OState H) = Ok K.
Proof. exact: st_matmul_conf_ok. Qed.
Print Assumptions C12_state_matmul_ok.

(* the number of states of a product of dynamic models *)
Theorem C12_state_matmul_states (R : realFieldType) lim (G H K : state R) :
  wfS G -> wfS H -> sgain G = false -> sgain H = false -> smn G = spn H ->
  st_matmul lim G (OState H) = Ok K -> snn K = (snn G + snn H)%N /\ sgain K = false.
Proof. exact: state_matmul_states. Qed.
Print Assumptions C12_state_matmul_states.

Example C12_ex : [/\ wfS exM, wfS exG, is_ok (st_matmul 5 exG (OState exH)) & is_ok (st_matmul 5 exM (OState exG))].
Proof. by split; vm_compute. Qed.

(* a SISO factor that does not conform scales the other model *)
Theorem C12_state_mul_siso (R : realFieldType) lim (G H K : state R) :
  wfS G -> wfS H -> st_matmul lim G (OState H) = Ok K ->
  (spn G = 1%N -> smn G = 1%N ->
   [/\ wfS K, sdt K = sdt G & sshape K = sshape H] /\
   forall (L : fieldType) (f : {rmorphism R -> L}) (s : L), regS f G s -> regS f H s ->
    regS f K s /\ forall i j, (i < spn H)%N -> (j < smn H)%N ->
      ev f K s i j = ev f G s 0%N 0%N * ev f H s i j) /\
  (spn H = 1%N -> smn H = 1%N ->
   [/\ wfS K, sdt K = sdt G & sshape K = sshape G] /\
   forall (L : fieldType) (f : {rmorphism R -> L}) (s : L), regS f G s -> regS f H s ->
    regS f K s /\ forall i j, (i < spn G)%N -> (j < smn G)%N ->
      ev f K s i j = ev f G s i j * ev f H s 0%N 0%N).
Proof. exact: state_mul_siso. Qed.
Print Assumptions C12_state_mul_siso.

Theorem C12_state_mul_ok (R : realFieldType) lim (G H : state R) :
  wfS G -> wfS H -> sdt G = sdt H ->
  smn G = spn H \/ ((sSISO G || sSISO H) && ~~ (sgain G && sgain H)) ->
  exists K, st_matmul lim.+3 G (OState H) = Ok K.
Proof. exact: st_matmul_ok. Qed.
Print Assumptions C12_state_mul_ok.

(* ------------------------------------------------------------------ C13 *)
Theorem C13_siso_times_matrix (R : realFieldType) lim (G : state R) (A : arr R) :
  wfS G -> sgain G = false -> spn G = 1%N -> smn G = 1%N -> wfa A ->
  exists K, [/\ st_matmul lim.+1 G (OArr2 A) = Ok K, st_rmatmul G (OArr2 A) = Ok K,
                wfS K, sshape K = shp A & sdt K = sdt G] /\
  forall (L : fieldType) (f : {rmorphism R -> L}) (s : L), regS f G s ->
    regS f K s /\
    forall i j, (i < nr A)%N -> (j < nc A)%N -> ev f K s i j = f (get A i j) * ev f G s 0%N 0%N.
Proof. exact: siso_times_matrix. Qed.
Print Assumptions C13_siso_times_matrix.
Example C13_ex : wfS exG /\ wfa (qa [:: [:: 1; 2%:Q; 0]; [:: 0; 3%:Q; 1]]).
Proof. by split; vm_compute. Qed.

(* ------------------------------------------------------------------ C14 *)
(* c * G for every G *)
Theorem C14_scalar_left (R : realFieldType) (G : state R) (c : R) : wfS G ->
  exists K, [/\ st_rmatmul G (OScal c) = Ok K, wfS K, sshape K = sshape G & sdt K = sdt G] /\
  forall (L : fieldType) (f : {rmorphism R -> L}) (s : L), regS f G s ->
    regS f K s /\ forall i j, (i < spn G)%N -> (j < smn G)%N -> ev f K s i j = f c * ev f G s i j.
Proof. exact: scalar_left. Qed.
Print Assumptions C14_scalar_left.

(* G * c: full statement is the same with st_matmul; it holds for dynamic models only *)
Theorem C14_scalar_right_partial (R : realFieldType) lim (G : state R) (c : R) : wfS G -> sgain G = false ->
  exists K, [/\ st_matmul lim.+1 G (OScal c) = Ok K, wfS K, sshape K = sshape G & sdt K = sdt G] /\
  forall (L : fieldType) (f : {rmorphism R -> L}) (s : L), regS f G s ->
    regS f K s /\ forall i j, (i < spn G)%N -> (j < smn G)%N -> ev f K s i j = ev f G s i j * f c.
Proof. exact: scalar_right. Qed.
Print Assumptions C14_scalar_right_partial.

(* a static gain times a scalar is always a TypeError (line 2303 multiplies the bound method) *)
Theorem C14_scalar_right_refuted (R : realFieldType) lim (G : state R) (c : R) :
  sgain G -> st_matmul lim.+1 G (OScal c) = Err TypeError.
Proof. exact: gain_scalar_right. Qed.
Print Assumptions C14_scalar_right_refuted.

Theorem C14_matrix_right (R : realFieldType) lim (G : state R) (M : arr R) : wfS G -> wfa M -> smn G = nr M ->
  exists K, [/\ st_matmul lim.+1 G (OArr2 M) = Ok K, wfS K, sdt K = sdt G, spn K = spn G & smn K = nc M] /\
  forall (L : fieldType) (f : {rmorphism R -> L}) (s : L), regS f G s ->
    regS f K s /\ forall i j, (i < spn G)%N -> (j < nc M)%N ->
      ev f K s i j = \sum_(l < smn G) ev f G s i l * f (get M l j).
Proof. exact: matrix_right. Qed.
Print Assumptions C14_matrix_right.

Theorem C14_matrix_left (R : realFieldType) (G : state R) (M : arr R) : wfS G -> wfa M -> nc M = spn G ->
  exists K, [/\ st_rmatmul G (OArr2 M) = Ok K, wfS K, sdt K = sdt G, spn K = nr M & smn K = smn G] /\
  forall (L : fieldType) (f : {rmorphism R -> L}) (s : L), regS f G s ->
    regS f K s /\ forall i j, (i < nr M)%N -> (j < smn G)%N ->
      ev f K s i j = \sum_(l < spn G) f (get M i l) * ev f G s l j.
Proof. exact: matrix_left. Qed.
Print Assumptions C14_matrix_left.
Example C14_ex : [/\ wfS exM, wfa (qa [:: [:: 1; 2%:Q]; [:: 0; 3%:Q]]) & nc (qa [:: [:: 1; 2%:Q]; [:: 0; 3%:Q]]) = spn exM].
Proof. by split; vm_compute. Qed.

(* adding a number or an array *)
Theorem C14_add_scalar (R : realFieldType) lim (G : state R) (c : R) : wfS G ->
  exists K, [/\ st_add lim.+1 G (OScal c) = Ok K, wfS K, sshape K = sshape G & sdt K = sdt G] /\
  forall (L : fieldType) (f : {rmorphism R -> L}) (s : L),
    regS f K s = regS f G s /\ forall i j, (i < spn G)%N -> (j < smn G)%N -> ev f K s i j = ev f G s i j + f c.
Proof. exact: add_scalar. Qed.
Print Assumptions C14_add_scalar.

Theorem C14_add_array (R : realFieldType) lim (G K : state R) (A : arr R) : wfS G -> wfa A ->
  shp A = sshape G -> st_add lim G (OArr2 A) = Ok K ->
  [/\ wfS K, sshape K = sshape G & sdt K = sdt G] /\
  forall (L : fieldType) (f : {rmorphism R -> L}) (s : L),
    regS f K s = regS f G s /\ forall i j, (i < spn G)%N -> (j < smn G)%N -> ev f K s i j = ev f G s i j + f (get A i j).
Proof. exact: add_array. Qed.
Print Assumptions C14_add_array.

(* ------------------------------------------------------------------ C15 *)
Theorem C15_state_neg (R : realFieldType) (G : state R) : wfS G ->
  exists K, [/\ st_neg G = Ok K, wfS K, sshape K = sshape G, sgain K = sgain G & sdt K = sdt G] /\
  forall (L : fieldType) (f : {rmorphism R -> L}) (s : L),
    regS f K s = regS f G s /\ forall i j, (i < spn G)%N -> (j < smn G)%N -> ev f K s i j = - ev f G s i j.
Proof. exact: state_neg. Qed.
Print Assumptions C15_state_neg.

Theorem C15_state_sub (R : realFieldType) lim (G H : state R) :
  wfS G -> wfS H -> sshape G = sshape H -> sdt G = sdt H -> ~~ (sSISO G && (sgain G != sgain H)) ->
  exists K, [/\ st_sub lim.+3 G (OState H) = Ok K, wfS K & sshape K = sshape G] /\
  forall (L : fieldType) (f : {rmorphism R -> L}) (s : L), regS f G s -> regS f H s ->
    forall i j, (i < spn G)%N -> (j < smn G)%N -> ev f K s i j = ev f G s i j - ev f H s i j.
Proof. exact: state_sub. Qed.
Print Assumptions C15_state_sub.

Theorem C15_sub_self (R : realFieldType) lim (G : state R) : wfS G ->
  exists K, [/\ st_sub lim.+3 G (OState G) = Ok K, wfS K & sshape K = sshape G] /\
  forall (L : fieldType) (f : {rmorphism R -> L}) (s : L), regS f G s ->
    forall i j, (i < spn G)%N -> (j < smn G)%N -> ev f K s i j = 0.
Proof. exact: state_sub_self. Qed.
Print Assumptions C15_sub_self.
Example C15_ex : [/\ wfS exM, wfS exGd & is_ok (st_sub 5 exM (OState exM))].
Proof. by split; vm_compute. Qed.

(* ------------------------------------------------------------------ C16 *)
(* sv is the singular-value test of line 2450; with exact arithmetic it only ever rejects
   singular matrices when it is exact, which is the hypothesis of the success theorem. *)
Theorem C16_inverse (R : realFieldType) (sv : arr R -> bool) (G K : state R) :
  wfS G -> st_rtruediv sv G (OScal 1) = Ok K ->
  [/\ wfS K, spn G = smn G, sshape K = sshape G & sdt K = sdt G] /\
  forall (L : fieldType) (f : {rmorphism R -> L}) (s : L), regS f G s -> regS f K s ->
   forall i j, (i < spn G)%N -> (j < spn G)%N ->
    \sum_(l < spn G) ev f K s i l * ev f G s l j = (i == j)%:R /\
    \sum_(l < spn G) ev f G s i l * ev f K s l j = (i == j)%:R.
Proof. exact: st_rtruedivP. Qed.
Print Assumptions C16_inverse.

Theorem C16_inverse_iff (R : realFieldType) (sv : arr R -> bool) (G : state R) : wfS G ->
  (forall M : arr R, nr M = nc M -> sv M = (adet M == 0)) ->
  is_ok (st_rtruediv sv G (OScal 1)) =
  (spn G == smn G) && (mxof (idR R) (spn G) (spn G) (sd G) \in unitmx).
Proof. exact: inverse_iff. Qed.
Print Assumptions C16_inverse_iff.
Example C16_ex : wfS exH /\ is_ok (st_rtruediv (fun M => adet M == 0) exH (OScal 1)).
Proof. by split; vm_compute. Qed.
Example C16_ex_singular : if st_rtruediv (fun M => adet M == 0) exG (OScal 1) is Err LinAlgError then true else false.
Proof. by vm_compute. Qed.

(* the poles of 1/G are the points where G is not invertible *)
Theorem C16_inverse_poles (R : realFieldType) (sv : arr R -> bool) (G K : state R) :
  wfS G -> st_rtruediv sv G (OScal 1) = Ok K ->
  forall (L : fieldType) (f : {rmorphism R -> L}) (s : L), regS f G s ->
    regS f K s = (evalS f (spn G) (spn G) G s \in unitmx).
Proof. exact: inverse_poles. Qed.
Print Assumptions C16_inverse_poles.

(* ------------------------------------------------------------------ C17 *)
Theorem C17_getitem (R : realFieldType) (G : state R) (rs cs : seq nat) :
  wfS G -> rs != [::] -> cs != [::] ->
  (forall i, i \in rs -> (i < spn G)%N) -> (forall j, j \in cs -> (j < smn G)%N) ->
  exists K, [/\ st_getitem G rs cs = Ok K, wfS K, sshape K = (size rs, size cs), sdt K = sdt G & sgain K = sgain G] /\
  forall (L : fieldType) (f : {rmorphism R -> L}) (s : L),
   regS f K s = regS f G s /\
   forall i j, (i < size rs)%N -> (j < size cs)%N ->
     ev f K s i j = ev f G s (nth 0%N rs i) (nth 0%N cs j).
Proof. exact: getitem. Qed.
Print Assumptions C17_getitem.
Example C17_ex : wfS exM /\ is_ok (st_getitem exM [:: 1%N] [:: 2%N; 0%N]).
Proof. by split; vm_compute. Qed.

(* ------------------------------------------------------------------ C18 *)
Theorem C18_dt_mismatch (R : realFieldType) lim (G H : state R) : wfS H -> sdt G <> sdt H ->
  [/\ st_add lim.+1 G (OState H) = Err ValueError,
      st_sub lim.+1 G (OState H) = Err ValueError,
      st_matmul lim.+1 G (OState H) = Err ValueError &
      st_mul lim.+1 G (OState H) = Err ValueError].
Proof. exact: dt_mismatch. Qed.
Print Assumptions C18_dt_mismatch.
Example C18_ex : wfS exGd /\ sdt exG <> sdt exGd.
Proof. by split. Qed.

(* ------------------------------------------------------------------ C19 *)
(* which quadruples of 2-D arrays the constructor accepts *)
Theorem C19_validate_iff (R : realFieldType) (a b c d : arr R) (dt : option R) :
  is_ok (mkS a b c d dt) =
  [&& nr a == nc a, (nr b == nr a) || (nr b == 1%N) && (nc b == nr a), nc c == nr a,
      let m := if nr b == nr a then nc b else 1%N in
      (shp d == (nr c, m)) || (m == 1%N) && (shp d == (1%N, nr c)) &
      (if dt is Some v then 0 < v else true)].
Proof. exact: validate_iff. Qed.
Print Assumptions C19_validate_iff.

(* whatever the constructor accepts is a consistent model *)
Theorem C19_validate_wf (R : realFieldType) (a b c d : option (arr R)) (dt : option R) (G : state R) :
  (forall A, a = Some A -> wfa A) -> (forall A, b = Some A -> wfa A) ->
  (forall A, c = Some A -> wfa A) -> (forall A, d = Some A -> wfa A) ->
  mk_state a b c d dt = Ok G -> wfS G.
Proof. exact: validate_wf. Qed.
Print Assumptions C19_validate_wf.

(* consistent matrices are stored as they are; a single array is a static gain *)
Theorem C19_validate_stored (R : realFieldType) (a b c d : arr R) (dt : option R) :
  (nr a = nc a -> nr b = nr a -> nc c = nr a -> nr c = nr d -> nc b = nc d -> dt_ok dt ->
   mkS a b c d dt = Ok (St a b c d false dt)) /\
  (dt_ok dt -> mkGain d dt = Ok (St (e00 R) (e00 R) (e00 R) d true dt)).
Proof. exact: validate_stored. Qed.
Print Assumptions C19_validate_stored.
Example C19_ex : is_ok (mkS (sa exM) (sb exM) (sc exM) (sd exM) None).
Proof. by vm_compute. Qed.
