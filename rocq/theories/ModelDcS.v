(* Model of State.dcgain, /repo/harold/_system_funcs.py lines 535-582.  Definitions only.
   _minimal_realization_state is min_state (ModelMin.v); tol is its default tolerance 1e-6 and big is 1/np.spacing(1.).
   The warnings are not modelled.  scipy's solve is np_solve (Base.v): it raises LinAlgError on a singular matrix. *)
From mathcomp Require Import all_ssreflect all_algebra.
From Coq Require Import String.
From Verif Require Import Base ModelState ModelTransfer ModelAux ModelMin ModelDc.

Set Implicit Arguments.
Unset Strict Implicit.
Unset Printing Implicit Defensive.

Import GRing.Theory Num.Theory.
Local Open Scope ring_scope.

Section DcS.
Variable R : realFieldType.
Variable npsvd : arr R -> arr R * seq R * arr R.
Variable spac : R.
Variable cdist : arr R -> arr R -> R.
Variable balance : arr R -> arr R * arr R.
Variables (tol big : R).

(* the 2-D array of floats, or the float np.inf of line 557 *)
Inductive dcres := DcArr of seq (seq (fval R)) | DcInf.

(* np.eye(n) - aa if self._dt else -aa, line 550; lines 569 and 573 give the same matrix *)
Definition shifted (dt : option R) (A : arr R) : arr R :=
  if dt is Some _ then asub (aeye (nr A)) A else aneg A.

(* cc @ solve(...), lines 549-550 and 563-573 *)
Definition dc_solve (dt : option R) (A B C : arr R) : res (arr R) :=
  do X <- np_solve (shifted dt A) B; Ok (amul C X).

(* x + d with x possibly inf *)
Definition fplus (x : fval R) (d : R) : fval R := if x is Fin v then Fin (v + d) else x.

(* lines 563-579 for one channel: the inner except turns a singular matrix into inf *)
Definition dc_channel (G : state R) (r c : nat) : res (fval R) :=
  do (A, B, C) <- min_state npsvd spac cdist balance tol (sa G) (acols (sb G) [:: c]) (arows (sc G) [:: r]);
  match dc_solve (sdt G) A B C with
  | Ok V => Ok (if big < `|get V 0 0| then Inf R true else Fin (get V 0 0))
  | Err LinAlgError => Ok (Inf R true)
  | Err e => Err e
  end.

(* lines 537-580; the loops run over the columns first *)
Definition state_dcgain (G : state R) : res dcres :=
  let p := spn G in
  let m := smn G in
  if sgain G then Ok (DcArr (mkseq (fun i => mkseq (fun j => Fin (get (sd G) i j)) m) p))
  else
    match (do (A, B, C) <- min_state npsvd spac cdist balance tol (sa G) (sb G) (sc G); dc_solve (sdt G) A B C) with
    | Ok V => Ok (DcArr (mkseq (fun i => mkseq (fun j =>
                fplus (if big < get V i j then Inf R true else Fin (get V i j)) (get (sd G) i j)) m) p))
    | Err LinAlgError =>
        if sSISO G then Ok DcInf
        else
          do cols <- gridR m p (fun c r => dc_channel G r c);
          Ok (DcArr (mkseq (fun i => mkseq (fun j => fplus (nth (Fin 0) (nth [::] cols j) i) (get (sd G) i j)) m) p))
    | Err e => Err e
    end.
End DcS.
