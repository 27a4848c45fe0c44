(* Model of State and Transfer objects with their derived and book-keeping attributes and of the
   assignments to their public attributes (/repo/harold/_classes.py).  Definitions only.

   Simplifications:
   - eigvals and transmission_zeros are arguments (eig, tz) with values in arbitrary types; abs(p) < 1
     and real(p) < 0 are the arguments inZ and inR;
   - argument values are arrays (or None), float() of a non-number is not modelled;
   - _rz and _isdiscrete always say whether _dt is a number (1851-1866) and are not stored. *)
From mathcomp Require Import all_ssreflect all_algebra.
From Coq Require Import String.
From Verif Require Import Base ModelPoly ModelState ModelTransfer.

Set Implicit Arguments.
Unset Strict Implicit.
Unset Printing Implicit Defensive.

Import GRing.Theory Num.Theory.
Local Open Scope ring_scope.

(* _KnownDiscretizationMethods, _global_constants.py lines 24-35 *)
Definition known_methods : seq string :=
  [:: "bilinear"; "tustin"; "zoh"; "foh"; "forward difference"; "forward euler"; "forward rectangular";
      "backward difference"; "backward euler"; "backward rectangular"; "lft"; ">>"; "<<" ]%string.
(* value in a tuple of strings *)
Definition str_in (v : string) (l : seq string) : bool := has (String.eqb v) l.
Definition prewarp_methods : seq string := [:: "tustin"; "bilinear"; "trapezoidal"]%string.

Section Object.
Variable R : realFieldType.
Variables P Z : Type.               (* poles, the collection of zeros *)
Variable eig : arr R -> seq P.
Variable tz : state R -> Z.
Variable nozeros : Z.
Variables (inZ inR : P -> bool).

(* _set_stability, lines 1921-1925 (and 380-384) *)
Definition stab (dt : option R) (ps : seq P) : bool := all (if isSome dt then inZ else inR) ps.

(* ------------------------------------------------------------------ *)
(* State                                                                *)

(* a State object: data, poles, zeros, _isstable, _DiscretizedWith, _DiscretizationMatrix,
   _PrewarpFrequency (lines 1619-1638) *)
Record sobj := SObj { ost : state R; opoles : seq P; ozeros : Z; ostable : bool;
  ometh : option string; oq : option (arr R); opw : R }.

(* _recalc, lines 1910-1919, for new data G *)
Definition s_recalc (o : sobj) (G : state R) : sobj :=
  let ps := if sgain G then [::] else eig (sa G) in
  let zs := if sgain G then nozeros else tz G in
  SObj G ps zs (stab (sdt G) ps) (ometh o) (oq o) (opw o).

(* __init__, lines 1602-1638 *)
Definition new_sobj (a b c d : option (arr R)) (dt : option R) : res sobj :=
  do G <- mk_state a b c d dt;
  Ok (s_recalc (SObj G [::] nozeros false None None 0) G).

(* an assignment to a public attribute *)
Inductive sassign :=
  | SetA of option (arr R) | SetB of option (arr R) | SetC of option (arr R) | SetD of option (arr R)
  | SetDt of option R | SetMeth of string | SetQ of arr R | SetPw of R.

(* np.zeros_like *)
Definition zlike (A : arr R) : option (arr R) := Some (azeros (nr A) (nc A)).

(* the setters, lines 1807-1908: the object after the call, and what was raised *)
Definition sstep (o : sobj) (x : sassign) : sobj * option exc :=
  let G := ost o in
  match x with
  | SetA v => (* 1807-1816 *)
      match st_validate v (zlike (sb G)) (zlike (sc G)) (zlike (sd G)) with
      | Ok (a, _, _, _, _) => (s_recalc o (St a (sb G) (sc G) (sd G) (sgain G) (sdt G)), None)
      | Err e => (o, Some e) end
  | SetB v => (* 1818-1827 *)
      match st_validate (zlike (sa G)) v (zlike (sc G)) (zlike (sd G)) with
      | Ok (_, b, _, _, _) => (s_recalc o (St (sa G) b (sc G) (sd G) (sgain G) (sdt G)), None)
      | Err e => (o, Some e) end
  | SetC v => (* 1829-1838 *)
      match st_validate (zlike (sa G)) (zlike (sb G)) v (zlike (sd G)) with
      | Ok (_, _, c, _, _) => (s_recalc o (St (sa G) (sb G) c (sd G) (sgain G) (sdt G)), None)
      | Err e => (o, Some e) end
  | SetD v => (* 1840-1849 *)
      match st_validate (zlike (sa G)) (zlike (sb G)) (zlike (sc G)) v with
      | Ok (_, _, _, d, _) => (s_recalc o (St (sa G) (sb G) (sc G) d (sgain G) (sdt G)), None)
      | Err e => (o, Some e) end
  | SetDt v => (* 1851-1866 *)
      match check_dt v with
      | Ok dt => (SObj (St (sa G) (sb G) (sc G) (sd G) (sgain G) dt) (opoles o) (ozeros o) (ostable o)
                       (ometh o) (oq o) (opw o), None)
      | Err e => (o, Some e) end
  | SetMeth v => (* 1868-1880 *)
      if str_in v known_methods then
        if isSome (sdt G) then (SObj G (opoles o) (ozeros o) (ostable o) (Some v) (oq o) (opw o), None)
        else (o, Some ValueError)
      else (o, Some ValueError)
  | SetQ q => (* 1882-1889 *)
      if (if ometh o is Some v then String.eqb v "lft" else false)
      then (SObj G (opoles o) (ozeros o) (ostable o) (ometh o) (Some q) (opw o), None)
      else (o, Some ValueError)
  | SetPw w => (* 1891-1908; 1/(2*None) is a TypeError *)
      if (if ometh o is Some v then str_in v prewarp_methods else false) then
        if sdt G is Some h then
          if 1 / (2%:R * h) < w then (o, Some ValueError)
          else (SObj G (opoles o) (ozeros o) (ostable o) (ometh o) (oq o) w, None)
        else (o, Some TypeError)
      else (o, Some ValueError)
  end.

Definition srun (o : sobj) (l : seq sassign) : sobj := foldl (fun o x => (sstep o x).1) o l.

(* ------------------------------------------------------------------ *)
(* Transfer: data, poles, _isstable                                     *)

Variable lcmf : seq (row R) -> res (row R * seq (row R)).
Variable eps : R.

Record tobj := TObj { ott : tf R; otpoles : seq P; otstable : bool }.

(* _recalc, lines 347-378: the poles may be stored before the zeros raise *)
Definition t_recalc (o : tobj) (G : tf R) : tobj * option exc :=
  let fail e := (TObj G (otpoles o) (otstable o), Some e) in
  let fin ps := (TObj G ps (stab (tdt G) ps), None) in
  if tgain G then fin [::]
  else if tSISO G then
    match haroldcompanion (ent (td G) 0 0), sq_ok (haroldcompanion (ent (td G) 0 0)) with
    | Ok A, Ok _ =>
        if size (ent (tn G) 0 0) == 1%N then fin (eig A)
        else match sq_ok (haroldcompanion (ent (tn G) 0 0)) with
             | Ok _ => fin (eig A)
             | Err e => (TObj G (eig A) (otstable o), Some e) end
    | Err e, _ | _, Err e => fail e
    end
  else
    match tf_validate (TLL (tn G)) (TLL (td G)) with
    | Err e => fail e
    | Ok (N, D, g) =>
      match tts_abcd lcmf eps N D g with
      | Err e => fail e
      | Ok (A, _, _, _) =>
        if asize (odflt (azeros 0 0) A) == 0%N then
          let: (p, m) := tshape G in
          match tf_validate (TLL (grid p m (fun _ _ => [:: 1]))) (TLL (td G)) with
          | Err e => fail e
          | Ok (N1, D1, g1) =>
            match tts_abcd lcmf eps N1 D1 g1 with
            | Err e => fail e
            | Ok (A1, _, _, _) => fin (eig (odflt (azeros 0 0) A1)) end end
        else fin (eig (odflt (azeros 0 0) A)) end end.

(* num, den and SamplingPeriod setters, lines 258-303 *)
Definition tostep (o : tobj) (x : tassign R) : tobj * option exc :=
  let G := ott o in
  match x with
  | ANum v =>
      match tf_validate v (pm_arg (tSISO G) (td G)) with
      | Err e => (o, Some e)
      | Ok (N, _, _) =>
          if pshape N != tshape G then (o, Some IndexError)
          else t_recalc o (Tf N (td G) (tgain G) (tdt G)) end
  | ADen v =>
      match tf_validate (pm_arg (tSISO G) (tn G)) v with
      | Err e => (o, Some e)
      | Ok (N, D, _) =>
          if pshape N != tshape G then (o, Some IndexError)
          else t_recalc o (Tf (tn G) D (tgain G) (tdt G)) end
  | ADt v =>
      match check_dt v with
      | Err e => (o, Some e)
      | Ok dt => (TObj (Tf (tn G) (td G) (tgain G) dt) (otpoles o) (otstable o), None) end
  end.
Definition torun (o : tobj) (l : seq (tassign R)) : tobj := foldl (fun o x => (tostep o x).1) o l.

End Object.

Arguments SetA {R}. Arguments SetB {R}. Arguments SetC {R}. Arguments SetD {R}.
Arguments SetDt {R}. Arguments SetMeth {R}. Arguments SetQ {R}. Arguments SetPw {R}.
