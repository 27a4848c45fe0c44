(* Model of /repo/harold/_kalman_ops.py.  Definitions only.
   Arrays are 2-D; np.linalg.svd is the argument npsvd, np.spacing(1.) the argument spac (see ModelAux.v). *)
From mathcomp Require Import all_ssreflect all_algebra.
From Coq Require Import String.
From Verif Require Import Base ModelState ModelAux.

Set Implicit Arguments.
Unset Strict Implicit.
Unset Printing Implicit Defensive.

Import GRing.Theory Num.Theory.
Local Open Scope ring_scope.

Section Kalman.
Variable R : realFieldType.
Variable npsvd : arr R -> arr R * seq R * arr R.
Variable spac : R.
Local Notation haroldsvd A := (haroldsvd npsvd spac A None).

(* a State model or a tuple of arrays *)
Inductive sarg := Sys of state R | Tup of seq (arr R).

(* _assert_square, _array_validators.py lines 16-23 *)
Definition assert_square (a : arr R) : res unit := guard nr a == nc a else LinAlgError; Ok tt.

(* _state_or_abcd(arg, 2) and  A, B = (G.a, G.b) if sys_flag else mats;
   _classes.py lines 3303-3326 and _kalman_ops.py lines 41-46.
   A tuple with one element gives four matrices, which cannot be unpacked into two. *)
Definition get_ab (g : sarg) : res (arr R * arr R) :=
  match g with
  | Sys G => Ok (sa G, sb G)
  | Tup [::] => Err IndexError
  | Tup [:: _] => Err ValueError
  | Tup (a :: b :: _) =>
      do _ <- assert_square a;
      guard nr b == nr a else ValueError;
      Ok (a, b)
  end.

(* _state_or_abcd(arg, -1); _classes.py lines 3347-3354.  The error message of a size mismatch mentions the
   unassigned variable b. *)
Definition get_ac (g : sarg) : res (arr R * arr R) :=
  match g with
  | Sys G => Ok (sa G, sc G)
  | Tup [::] => Err IndexError
  | Tup [:: _] => Err ValueError
  | Tup (a :: c :: _) =>
      do _ <- assert_square a;
      guard nc c == nr a else UnboundLocalError;
      Ok (a, c)
  end.

(* Cc = B; for i in range(1, n): Cc = np.hstack((Cc, matrix_power(A, i).dot(B))); lines 48-52 *)
Definition ctrb (A B : arr R) : arr R :=
  foldl (fun Cc i => ahcat Cc (amul (apow A i) B)) B (iota 1 (nr A).-1).

(* lines 98-102 *)
Definition obsv (A C : arr R) : arr R :=
  foldl (fun Co i => avcat Co (amul C (apow A i))) C (iota 1 (nr A).-1).

(* controllability_matrix, lines 41-59 *)
Definition controllability_matrix (g : sarg) (compress : bool) : res (arr R * arr R * nat) :=
  do (A, B) <- get_ab g;
  let Cc := ctrb A B in
  do (T, Sg, V, r) <- haroldsvd Cc;
  if compress then Ok (amul Sg (aT V), T, r) else Ok (Cc, T, r).

(* observability_matrix, lines 90-109 *)
Definition observability_matrix (g : sarg) (compress : bool) : res (arr R * arr R * nat) :=
  do (A, C) <- get_ac g;
  let Co := obsv A C in
  do (T, Sg, V, r) <- haroldsvd Co;
  if compress then Ok (amul T Sg, aT V, r) else Ok (Co, V, r).

(* is_kalman_controllable, lines 267-279 *)
Definition is_kalman_controllable (g : sarg) : res bool :=
  do (A, B) <- get_ab g;
  do (Cc, T, r) <- controllability_matrix (Tup [:: A; B]) false;
  Ok (~~ (r < nr A)%N).

(* is_kalman_observable, lines 297-310 *)
Definition is_kalman_observable (g : sarg) : res bool :=
  do (A, C) <- get_ac g;
  do (Co, T, r) <- observability_matrix (Tup [:: A; C]) false;
  Ok (~~ (r < nr A)%N).

(* M[abs(M) < cleanup_threshold] = 0. *)
Definition cleanup (th : R) (M : arr R) : arr R := amap (fun x => if `|x| < th then 0 else x) M.

(* solve(T, M) @ T etc. *)
Definition transform (th : R) (T a b c : arr R) : res (arr R * arr R * arr R) :=
  do x <- np_solve T a;
  do y <- np_solve T b;
  Ok (cleanup th (amul x T), cleanup th y, cleanup th (amul c T)).

(* kalman_decomposition with compute_T=True, lines 178-252: the model and the transformation.
   The forms without T and with output='matrices' return parts of the same data. *)
Definition kalman_decomposition (th : R) (G : state R) : res (state R * option (arr R)) :=
  if sgain G then Ok (G, None) else
  let n := nr (sa G) in
  do ctr <- is_kalman_controllable (Sys G);
  do (Tc, r) <- (if ctr then Ok (aeye n, n)
                 else do (Cc, T, r) <- controllability_matrix (Sys G) false; Ok (T, r));
  do (ac, bc, cc) <- transform th Tc (sa G) (sb G) (sc G);
  guard r != 0%N else ValueError;
  do To <- (if r != n then
              do (_, To1, _) <- observability_matrix (Tup [:: asubm ac 0 r 0 r; asubm cc 0 (nr cc) 0 r]) false;
              do (_, To2, _) <- observability_matrix (Tup [:: asubm ac r n r n; asubm cc 0 (nr cc) r n]) false;
              Ok (adiag2 To1 To2)
            else
              do obs <- is_kalman_observable (Tup [:: ac; cc]);
              if obs then Ok (aeye n)
              else do (_, To, _) <- observability_matrix (Tup [:: ac; cc]) false; Ok To);
  do (A, B, C) <- transform th To ac bc cc;
  do K <- mkS A B C (sd G) (sdt G);
  Ok (K, Some (amul Tc To)).

End Kalman.
