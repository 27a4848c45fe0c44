(* Model of + , * and @ between a State and a Transfer, /repo/harold/_classes.py lines 413-453 and 692-697 (Transfer + State,
   Transfer * State), 837-900 (Transfer @ State), 1997-2035 (State + Transfer) and 2113-2118, 2210-2261 (State * Transfer,
   State @ Transfer).  Definitions only.

   Simplifications: lim is the recursion limit, as in ModelState.v; lcmf and eps are those of transfer_to_state.  A numpy array
   on the left of + or @ is handed to __radd__ or __rmatmul__ of the model on the right, since __array_ufunc__ is None
   (lines 392 and 1933). *)
From mathcomp Require Import all_ssreflect all_algebra.
From Verif Require Import Base ModelState ModelTransfer ModelFeedbackT.

Set Implicit Arguments.
Unset Strict Implicit.
Unset Printing Implicit Defensive.

Import GRing.Theory Num.Theory.
Local Open Scope ring_scope.

Section Mixed.
Variable R : realFieldType.
Variable lcmf : seq (row R) -> res (row R * seq (row R)).
Variable eps : R.
Variable lim : nat.
Let tts := transfer_to_state lcmf eps.
Definition as_state (x : res (state R)) : res (fbx R) := do K <- x; Ok (XS K).
Definition as_transfer (x : res (tf R)) : res (fbx R) := do K <- x; Ok (XT K).

(* State.__add__ with a Transfer, lines 1997-2035 *)
Definition add_st (G : state R) (H : tf R) : res (fbx R) :=
  guard sdt G == tdt H else ValueError;                                         (* 1998-2000 *)
  if sgain G && tgain H then
    do g <- to_array G; do h <- tf_array H;                                     (* 2005-2011 *)
    as_state (do d <- np_add g h; mkGain d (sdt G))
  else if sgain G then
    do g <- to_array G; as_transfer (tf_add lcmf eps H (PArr2 g))               (* 2016 *)
  else if tgain H then
    do h <- tf_array H; as_state (st_add lim G (OArr2 h))                       (* 2018 *)
  else
    guard ~~ [&& ~~ sSISO G, ~~ tSISO H & sshape G != tshape H] else ValueError; (* 2026-2030 *)
    do K <- tts H; as_state (st_add lim G (OState K)).                          (* 2032, 2035 *)

(* Transfer.__add__ with a State, lines 413-453 *)
Definition add_ts (G : tf R) (H : state R) : res (fbx R) :=
  guard tdt G == sdt H else ValueError;                                         (* 417-419 *)
  if tgain G && sgain H then
    do g <- tf_array G; do h <- to_array H;                                     (* 424-430 *)
    as_state (do d <- np_add g h; mkGain d (tdt G))
  else if tgain G then
    do g <- tf_array G; as_state (st_add lim H (OArr2 g))                       (* 435 *)
  else if sgain H then
    do K <- tts G; do h <- to_array H; as_state (st_add lim K (OArr2 h))        (* 437 *)
  else
    guard ~~ [&& ~~ tSISO G, ~~ sSISO H & tshape G != sshape H] else ValueError; (* 444-448 *)
    do K <- tts G; as_state (st_add lim H (OState K)).                          (* 453 *)

(* State.__matmul__ and State.__mul__ with a Transfer, lines 2210-2261 *)
Definition matmul_st (G : state R) (H : tf R) : res (fbx R) :=
  guard sdt G == tdt H else ValueError;                                         (* 2211-2213 *)
  if sgain G && tgain H then
    do g <- to_array G; do h <- tf_array H;                                     (* 2218-2225 *)
    as_state (do d <- np_matmul g h; mkGain d (sdt G))
  else if sgain G then
    do g <- to_array G; as_transfer (tf_rmatmul lcmf eps H (PArr2 g))           (* 2230 *)
  else if tgain H then
    do h <- tf_array H; as_state (st_matmul lim G (OArr2 h))                    (* 2232 *)
  else if sSISO G == tSISO H then
    guard ~~ [&& ~~ sSISO G & smn G != tp H] else ValueError;                   (* 2241-2245 *)
    do K <- tts H; as_state (st_matmul lim G (OState K))                        (* 2247 *)
  else if sSISO G then
    let k := minn (tp H) (tm H) in
    do K <- tts H;
    do G' <- st_matmul lim G (OArr2 (aeye k));
    as_state (if (tm H <= tp H)%N then st_matmul lim K (OState G')              (* 2253 *)
              else st_matmul lim G' (OState K))                                 (* 2255 *)
  else
    let k := minn (spn G) (smn G) in
    do K <- tts H;
    do K' <- st_matmul lim K (OArr2 (aeye k));
    as_state (if (smn G <= spn G)%N then st_matmul lim G (OState K')            (* 2259 *)
              else st_matmul lim K' (OState G)).                                (* 2261 *)

(* Transfer.__mul__ with a State, lines 692-697: the factors change places *)
Definition mul_ts (G : tf R) (H : state R) : res (fbx R) :=
  guard tdt G == sdt H else ValueError;
  do K <- tts G; as_state (st_matmul lim H (OState K)).

(* Transfer.__matmul__ with a State, lines 847-848 and 894-900: the class State, not the operand, is multiplied, which
   State.__matmul__ refuses (2341-2344) *)
Definition matmul_ts (G : tf R) (H : state R) : res (fbx R) :=
  if tSISO G then mul_ts G H
  else
    guard tdt G == sdt H else ValueError;
    do _ <- tts G; Err ValueError.
End Mixed.
