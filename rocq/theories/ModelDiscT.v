(* Model of discretize and undiscretize, /repo/harold/_discrete_funcs.py lines 95-133 and 245-279, for Transfer models.
   Definitions only.  The matrices are computed by discretize_args and undiscretize_args (ModelDiscrete.v), the conversions are
   ModelTransfer.v and ModelConvert.v; the external numerics are arguments as there. *)
From mathcomp Require Import all_ssreflect all_algebra.
From Coq Require Import String.
From Verif Require Import Base ModelState ModelObject ModelTransfer ModelConvert ModelDiscrete.

Set Implicit Arguments.
Unset Strict Implicit.
Unset Printing Implicit Defensive.

Import GRing.Theory Num.Theory.
Local Open Scope ring_scope.

(* A Transfer object with the attributes DiscretizedWith, DiscretizationMatrix, PrewarpFrequency *)
Record dtf (R : realFieldType) := DTf { ttf : tf R; tmeth : option string; tq : option (arr R); tpw : R }.

Section DiscT.
Variables (R : realFieldType) (L : fieldType) (f : {rmorphism R -> L}).
Variables (sq tn : R -> R) (pi : R) (expm : arr R -> arr R) (logm : arr R -> res (arr R)).
Variables (bal : arr R -> arr R * seq R) (nearzero : arr R -> bool).
Variables (re absL : L -> R) (eig : arr R -> seq L) (tz : arr R -> arr R -> arr R -> seq L) (lsq : arr R -> arr R -> arr R).
Variables (lcmf : seq (row R) -> res (row R * seq (row R))) (eps : R).
Let stt := state_to_transfer f re absL eig tz lsq lcmf eps.

(* lines 111-119: Gss, the discretised State model of a Transfer that is not a gain *)
Definition disc_state (G : tf R) (dt : R) (method : string) (prewarp_at : R) (q : option (arr R)) : res (state R) :=
  do T <- transfer_to_state lcmf eps G;
  do (Ad, Bd, Cd, Dd) <- discretize_args sq tn pi expm bal T dt method prewarp_at q;
  mkS Ad Bd Cd Dd (Some dt).

(* discretize, lines 95-133.  The setters are lines 305-345 of _classes.py, applied to a model with sampling period dt *)
Definition discretize_t (G : tf R) (dt : R) (method : string) (prewarp_at : R) (q : option (arr R)) : res (dtf R) :=
  guard str_in method known_methods else ValueError;
  guard ~~ isSome (tdt G) else ValueError;
  if tgain G then
    do _ <- transfer_to_state lcmf eps G;                             (* line 106, not used *)
    do d <- tf_array G;
    do Gd <- mk_tf lcmf eps (TArr d) TNone (Some dt);
    Ok (DTf Gd None None 0)
  else
    do Gss <- disc_state G dt method prewarp_at q;
    do Gd <- stt Gss;
    if String.eqb method "lft" then Ok (DTf Gd (Some method) q 0)
    else if str_in method m_tustin then
      guard ~~ (1 / (2%:R * dt) < prewarp_at) else ValueError;        (* PrewarpFrequency setter *)
      Ok (DTf Gd (Some method) None prewarp_at)
    else Ok (DTf Gd (Some method) None 0).

(* lines 272-274: the continuous State model *)
Definition undisc_state (G : tf R) (dt : R) (method : string) (prewarp_at : R) (q : option (arr R)) : res (state R) :=
  do T <- transfer_to_state lcmf eps G;
  do (Ac, Bc, Cc, Dc) <- undiscretize_args sq tn pi logm bal nearzero T dt method prewarp_at q;
  mkS Ac Bc Cc Dc None.

(* undiscretize, lines 245-274 *)
Definition undiscretize_t (o : dtf R) (method : option string) (prewarp_at : R) (q : option (arr R)) : res (tf R) :=
  let G := ttf o in
  if tdt G is Some dt then
    let method := if method is Some m then m else odflt "tustin"%string (tmeth o) in
    do q' <- (if String.eqb method "lft" then
                if ~~ isSome (tq o) && ~~ isSome q then Err ValueError
                else Ok (if isSome q then q else tq o)
              else Ok q);
    if tgain G then Err ValueError                                    (* Transfer(G.to_array): a bound method *)
    else
      do K <- undisc_state G dt method prewarp_at q';
      stt K
  else Err ValueError.
End DiscT.
