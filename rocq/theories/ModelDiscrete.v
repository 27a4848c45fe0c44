(* Model of /repo/harold/_discrete_funcs.py for State models.  Definitions only.
   Transfer models go through transfer_to_state / state_to_transfer (lines 96-119, 260-265)
   and are modelled in ModelDiscT.v.
   Numerical primitives are arguments: sq (np.sqrt), tn (np.tan), pi, expm, logm, bal (matrix_balance
   without permutation: the scaled matrix and the scaling vector), nearzero (the eigenvalue test of
   lines 296 and 331). *)
From mathcomp Require Import all_ssreflect all_algebra.
From Coq Require Import String.
From Verif Require Import Base ModelState ModelObject.

Set Implicit Arguments.
Unset Strict Implicit.
Unset Printing Implicit Defensive.

Import GRing.Theory Num.Theory.
Local Open Scope ring_scope.

(* lines 184, 203-212 and the same lists in _undiscretize *)
Definition m_tustin : seq string := [:: "bilinear"; "tustin"; "trapezoidal"]%string.
Definition m_forward : seq string :=
  [:: "forward euler"; "forward difference"; "forward rectangular"; ">>"]%string.
Definition m_backward : seq string :=
  [:: "backward euler"; "backward difference"; "backward rectangular"; "<<"]%string.

Section Discrete.
Variable R : realFieldType.
Variables (sq tn : R -> R) (pi : R).
Variables (expm : arr R -> arr R) (logm : arr R -> res (arr R)).
Variable bal : arr R -> arr R * seq R.
Variable nearzero : arr R -> bool.

(* np.array([[q11, q12], [q21, q22]]) *)
Definition q2 (q11 q12 q21 q22 : R) : arr R := of_rows [:: [:: q11; q12]; [:: q21; q22]].

(* _simple_lft_connect, lines 412-490; warnings are not modelled *)
Definition simple_lft (q A B C D : arr R) : res (arr R * arr R * arr R * arr R) :=
  guard shp q == (2, 2)%N else ValueError;
  let n := nr A in
  let ij := aeye n in
  let q11 := get q 0 0 in let q12 := get q 0 1 in let q21 := get q 1 0 in let q22 := get q 1 1 in
  do NAinv <- (if q22 == 0 then Ok ij
               else do X <- np_sub ij (ascale q22 A); np_solve X (aeye n));
  do AN <- np_matmul (ascale q12 A) NAinv;
  do Ad <- np_add (ascale q11 ij) (ascaler AN q21);
  do Bd <- (if q22 != 0 then
              do X <- np_matmul A NAinv;
              do Y <- np_add (ascaler X q22) ij;
              np_matmul (ascale q12 Y) B
            else Ok (ascale q12 B));
  do CN <- np_matmul C NAinv;
  let Cd := ascaler CN q21 in
  do Dd <- (if q22 != 0 then
              do Y <- np_matmul (ascaler CN q22) B; np_add D Y
            else Ok D);
  Ok (Ad, Bd, Cd, Dd).

(* eM * (sca[:, None] * np.reciprocal(sca)) *)
Definition unscale (E : arr R) (sca : seq R) : arr R :=
  mk (nr E) (nc E) (fun i j => get E i j * (nth 0 sca i * (nth 0 sca j)^-1)).

(* lines 160-167: zoh *)
Definition disc_zoh (T : state R) (dt : R) : res (arr R * arr R * arr R * arr R) :=
  let m := smn T in let n := snn T in
  let M := avcat (ahcat (sa T) (sb T)) (azeros m (m + n)) in
  let: (Ms, sca) := bal M in
  let eM := unscale (expm (ascaler Ms dt)) sca in
  Ok (asubm eM 0 n 0 n, asubm eM 0 n n (nc eM), sc T, sd T).

(* lines 169-196: foh *)
Definition disc_foh (T : state R) (dt : R) : res (arr R * arr R * arr R * arr R) :=
  let m := smn T in let n := snn T in
  let M := avcat (adiag2 (ascaler (ahcat (sa T) (sb T)) dt) (aeye m)) (azeros m (n + 2 * m)) in
  let: (Ms, sca) := bal M in
  let eM := unscale (expm Ms) sca in
  let Ad := asubm eM 0 n 0 n in
  let Bd0 := asubm eM 0 n n (n + m) in
  let Bd1 := asubm eM 0 n (n + m) (nc eM) in
  do X <- np_matmul Ad Bd1;
  do Y <- np_add Bd0 X;
  do Bd <- np_sub Y Bd1;
  do Z <- np_matmul (sc T) Bd1;
  do Dd <- np_add (sd T) Z;
  Ok (Ad, Bd, sc T, Dd).

(* lines 193-200: the prewarped interval, sq2tan *)
Definition sq2tan (dt w : R) : R :=
  let prew_rps := 2%:R * pi * w in sq (2%:R * tn (prew_rps * dt / 2%:R) / prew_rps).

(* _discretize, lines 135-210 *)
Definition discretize_args (T : state R) (dt : R) (method : string) (prewarp_at : R) (q : option (arr R)) :
    res (arr R * arr R * arr R * arr R) :=
  let lft q := simple_lft q (sa T) (sb T) (sc T) (sd T) in
  if String.eqb method "zoh" then disc_zoh T dt
  else if String.eqb method "foh" then disc_foh T dt
  else if str_in method m_tustin then
    if prewarp_at == 0 then lft (q2 1 (sq dt) (sq dt) (dt / 2%:R))
    else
      guard ~~ (1 / (2%:R * dt) < prewarp_at) else ValueError;
      let t := sq2tan dt prewarp_at in lft (q2 1 t t (t ^+ 2 / 2%:R))
  else if str_in method m_forward then lft (q2 1 (sq dt) (sq dt) 0)
  else if str_in method m_backward then lft (q2 1 (sq dt) (sq dt) dt)
  else if String.eqb method "lft" then
    if q is Some q then lft q else Err ValueError
  else Err UnboundLocalError.            (* no branch assigns Ad *)

(* A State object with the attributes DiscretizedWith, DiscretizationMatrix, PrewarpFrequency *)
Record dsys := DSys { dst : state R; dmeth : option string; dq : option (arr R); dpw : R }.

(* discretize, lines 83-132, for a State.  The setters of lines 1868-1908 of _classes.py are
   applied to a model that already has the sampling period dt. *)
Definition discretize (G : state R) (dt : R) (method : string) (prewarp_at : R) (q : option (arr R)) :
    res dsys :=
  guard str_in method known_methods else ValueError;
  guard ~~ isSome (sdt G) else ValueError;
  if sgain G then
    do d <- to_array G;
    do Gd <- mkGain d (Some dt);
    Ok (DSys Gd None None 0)
  else
    do (Ad, Bd, Cd, Dd) <- discretize_args G dt method prewarp_at q;
    do Gd <- mkS Ad Bd Cd Dd (Some dt);
    if String.eqb method "lft" then Ok (DSys Gd (Some method) q 0)
    else if str_in method m_tustin then
      guard ~~ (1 / (2%:R * dt) < prewarp_at) else ValueError;      (* PrewarpFrequency setter *)
      Ok (DSys Gd (Some method) None prewarp_at)
    else Ok (DSys Gd (Some method) None 0).

(* lines 293-309: inverse of zoh *)
Definition undisc_zoh (T : state R) (dt : R) : res (arr R * arr R * arr R * arr R) :=
  let m := smn T in let n := snn T in
  guard ~~ nearzero (sa T) else ValueError;
  let M := avcat (ahcat (sa T) (sb T)) (ahcat (azeros m n) (aeye m)) in
  let: (Ms, sca) := bal M in
  do lM <- logm Ms;                     (* a complex logarithm is a ValueError *)
  let eM := ascaler (unscale lM sca) (1 / dt) in
  Ok (asubm eM 0 n 0 n, asubm eM 0 n n (nc eM), sc T, sd T).

(* lines 311-360: inverse of foh *)
Definition undisc_foh (T : state R) (dt : R) : res (arr R * arr R * arr R * arr R) :=
  let m := smn T in let n := snn T in
  guard ~~ nearzero (sa T) else ValueError;
  let M := avcat (avcat (ahcat (ahcat (sa T) (ascale dt (sb T))) (azeros n m))
                        (ahcat (ahcat (azeros m n) (aeye m)) (aeye m)))
                 (ahcat (azeros m (n + m)) (aeye m)) in
  let: (Ms, sca) := bal M in
  do lM <- logm Ms;
  let eM := unscale (amap (fun x => x / dt) lM) sca in
  let Ac := asubm eM 0 n 0 n in
  let Bc0 := asubm eM 0 n n (n + m) in
  let Bc1 := aneg (asubm eM 0 n (n + m) (nc eM)) in
  let M := avcat (ahcat (sa T) Bc0) (ahcat (azeros m n) (aeye m)) in
  let: (Ms, sca) := bal M in
  do lM <- logm Ms;
  let eM := unscale (amap (fun x => x / dt) lM) sca in
  do Z <- np_matmul (sc T) Bc1;
  do Dc <- np_sub (sd T) Z;
  Ok (Ac, asubm eM 0 n n (nc eM), sc T, Dc).

(* _undiscretize, lines 283-403 *)
Definition undiscretize_args (T : state R) (dt : R) (method : string) (prewarp_at : R) (q : option (arr R)) :
    res (arr R * arr R * arr R * arr R) :=
  let lft q := simple_lft q (sa T) (sb T) (sc T) (sd T) in
  if String.eqb method "zoh" then undisc_zoh T dt
  else if String.eqb method "foh" then undisc_foh T dt
  else if str_in method m_tustin then
    if prewarp_at == 0 then
      lft (q2 (- (2%:R / dt)) (2%:R / sq dt) (2%:R / sq dt) (-1))
    else
      guard ~~ (1 / (2%:R * dt) <= prewarp_at) else ValueError;
      let t := sq2tan dt prewarp_at in lft (q2 (- (2%:R / t ^+ 2)) (1 / t) (1 / t) (-1))
  else if str_in method m_forward then
    lft (q2 (- (1 / dt)) (1 / sq dt) (1 / sq dt) 0)
  else if str_in method m_backward then
    let n := snn T in
    do iAd <- (match np_solve (sa T) (aeye n) with
               | Err LinAlgError => Err ValueError | r => r end);
    do X <- np_sub (aeye n) iAd;
    let Ac := amap (fun x => x / dt) X in
    do iB <- np_matmul iAd (sb T);
    do Ci <- np_matmul (sc T) iAd;
    do CiB <- np_matmul Ci (sb T);
    do Dc <- np_sub (sd T) CiB;
    Ok (Ac, ascale (1 / sq dt) iB, ascale (1 / sq dt) Ci, Dc)
  else if String.eqb method "lft" then
    if q is Some q then lft q else Err ValueError
  else Err UnboundLocalError.

(* undiscretize, lines 237-280, for a State object *)
Definition undiscretize (o : dsys) (method : option string) (prewarp_at : R) (q : option (arr R)) :
    res (state R) :=
  let G := dst o in
  if sdt G is Some dt then
    let method := if method is Some m then m else odflt "tustin"%string (dmeth o) in
    do q' <- (if String.eqb method "lft" then
                if ~~ isSome (dq o) && ~~ isSome q then Err ValueError
                else Ok (if isSome q then q else dq o)
              else Ok q);
    if sgain G then Err ValueError      (* State(G.to_array): a bound method is not a matrix *)
    else
      do (Ac, Bc, Cc, Dc) <- undiscretize_args G dt method prewarp_at q';
      mkS Ac Bc Cc Dc None
  else Err ValueError.

End Discrete.
