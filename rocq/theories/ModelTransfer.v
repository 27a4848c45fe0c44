(* Model of the Transfer class of /repo/harold/_classes.py (lines 25-1594) and of
   transfer_to_state (lines 2898-3147).  Definitions only.

   Simplifications (everywhere in this file):
   - numbers are exact elements of an ordered field R instead of floats; a division by
     zero, which numpy turns into inf/nan with a warning, is a ZeroDivisionError;
   - an entry (a 1-by-n array) is its list of coefficients, highest power first; a SISO
     model keeps its only entry in a 1-by-1 list of lists;
   - the derived attributes poles/zeros/isstable are not stored, only the exceptions their
     computation raises (_recalc) are modelled; eigvals and transmission_zeros of a
     square matrix do not raise;
   - haroldlcm is the argument lcmf; eps is the threshold spacing(100.) of lines 2993 and 3032. *)
From mathcomp Require Import all_ssreflect all_algebra.
From Verif Require Import Base ModelPoly ModelState.

Set Implicit Arguments.
Unset Strict Implicit.
Unset Printing Implicit Defensive.

Import GRing.Theory Num.Theory.
Local Open Scope ring_scope.

Section Grid.
Variable A : Type.

(* run the list from left to right, stop at the first exception *)
Fixpoint seqR (s : seq (res A)) : res (seq A) :=
  if s is x :: s' then do a <- x; do t <- seqR s'; Ok (a :: t) else Ok [::].

(* [[f(i,j) for j in range(m)] for i in range(p)] *)
Definition grid (p m : nat) (f : nat -> nat -> A) : seq (seq A) :=
  mkseq (fun i => mkseq (f i) m) p.
End Grid.

(* the same with an entry computation that can raise *)
Definition gridR A (p m : nat) (f : nat -> nat -> res A) : res (seq (seq A)) :=
  seqR [seq seqR row | row <- grid p m f].

Section Transfer.
Variable R : realFieldType.

Definition row := seq R.
Definition pmat := seq (seq row).

Definition ent (M : pmat) (i j : nat) : row := nth [::] (nth [::] M i) j.

(* The arguments num, den of the constructor: None, a flat list of numbers, a list of lists
   whose entries are coefficient lists (or numbers, or 1-D/1-by-n arrays), an ndarray (a 1-D
   array counts as one row), a number. *)
Inductive targ :=
  | TNone | TFlat of row | TLL of pmat | TArr of arr R | TNum of R.

(* a 1-by-n array *)
Definition trow (p : row) : targ := TArr (row_of p).

(* What the loop of lines 1193-1328 makes of one argument *)
Inductive treg := RNone | RSiso of row | RMimo of pmat.

Definition flat_arr (A : arr R) : row := flatten (grid (nr A) (nc A) (get A)).

(* lines 1200-1324 *)
Definition reg_arg (a : targ) : res treg :=
  match a with
  | TNone => Ok RNone                                                   (* 1200-1205 *)
  | TFlat l =>
      (* 1212, 1237: [] counts as a list of lists, max([]) is a ValueError *)
      if l == [::] then Err ValueError
      (* 1270-1278 *)
      else if ~~ has (fun c => c != 0) l then Ok (RSiso [:: 0])
      else Ok (RSiso (trimf l))
  | TLL ll =>
      if ll is r0 :: rest then
        (* 1220-1228 *)
        if (rest == [::]) && (size r0 == 1%N) then Ok (RSiso (head [::] r0))
        (* 1237-1262 *)
        else if all (fun r => size r == size r0) rest then Ok (RMimo ll)
        else Err IndexError
      else Err ValueError
  | TArr A =>
      (* 1292-1305 *)
      if (1 < nr A)%N && (1 < nc A)%N
      then Ok (RMimo (grid (nr A) (nc A) (fun i j => [:: get A i j])))
      else Ok (RSiso (flat_arr A))
  | TNum x => Ok (RSiso [:: x])                                         (* 1309-1314 *)
  end.

(* len(arg), len(arg[0]) *)
Definition pshape (M : pmat) := (size M, size (head [::] M)).

(* Transfer.validate_arguments, lines 1339-1594: (num, den, Gain_flag) *)
Definition tf_combine (n d : treg) : res (pmat * pmat * bool) :=
  do nd <- (match n, d with
    | RMimo N, RMimo D => (* 1340-1389 *)
        guard pshape N == pshape D else IndexError;
        guard ~~ has (fun xy => (size (trimf xy.2) < size (trimf xy.1))%N)
                 (zip (flatten N) (flatten D)) else ValueError;
        Ok (N, D)
    | RNone, RMimo D => (* 1409-1425 *)
        let: (p, m) := pshape D in Ok (grid p m (fun _ _ => [:: 1]), D)
    | RSiso x, RMimo D => (* 1428-1464 *)
        guard ~~ has (fun y : row => (size y < size (trimf x))%N) (flatten D) else ValueError;
        let: (p, m) := pshape D in Ok (grid p m (fun _ _ => x), D)
    | RMimo N, RNone => (* 1471-1510 *)
        guard ~~ has (fun x : row => ~~ (size x < 2)%N) (flatten N) else ValueError;
        let: (p, m) := pshape N in Ok (N, grid p m (fun _ _ => [:: 1]))
    | RMimo N, RSiso y => (* 1513-1550 *)
        guard ~~ has (fun x : row => (size (trimf y) < size x)%N) (flatten N) else ValueError;
        let: (p, m) := pshape N in Ok (N, grid p m (fun _ _ => y))
    | RNone, RNone => Err AttributeError (* 1562, 1569: returned_numden_list[1] is a list *)
    | _, _ => (* 1553-1571 *)
        let x := if n is RSiso x then x else [:: 1] in
        let y := if d is RSiso y then y else [:: 1] in
        guard (size x <= size y)%N else ValueError;
        Ok ([:: [:: x]], [:: [:: y]])
    end);
  (* 1577-1592 *)
  let: (N, D) := nd in
  guard flatten D != [::] else ValueError;
  Ok (N, D, maxsize (flatten D) == 1%N).

Definition tf_validate (num den : targ) : res (pmat * pmat * bool) :=
  do n <- reg_arg num; do d <- reg_arg den; tf_combine n d.

(* ------------------------------------------------------------------ *)
(* transfer_to_state                                                    *)

Variable lcmf : seq row -> res (row * seq row).
Variable eps : R.

(* C[x, k:k+size] = v for a slice that numpy clips at the number of columns *)
Definition awrite (C : arr R) (x k : nat) (v : row) : res (arr R) :=
  if (k + size v <= nc C)%N || (size v == 1%N) then
    Ok (mk (nr C) (nc C) (fun i j =>
      if (i == x) && (k <= j)%N && (j < k + size v)%N then nth 0 v (j - k) else get C i j))
  else Err ValueError.

(* num[x][y]/den[x][y] of two arrays of one element *)
Definition div11 (x y : row) : res R :=
  guard (size x == 1%N) && (size y == 1%N) else ValueError;
  guard head 0 y != 0 else ZeroDivisionError;
  Ok (head 0 x / head 0 y).

(* a p-by-m array of computed entries *)
Definition arrR (p m : nat) (f : nat -> nat -> res R) : res (arr R) :=
  do g <- gridR p m f; Ok (Arr p m g).

(* the realisation before State() is called, (A, B, C, D) with None for missing matrices *)
Definition abcd := (option (arr R) * option (arr R) * option (arr R) * arr R)%type.

(* static gain, lines 2961-2971 *)
Definition tts_gain (N D : pmat) : res abcd :=
  let: (p, m) := pshape N in
  do d <- arrR p m (fun i j => div11 (ent N i j) (ent D i j));
  Ok (Some (azeros 0 0), Some (azeros 0 0), Some (azeros 0 0), d).

(* SISO, lines 2973-3004 *)
Definition tts_siso (num den : row) : res abcd :=
  do A <- haroldcompanion den;
  (* np.zeros((-1, 1)) for an empty 1-D companion matrix is a ValueError *)
  guard nr A == nc A else ValueError;
  let n := nr A in
  let B := mk n 1 (fun i _ => (i == n.-1)%:R) in
  let num := trimf num in let den := trimf den in
  let d := head 0 den in
  let num := [seq x / d | x <- num] in let den := [seq x / d | x <- den] in
  if (size num < size den)%N then
    do C <- awrite (azeros 1 (size den).-1) 0 0 (rev num);
    Ok (Some A, Some B, Some C, azeros 1 1)
  else
    do (q, r) <- haroldpolydiv num den;
    let r := clean eps r in
    if size r == 0%N then Ok (None, None, None, row_of q)
    else
      do C <- awrite (azeros 1 (size den).-1) 0 0 (rev r);
      Ok (Some A, Some B, Some C, row_of q).

(* extraction of the feedthrough of one entry and monic denominators, lines 3019-3048:
   (D[x,y], num[x][y], den[x][y]) *)
Definition tts_entry (num den : row) : res (R * row * row) :=
  let dn := trimf num in let dd := trimf den in
  do (D, num', den') <-
    (if size dd == 1%N then
       do D <- (if (0 < size dn)%N then div11 dn dd else Ok 0); Ok (D, [:: 0], den)
     else if (size dn < size dd)%N then Ok (0, num, den)
     else
       do (q, r) <- haroldpolydiv dn dd;
       let r := clean eps r in
       guard size q == 1%N else ValueError;     (* D[x, y] = NumOrEmpty *)
       if ~~ has (fun c => c != 0) r then Ok (head 0 q, [:: 0], [:: 1])
       else Ok (head 0 q, r, den));
  (* den[x][y][0, 0] of a 1-by-0 array is an IndexError *)
  guard den' != [::] else IndexError;
  let c := head 0 den' in
  guard c != 0 else ZeroDivisionError;
  Ok (D, [seq c^-1 * x | x <- num'], [seq c^-1 * x | x <- den']).

(* zip of a list of lists, lines 3065, 3097, 3098 *)
Definition ptrans (p m : nat) (M : pmat) : pmat := grid m p (fun i j => ent M j i).

(* lines 3079-3084 and 3133-3142: C is filled column group after column group; ds are the group
   widths *)
Fixpoint fill_rows (C : arr R) (N : pmat) (y k : nat) (x cnt : nat) : res (arr R) :=
  if cnt is c.+1 then
    do C' <- awrite C x k (rev (ent N x y)); fill_rows C' N y k x.+1 c
  else Ok C.
Fixpoint fill_cols (C : arr R) (N : pmat) (p : nat) (y k : nat) (ds : seq nat) : res (arr R) :=
  if ds is d :: ds' then
    do C' <- fill_rows C N y k 0 p; fill_cols C' N p y.+1 (k + d) ds'
  else Ok C.

(* common denominator, lines 3068-3084, tall or square case *)
Definition tts_common (N : pmat) (den : row) (p m : nat) : res (arr R * arr R * arr R) :=
  do a <- haroldcompanion den;
  guard nr a == nc a else ValueError;
  let b := mk (nr a) 1 (fun i _ => (i == (nr a).-1)%:R) in
  let A := adiag (nseq m a) in
  let B := adiag (nseq m b) in
  do C <- fill_cols (azeros p (nr A)) N p 0 0 (nseq m (size den).-1);
  Ok (A, B, C).

(* one column of the LCM branch, lines 3103-3117 *)
Definition tts_lcm_col (N D : pmat) (p col : nat) : res (row * seq row) :=
  do (lcm, mults) <- lcmf [seq ent D i col | i <- iota 0 p];
  do ns <- seqR [seq (do q <- haroldpolymul [:: ent N i col; nth [::] mults i] false;
                      Ok (if trimf q is [::] then [:: 0] else trimf q)) | i <- iota 0 p];
  Ok (lcm, ns).

(* the B matrix of the LCM branch, lines 3132 and 3137-3138 *)
Definition lcm_B (n m : nat) (ds : seq nat) : arr R :=
  mk n m (fun i j => ((0 < nth 0%N ds j)%N && (i == (sumn (take j.+1 ds)).-1))%:R).

(* LCM branch, lines 3101-3142, tall or square case *)
Definition tts_lcm (N D : pmat) (p m : nat) : res (arr R * arr R * arr R) :=
  do cols <- seqR [seq tts_lcm_col N D p col | col <- iota 0 m];
  let dens := [seq c.1 | c <- cols] in
  let N' := grid p m (fun i j => nth [::] (nth ([::], [::]) cols j).2 i) in
  let ds := [seq (size d).-1 | d <- dens] in
  do As <- seqR [seq (if (1 < size d)%N
                      then (do a <- haroldcompanion d; guard nr a == nc a else ValueError; Ok a)
                      else Ok (azeros 0 0)) | d <- dens];
  let A := adiag As in
  do C <- fill_cols (azeros p (nr A)) N' p 0 0 ds;
  Ok (A, lcm_B (nr A) m ds, C).

(* MIMO, lines 3007-3145 *)
Definition tts_mimo (N D : pmat) : res abcd :=
  let: (p, m) := pshape N in
  do es <- gridR p m (fun i j => tts_entry (ent N i j) (ent D i j));
  let e0 := (0, [::], [::]) in
  let d := mk p m (fun i j => (nth e0 (nth [::] es i) j).1.1) in
  let N := grid p m (fun i j => (nth e0 (nth [::] es i) j).1.2) in
  let D := grid p m (fun i j => (nth e0 (nth [::] es i) j).2) in
  (* 3051-3055 *)
  if all (fun r => r == [:: 0]) (flatten N) then
    Ok (Some (azeros 0 0), Some (azeros 0 0), Some (azeros 0 0), d)
  else
    let tall := (m <= p)%N in
    let: (N', D', p', m') :=
      if tall then (N, D, p, m) else (ptrans p m N, ptrans p m D, m, p) in
    do (A, B, C) <-
      (if all (fun r => r == ent D 0 0) (flatten D)
       then tts_common N' (ent D 0 0) p' m'
       else tts_lcm N' D' p' m');
    if tall then Ok (Some A, Some B, Some C, d)
    else Ok (Some (aT A), Some (aT C), Some (aT B), d).

Definition is11 (M : pmat) : bool := pshape M == (1, 1)%N.

(* transfer_to_state((num, den), output='matrices') for validated data *)
Definition tts_abcd (N D : pmat) (gain : bool) : res abcd :=
  if gain then tts_gain N D
  else if is11 N then tts_siso (ent N 0 0) (ent D 0 0)
  else tts_mimo N D.

(* ------------------------------------------------------------------ *)
(* The Transfer object                                                  *)

(* _num, _den, _isgain, _dt *)
Record tf := Tf { tn : pmat; td : pmat; tgain : bool; tdt : option R }.

Definition tshape (G : tf) := pshape (tn G).
Definition tp (G : tf) := (tshape G).1.
Definition tm (G : tf) := (tshape G).2.
Definition tSISO (G : tf) := is11 (tn G).

(* _recalc, lines 347-378: only what it raises *)
Definition sq_ok (a : res (arr R)) : res unit :=
  do A <- a; guard nr A == nc A else ValueError; Ok tt.
Definition tf_recalc (G : tf) : res unit :=
  if tgain G then Ok tt
  else if tSISO G then
    do _ <- sq_ok (haroldcompanion (ent (td G) 0 0));
    if size (ent (tn G) 0 0) == 1%N then Ok tt
    else sq_ok (haroldcompanion (ent (tn G) 0 0))
  else
    do (N, D, g) <- tf_validate (TLL (tn G)) (TLL (td G));
    do (A, B, C, d) <- tts_abcd N D g;
    if asize (odflt (azeros 0 0) A) == 0%N then
      (* 368-371 *)
      let: (p, m) := tshape G in
      do (N1, D1, g1) <- tf_validate (TLL (grid p m (fun _ _ => [:: 1]))) (TLL (td G));
      do _ <- tts_abcd N1 D1 g1; Ok tt
    else Ok tt.

(* __init__, lines 54-73 *)
Definition mk_tf (num den : targ) (dt : option R) : res tf :=
  do (N, D, g) <- tf_validate num den;
  do dt' <- check_dt dt;
  let G := Tf N D g dt' in
  do _ <- tf_recalc G;
  Ok G.

(* transfer_to_state(G), lines 2947-3147 *)
Definition transfer_to_state (G : tf) : res (state R) :=
  do (A, B, C, d) <- tts_abcd (tn G) (td G) (tgain G);
  if tgain G then mkGain d (tdt G)                          (* 2971 *)
  else if ~~ tSISO G && (asize (odflt (azeros 0 0) A) == 0%N) && (nr (odflt (azeros 0 0) B) == 0%N)
  then mkGain d (tdt G)                                     (* 3055 *)
  else mk_state A B C (Some d) (tdt G).                     (* 3147 *)

(* to_array, lines 1056-1076 *)
Definition tf_array (G : tf) : res (arr R) :=
  if tgain G then arrR (tp G) (tm G) (fun i j => div11 (ent (tn G) i j) (ent (td G) i j))
  else Err ValueError.

(* ------------------------------------------------------------------ *)
(* Operators                                                            *)

(* an array as a list of lists of coefficient lists: arr.tolist() *)
Definition tolist (A : arr R) : targ := TLL (grid (nr A) (nc A) (fun i j => [:: get A i j])).

(* num and den of a model as constructor arguments *)
Definition pm_arg (siso : bool) (M : pmat) : targ := if siso then trow (ent M 0 0) else TLL M.

(* __neg__, lines 394-403 *)
Definition tf_neg (G : tf) : res tf :=
  mk_tf (pm_arg (tSISO G) (grid (tp G) (tm G) (fun i j => [seq - x | x <- ent (tn G) i j])))
        (pm_arg (tSISO G) (td G)) (tdt G).

(* one entry of the sum, lines 498-507 *)
Definition add_entry (n0 d0 n1 d1 : row) : res (row * row) :=
  guard (d0 != [::]) && (d1 != [::]) else IndexError;
  let c0 := head 0 d0 in let c1 := head 0 d1 in
  do (lcm, mults) <- lcmf [:: d0; d1];
  do x <- np_convolve n0 [seq c * c1 | c <- nth [::] mults 0];
  do y <- np_convolve n1 [seq c * c0 | c <- nth [::] mults 1];
  do nn <- haroldpolyadd [:: x; y] true;
  Ok (nn, [seq c * c0 * c1 | c <- lcm]).

(* Transfer + Transfer, lines 455-536 *)
Definition tf_addT (G H : tf) : res tf :=
  guard tdt G == tdt H else ValueError;
  if tgain G && tgain H then
    (* 463-472 *)
    do a <- tf_array G; do b <- tf_array H; do s <- np_add a b;
    guard asize s == (tp G * tm G)%N else ValueError;
    mk_tf (TLL (grid (tp G) (tm G) (fun i j => [:: get s i j]))) TNone (tdt G)
  else if tSISO G == tSISO H then
    (* 480-523 *)
    do es <- gridR (tp G) (tm G) (fun i j =>
        guard (i < size (tn H))%N && (j < tm H)%N else IndexError;
        add_entry (ent (tn G) i j) (ent (td G) i j) (ent (tn H) i j) (ent (td H) i j));
    let N := [seq [seq e.1 | e <- r] | r <- es] in
    let D := [seq [seq e.2 | e <- r] | r <- es] in
    if has (has (fun c => c != 0)) (flatten N)
    then mk_tf (pm_arg (tSISO G) N) (pm_arg (tSISO G) D) (tdt G)
    else mk_tf (TLL (grid (tp G) (tm G) (fun _ _ => [:: 0]))) TNone (tdt G)
  else Err AttributeError. (* 526-536: other.m, other.p do not exist *)

(* The operands of the overloaded operators other than State models *)
Inductive toperand :=
  | PScal of R | PArr1 of row | PArr2 of arr R | PTf of tf.

(* self * scalar, lines 613-637 *)
Definition tf_scale (G : tf) (x : R) : res tf :=
  if tSISO G then
    if x == 0 then mk_tf (TNum 0) (TNum 1) (tdt G)
    else mk_tf (trow [seq x * c | c <- ent (tn G) 0 0]) (trow (ent (td G) 0 0)) (tdt G)
  else
    mk_tf (TLL (grid (tp G) (tm G) (fun i j => if x == 0 then [:: 0] else [seq x * c | c <- ent (tn G) i j])))
          (TLL (grid (tp G) (tm G) (fun i j => if x == 0 then [:: 1] else ent (td G) i j))) (tdt G).

(* self * array, lines 646-691 *)
Definition tf_mul_arr (G : tf) (A : arr R) : res tf :=
  if asize A == 1%N then tf_scale G (get A 0 0)
  else
    let num i j := if tSISO G then ent (tn G) 0 0 else ent (tn G) i j in
    let den i j := if tSISO G then ent (td G) 0 0 else ent (td G) i j in
    guard tSISO G || (tshape G == shp A) else ValueError;
    mk_tf (TLL (grid (nr A) (nc A) (fun i j => if get A i j == 0 then [:: 0] else [seq get A i j * c | c <- num i j])))
          (TLL (grid (nr A) (nc A) (fun i j => if get A i j == 0 then [:: 1] else den i j))) (tdt G).

(* one entry of an entrywise product, lines 745-750 and 774-779 *)
Definition mul_entry (n0 d0 n1 d1 : row) : res (row * row) :=
  if ~~ has (fun c => c != 0) n0 || ~~ has (fun c => c != 0) n1 then Ok ([:: 0], [:: 1])
  else
    do n <- haroldpolymul [:: n0; n1] true;
    do d <- haroldpolymul [:: d0; d1] true;
    Ok (n, d).

(* Transfer * Transfer, lines 699-780 *)
Definition tf_mulT (G H : tf) : res tf :=
  guard tdt G == tdt H else ValueError;
  if tgain G then
    if tSISO G then
      (* 708: float(self._num); the denominator is not looked at *)
      guard size (ent (tn G) 0 0) == 1%N else TypeError;
      tf_scale H (head 0 (ent (tn G) 0 0))
    else
      (* 713-721 *)
      do M <- arrR (tp G) (tm G) (fun i j => div11 (ent (tn G) i j) (ent (td G) i j));
      tf_mul_arr H M
  else if tSISO G && tSISO H then
    (* 723-730 *)
    if ~~ has (fun c => c != 0) (ent (tn G) 0 0) || ~~ has (fun c => c != 0) (ent (tn H) 0 0)
    then mk_tf (TNum 0) (TNum 1) (tdt G)
    else
      do n <- haroldpolymul [:: ent (tn G) 0 0; ent (tn H) 0 0] true;
      do d <- haroldpolymul [:: ent (td G) 0 0; ent (td H) 0 0] true;
      mk_tf (trow n) (trow d) (tdt G)
  else
    (* 732-780 *)
    guard tSISO G || tSISO H || (tshape G == tshape H) else ValueError;
    let: (p, m) := if tSISO G then tshape H else tshape G in
    let g M i j := if tSISO G then ent M 0 0 else ent M i j in
    let h M i j := if tSISO H then ent M 0 0 else ent M i j in
    (* the SISO factor comes first in haroldpolymul (749) *)
    do es <- gridR p m (fun i j =>
       if tSISO H then mul_entry (h (tn H) i j) (h (td H) i j) (g (tn G) i j) (g (td G) i j)
       else mul_entry (g (tn G) i j) (g (td G) i j) (h (tn H) i j) (h (td H) i j));
    mk_tf (TLL [seq [seq e.1 | e <- r] | r <- es]) (TLL [seq [seq e.2 | e <- r] | r <- es]) (tdt G).

(* __mul__, lines 611-784 (also __rmul__, 786-790) *)
Definition tf_mul (G : tf) (o : toperand) : res tf :=
  match o with
  | PScal x => tf_scale G x
  | PArr1 v => tf_mul_arr G (row_of v)
  | PArr2 A => tf_mul_arr G A
  | PTf H => tf_mulT G H
  end.

(* __add__ of numbers and arrays, lines 539-596 *)
Definition tf_add_num (G : tf) (s : numeric R) (sh : nat * nat) : res tf :=
  if tgain G then
    (* 565-575 *)
    do a <- tf_array G;
    do mat <- (match s with NScal x => Ok (aadds a x) | NArr A => np_add a A end);
    mk_tf (TArr mat) TNone (tdt G)
  else if tSISO G then
    match s with
    | NScal x => do H <- mk_tf (TNum x) TNone (tdt G); tf_addT G H      (* 580 *)
    | NArr A => (* 584-585 *)
        do G' <- tf_mul_arr G (aones (nr A) (nc A));
        do H <- mk_tf (tolist A) TNone (tdt G);
        tf_addT G' H
    end
  else
    match s with
    | NScal x => (* 589 *)
        do H <- mk_tf (TArr (mk (tp G) (tm G) (fun _ _ => x))) TNone (tdt G); tf_addT G H
    | NArr A => (* 591-596; sh is other.shape *)
        guard tshape G == sh else ValueError;
        do H <- mk_tf (tolist A) TNone (tdt G); tf_addT G H
    end.

(* __add__, lines 405-600 (also __radd__).  The shape of a 1-D array is never a pair; it is
   represented by (0, 0), which no model has. *)
Definition tf_add (G : tf) (o : toperand) : res tf :=
  match o with
  | PTf H => tf_addT G H
  | PScal x => tf_add_num G (NScal x) (0, 0)%N
  | PArr1 v => if size v == 1%N then tf_add_num G (NScal (head 0 v)) (0, 0)%N
               else tf_add_num G (NArr (row_of v)) (0, 0)%N
  | PArr2 A => tf_add_num G (NArr A) (shp A)
  end.

(* __sub__, __rsub__, lines 605-609 *)
Definition tneg_operand (o : toperand) : res toperand :=
  match o with
  | PScal x => Ok (PScal (- x))
  | PArr1 v => Ok (PArr1 [seq - x | x <- v])
  | PArr2 A => Ok (PArr2 (aneg A))
  | PTf H => do H' <- tf_neg H; Ok (PTf H')
  end.
Definition tf_sub (G : tf) (o : toperand) : res tf := do o' <- tneg_operand o; tf_add G o'.
Definition tf_rsub (G : tf) (o : toperand) : res tf := do G' <- tf_neg G; tf_add G' o.

(* __rtruediv__ of a SISO model, lines 803-809 (the MIMO branch is not modelled) *)
Definition tf_rtruediv_siso (G : tf) (o : toperand) : res tf :=
  guard size (ent (tn G) 0 0) == size (ent (td G) 0 0) else ValueError;
  do H <- mk_tf (trow (ent (td G) 0 0)) (trow (ent (tn G) 0 0)) (tdt G);
  tf_mul H o.

(* __getitem__ with two integers, lines 968-986 *)
Definition tf_getij (G : tf) (i j : nat) : res tf :=
  guard (i < tp G)%N && (j < tm G)%N else IndexError;
  if tSISO G then Ok G
  else mk_tf (trow (ent (tn G) i j)) (trow (ent (td G) i j)) (tdt G).

(* __getitem__ otherwise, lines 987-993.  rs/cs are the index lists after numpy resolved slices and
   negative indices; empty selections count as IndexError; a 1-by-1 selection of a MIMO model by lists
   (which nests the arrays one level too deep) is not modelled. *)
Definition tf_getitem (G : tf) (rs cs : seq nat) : res tf :=
  guard all (fun i => (i < tp G)%N) rs && all (fun j => (j < tm G)%N) cs
        && (rs != [::]) && (cs != [::]) else IndexError;
  if tSISO G then Ok G
  else
    let sel M := grid (size rs) (size cs) (fun i j => ent M (nth 0%N rs i) (nth 0%N cs j)) in
    mk_tf (TLL (sel (tn G))) (TLL (sel (td G))) (tdt G).

(* t_G = Transfer(0, 1); for ind in range(m): t_G += f(ind)     (881-883, 916-918, 926-928) *)
Fixpoint tf_sum (acc : tf) (f : nat -> res tf) (ind cnt : nat) : res tf :=
  if cnt is c.+1 then do x <- f ind; do acc' <- tf_addT acc x; tf_sum acc' f ind.+1 c
  else Ok acc.

(* the double loop over the entries of the product, lines 911-933 (and 874-891) *)
Definition tf_mm (p m q : nat) (f : nat -> nat -> nat -> res tf) (dt : option R) : res tf :=
  let entry i j := do t0 <- mk_tf (TNum 0) (TNum 1) dt; tf_sum t0 (f i j) 0 q in
  do es <- gridR p m entry;
  let N := [seq [seq ent (tn t) 0 0 | t <- r] | r <- es] in
  let D := [seq [seq ent (td t) 0 0 | t <- r] | r <- es] in
  let one := (p == 1%N) && (m == 1%N) in
  mk_tf (pm_arg one N) (pm_arg one D) dt.

(* __matmul__, lines 837-938 *)
Definition tf_matmul (G : tf) (o : toperand) : res tf :=
  if tSISO G then tf_mul G o
  else match o with
  | PScal x => tf_scale G x
  | PArr1 v => (* 851-891; other[ind, [c]] of a 1-D array is an IndexError *)
      if size v == 1%N then tf_scale G (head 0 v)
      else
        guard tm G == 1%N else ValueError;
        if tgain G then do a <- tf_array G; mk_tf (TArr (amul a (row_of v))) TNone (tdt G)
        else Err IndexError
  | PArr2 A =>
      if asize A == 1%N then tf_scale G (get A 0 0)
      else
        guard tm G == nr A else ValueError;
        if tgain G then do a <- tf_array G; mk_tf (TArr (amul a A)) TNone (tdt G)
        else
          tf_mm (tp G) (nc A) (tm G) (fun i j k => do g <- tf_getij G i k; tf_scale g (get A k j)) (tdt G)
  | PTf H => (* 894-933 *)
      guard tdt G == tdt H else ValueError;
      if tSISO H then tf_mulT G H
      else
        guard tm G == tp H else ValueError;
        let f i j k := do g <- tf_getij G i k; do h <- tf_getij H k j; tf_mulT g h in
        if (tp G == 1%N) && (tm H == 1%N) then
          do t0 <- mk_tf (TNum 0) (TNum 1) (tdt G); tf_sum t0 (f 0%N 0%N) 0 (tm G)
        else tf_mm (tp G) (tm H) (tm G) f (tdt G)
  end.

(* __rmatmul__, lines 940-966: note the sampling period in the place of the denominator (959) *)
Definition tf_rmatmul (G : tf) (o : toperand) : res tf :=
  match o with
  | PScal x => tf_scale G x
  | PArr1 v => if size v == 1%N then tf_scale G (head 0 v)
      else do K <- mk_tf (tolist (row_of v)) (if tdt G is Some h then TNum h else TNone) None;
           tf_matmul K (PTf G)
  | PArr2 A => if asize A == 1%N then tf_scale G (get A 0 0)
      else do K <- mk_tf (tolist A) (if tdt G is Some h then TNum h else TNone) None;
           tf_matmul K (PTf G)
  | PTf _ => Err ValueError
  end.

(* ------------------------------------------------------------------ *)
(* Assignments to the public attributes                                 *)

(* num.setter, lines 275-288: _num is replaced, then _recalc may raise; _isgain is left alone.
   The result is the object after the call and what was raised. *)
Definition set_num (G : tf) (v : targ) : tf * option exc :=
  match tf_validate v (pm_arg (tSISO G) (td G)) with
  | Err e => (G, Some e)
  | Ok (N, _, _) =>
      if pshape N != tshape G then (G, Some IndexError)
      else let G' := Tf N (td G) (tgain G) (tdt G) in
           (G', if tf_recalc G' is Err e then Some e else None)
  end.

(* den.setter, lines 290-303 *)
Definition set_den (G : tf) (v : targ) : tf * option exc :=
  match tf_validate (pm_arg (tSISO G) (tn G)) v with
  | Err e => (G, Some e)
  | Ok (N, D, _) =>
      if pshape N != tshape G then (G, Some IndexError)
      else let G' := Tf (tn G) D (tgain G) (tdt G) in
           (G', if tf_recalc G' is Err e then Some e else None)
  end.

(* SamplingPeriod.setter, lines 258-273 *)
Definition set_dt (G : tf) (v : option R) : tf * option exc :=
  match check_dt v with
  | Err e => (G, Some e)
  | Ok dt => (Tf (tn G) (td G) (tgain G) dt, None)
  end.

Inductive tassign := ANum of targ | ADen of targ | ADt of option R.
Definition tstep (G : tf) (a : tassign) : tf * option exc :=
  match a with ANum v => set_num G v | ADen v => set_den G v | ADt v => set_dt G v end.
Definition trun (G : tf) (l : seq tassign) : tf := foldl (fun G a => (tstep G a).1) G l.

End Transfer.

Arguments TNone {R}. Arguments TFlat {R}. Arguments TLL {R}. Arguments TNum {R}.
Arguments TArr {R}. Arguments RNone {R}.
Arguments PScal {R}. Arguments PArr1 {R}. Arguments PArr2 {R}. Arguments PTf {R}.
