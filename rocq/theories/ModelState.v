(* Model of the State class of /repo/harold/_classes.py (lines 1597-2700).
   Definitions only.

   Simplifications (everywhere in this file):
   - numbers are exact elements of an ordered field R instead of floats;
   - an argument of the constructor is what np.atleast_2d(np.array(x, float))
     makes of it (lines 2614-2629), i.e. an optional 2-D array; the rejection
     of non-numeric types (lines 2606-2612) is not modelled;
   - the derived attributes poles/zeros/isstable (lines 1910-1925) are modelled
     in ModelObject.v, not here. *)
From mathcomp Require Import all_ssreflect all_algebra.
From Verif Require Import Base.

Set Implicit Arguments.
Unset Strict Implicit.
Unset Printing Implicit Defensive.

Import GRing.Theory Num.Theory.
Local Open Scope ring_scope.

Section State.
Variable R : realFieldType.

(* The data of a State object: _a,_b,_c,_d,_isgain,_dt
   (_classes.py 1619-1638). *)
Record state := St {
  sa : arr R; sb : arr R; sc : arr R; sd : arr R;
  sgain : bool; sdt : option R }.

(* _shape/_p/_m/_isSISO (lines 1627-1634) are functions of the data. *)
Definition sshape (G : state) := (nr (sd G), nc (sd G)).
Definition spn (G : state) := nr (sd G).   (* NumberOfOutputs, 1711-1716 *)
Definition smn (G : state) := nc (sd G).   (* NumberOfInputs, 1704-1709 *)
Definition snn (G : state) := nr (sa G).   (* NumberOfStates, 1697-1702 *)
Definition sSISO (G : state) := (spn G == 1%N) && (smn G == 1%N).

(* np.empty((0, 0)) used for a missing argument, line 2601 *)
Definition e00 : arr R := azeros 0 0.

(* State.validate_arguments, lines 2559-2700 *)
Definition st_validate (a b c d : option (arr R)) :
    res (arr R * arr R * arr R * arr R * bool) :=
  let a0 := odflt e00 a in let b0 := odflt e00 b in
  let c0 := odflt e00 c in let d0 := odflt e00 d in
  (* 2633-2639: only the first argument given: static gain, list reversed *)
  if [&& ~~ isSome b, ~~ isSome c & ~~ isSome d] then Ok (d0, c0, b0, a0, true)
  (* 2643-2646: only the last argument given *)
  else if [&& ~~ isSome a, ~~ isSome b & ~~ isSome c] then Ok (a0, b0, c0, d0, true)
  else
    (* 2655-2657 *)
    guard nr a0 == nc a0 else ValueError;
    (* 2659-2670 *)
    do b1 <- (if nr b0 != nr a0 then
                if (nr b0 == 1%N) && (nc b0 == nr a0) then Ok (aT b0) else Err ValueError
              else Ok b0);
    (* 2672-2676 *)
    guard nc c0 == nc a0 else ValueError;
    (* 2678-2682 *)
    let d1 := if isSome d then d0 else azeros (nr c0) (nc b1) in
    (* 2684-2696; d.reshape(-1, 1) of a (1,k) array *)
    do d2 <- (if shp d1 != (nr c0, nc b1) then
                if (nr d1 == 1%N) && (shp d1 == (nc b1, nr c0))
                then Ok (mk (nc d1) 1 (fun i _ => get d1 0 i)) else Err ValueError
              else Ok d1);
    Ok (a0, b1, c0, d2, false).

(* SamplingPeriod.setter, lines 1851-1866 (the part that checks) *)
Definition check_dt (dt : option R) : res (option R) :=
  if dt is Some v then if v <= 0 then Err ValueError else Ok (Some v) else Ok None.

(* State.__init__, lines 1602-1638 *)
Definition mk_state (a b c d : option (arr R)) (dt : option R) : res state :=
  do q <- st_validate a b c d;
  let: (a', b', c', d', g) := q in
  do dt' <- check_dt dt;
  Ok (St a' b' c' d' g dt').

Definition mkS a b c d dt := mk_state (Some a) (Some b) (Some c) (Some d) dt.
Definition mkGain d dt := mk_state (Some d) None None None dt.

(* to_array, lines 2548-2557 *)
Definition to_array (G : state) : res (arr R) :=
  if sgain G then Ok (sd G) else Err ValueError.

(* The operands of the overloaded operators other than Transfer models: a Python
   scalar, a 1-D ndarray, a 2-D ndarray or another State.  Complex data
   with zero imaginary part is taken as real (lines 2041-2043, 2267-2269). *)
Inductive operand :=
  | OScal of R | OArr1 of seq R | OArr2 of arr R | OState of state.

(* Regularisation of arrays and scalars, lines 2045-2055 / 2271-2288:
   a scalar stays a scalar, a 1-D array of size 1 becomes a scalar, other 1-D arrays
   become a row. *)
Inductive numeric := NScal of R | NArr of arr R.
Definition row_of (v : seq R) : arr R := mk 1 (size v) (fun _ j => nth 0 v j).
Definition regularize (o : operand) : option numeric :=
  match o with
  | OScal x => Some (NScal x)
  | OArr1 v => Some (if size v == 1%N then NScal (head 0 v) else NArr (row_of v))
  | OArr2 A => Some (NArr A)
  | OState _ => None
  end.

(* __neg__, lines 1935-1939 *)
Definition st_neg (G : state) : res state :=
  if sgain G then mkGain (aneg (sd G)) (sdt G)
  else mkS (sa G) (sb G) (aneg (sc G)) (aneg (sd G)) (sdt G).

(* array + scalar *)
Definition aadds (A : arr R) (x : R) := amap (fun y => y + x) A.
Definition ascaler (A : arr R) (x : R) := amap (fun y => y * x) A.

(* broadcasting of a SISO model to p outputs and m inputs, lines 1987-1989,
   1992-1995 and 2085-2087 *)
Definition st_bcast (G : state) (p m : nat) (dt : option R) : res state :=
  do d <- np_mul (aones p m) (sd G);
  mkS (sa G) (akron (aones 1 m) (sb G)) (akron (aones p 1) (sc G)) d dt.

(* __add__, lines 1941-2102; lim is the interpreter's recursion limit *)
Fixpoint st_add (lim : nat) (G : state) (o : operand) {struct lim} : res state :=
  if lim is l.+1 then
    match o with
    | OState H =>
        (* 1947-1949 *)
        guard sdt G == sdt H else ValueError;
        if sgain G && sgain H then
          (* 1955-1961 *)
          do d <- np_add (sd G) (sd H); mkGain d (sdt G)
        else if sgain G then
          (* 1964-1965, ndarray + State -> State.__radd__ (2104-2105) *)
          do d <- to_array G; st_add l H (OArr2 d)
        else if sgain H then
          (* 1967 *)
          do d <- to_array H; st_add l G (OArr2 d)
        else if sSISO G == sSISO H then
          (* 1972-1982 *)
          guard sSISO G || (sshape G == sshape H) else ValueError;
          do d <- np_add (sd G) (sd H);
          do b <- np_vstack (sb G) (sb H);
          do c <- np_hstack (sc G) (sc H);
          mkS (adiag2 (sa G) (sa H)) b c d None
        else if sSISO G then
          (* 1985-1989 *)
          do G' <- st_bcast G (spn H) (smn H) (sdt G); st_add l G' (OState H)
        else
          (* 1990-1995 *)
          do H' <- st_bcast H (spn G) (smn G) (sdt G); st_add l G (OState H')
    | _ =>
      match regularize o with
      | None => Err ValueError
      | Some s =>
        if sgain G then
          (* 2063-2074 *)
          do mat <- (match s with
                     | NScal x => Ok (aadds (sd G) x)
                     | NArr A => np_add (sd G) A end);
          mkGain mat (sdt G)
        else if sSISO G then
          match s with
          | NScal x => (* 2078-2080 *)
              mkS (sa G) (sb G) (sc G) (aadds (sd G) x) (sdt G)
          | NArr A => (* 2082-2087 *)
              do G' <- st_bcast G (nr A) (nc A) (sdt G); st_add l G' (OArr2 A)
          end
        else
          (* 2088-2098 *)
          do d <- (match s with
                   | NScal x => Ok (aadds (sd G) x)
                   | NArr A => np_add (sd G) A end);
          mkS (sa G) (sb G) (sc G) d (sdt G)
      end
    end
  else Err RecursionError.

(* __radd__, lines 2104-2105 *)
Definition st_radd lim G o := st_add lim G o.

(* negation of an operand: -other, line 2108 *)
Definition neg_operand (o : operand) : res operand :=
  match o with
  | OScal x => Ok (OScal (- x))
  | OArr1 v => Ok (OArr1 [seq - x | x <- v])
  | OArr2 A => Ok (OArr2 (aneg A))
  | OState H => do H' <- st_neg H; Ok (OState H')
  end.

(* __sub__, lines 2107-2108 *)
Definition st_sub lim G o : res state := do o' <- neg_operand o; st_add lim G o'.
(* __rsub__, lines 2110-2111 *)
Definition st_rsub lim G o : res state := do G' <- st_neg G; st_add lim G' o.

(* SISO model times a matrix, lines 2316-2331 and 2405-2420 *)
Definition st_siso_mat (G : state) (s : arr R) : res state :=
  if ~~ aany s then mkGain (azeros (nr s) (nc s)) (sdt G)
  else
    let p := nr s in let m := nc s in
    let k := minn p m in
    let ba := adiag (nseq k (sa G)) in
    let bb := if (m < p)%N then adiag (nseq k (sb G)) else akron s (sb G) in
    let bc := if (m < p)%N then akron s (sc G) else adiag (nseq k (sc G)) in
    do bd <- np_mul s (sd G);
    mkS ba bb bc bd (sdt G).

(* __matmul__ with a scalar or an array, lines 2264-2340.  [sh0] is other.shape[0]
   used in the early shape check (2281): None for Python scalars. *)
Definition st_matmul_num (G : state) (s : numeric) (sh0 : option nat) : res state :=
  guard (if sh0 is Some k then (smn G == k) || sSISO G else true) else ValueError;
  if sgain G then
    (* 2296-2305: to_array() @ s raises ValueError for scalars and nonconforming
       arrays; the handler evaluates self.to_array * s, a bound
       method times a number, which is a TypeError *)
    match s with
    | NScal _ => Err TypeError
    | NArr A => if nc (sd G) == nr A then mkGain (amul (sd G) A) (sdt G)
                else Err TypeError
    end
  else if sSISO G then
    match s with
    | NScal x => (* 2309-2314 *)
        if x == 0 then mkGain (azeros 1 1) (sdt G)
        else mkS (sa G) (ascaler (sb G) x) (sc G) (ascaler (sd G) x) (sdt G)
    | NArr A => st_siso_mat G A
    end
  else
    match s with
    | NScal x => (* 2334-2336 *)
        mkS (sa G) (ascaler (sb G) x) (sc G) (ascaler (sd G) x) (sdt G)
    | NArr A => (* 2339-2340 *)
        do b <- np_matmul (sb G) A;
        do d <- np_matmul (sd G) A;
        mkS (sa G) b (sc G) d (sdt G)
    end.

(* other.shape[0] *)
Definition shape0 (o : operand) : option nat :=
  match o with OArr1 v => Some (size v) | OArr2 A => Some (nr A) | _ => None end.

(* __rmatmul__, lines 2346-2433.  other.shape[1] of a 1-D array is an IndexError
   (line 2371). *)
Definition st_rmatmul (G : state) (o : operand) : res state :=
  match regularize o with
  | None => Err ValueError
  | Some s =>
    do _ <- (match o with
             | OArr1 _ => Err IndexError
             | OArr2 A => guard (spn G == nc A) || sSISO G else ValueError; Ok tt
             | _ => Ok tt end);
    if sgain G then
      (* 2386-2394 *)
      do mat <- (match s with
                 | NScal x => Ok (ascaler (sd G) x)
                 | NArr A => if nc A == nr (sd G) then Ok (amul A (sd G))
                             else np_mul (sd G) A end);
      mkGain mat (sdt G)
    else if sSISO G then
      match s with
      | NScal x => (* 2398-2403 *)
          if x == 0 then mkGain (azeros 1 1) (sdt G)
          else mkS (sa G) (sb G) (ascaler (sc G) x) (ascaler (sd G) x) (sdt G)
      | NArr A => st_siso_mat G A
      end
    else
      match s with
      | NScal x => (* 2423-2425 *)
          mkS (sa G) (sb G) (ascaler (sc G) x) (ascaler (sd G) x) (sdt G)
      | NArr A => (* 2427-2429 *)
          do c <- np_matmul A (sc G);
          do d <- np_matmul A (sd G);
          mkS (sa G) (sb G) c d (sdt G)
      end
  end.

(* series connection, lines 2203-2208 *)
Definition st_series (G H : state) : res state :=
  do bc <- np_matmul (sb G) (sc H);
  do bd <- np_matmul (sb G) (sd H);
  do b <- np_vstack bd (sb H);
  do dc <- np_matmul (sd G) (sc H);
  do c <- np_hstack (sc G) dc;
  do d <- np_matmul (sd G) (sd H);
  mkS (ablock (sa G) bc (azeros (nr (sa H)) (nc (sa G))) (sa H)) b c d (sdt G).

(* __matmul__, lines 2126-2344 *)
Fixpoint st_matmul (lim : nat) (G : state) (o : operand) {struct lim} : res state :=
  if lim is l.+1 then
    match o with
    | OState H =>
        (* 2132-2134 *)
        guard sdt G == sdt H else ValueError;
        if sgain G && sgain H then
          (* 2139-2146 *)
          do d <- np_matmul (sd G) (sd H); mkGain d (sdt G)
        else if sgain G then
          (* 2150-2154: float * State and ndarray @ State are State.__rmul__ (which is
             other @ self) and State.__rmatmul__ *)
          if sSISO G then st_rmatmul H (OScal (get (sd G) 0 0))
          else st_rmatmul H (OArr2 (sd G))
        else if sgain H then
          (* 2156-2159; State * float is State.__mul__ = __matmul__ (2113-2118) *)
          if sSISO H then st_matmul l G (OScal (get (sd H) 0 0))
          else st_matmul l G (OArr2 (sd H))
        else if (sSISO G != sSISO H) && (smn G != spn H) then
          (* 2168-2195 *)
          if sSISO G then
            if smn H == 1%N then st_matmul l H (OState G)
            else if spn H == 1%N then st_matmul l G (OState H)
            else if (smn H <= spn H)%N then
              do G' <- st_matmul l G (OArr2 (aeye (minn (spn H) (smn H))));
              st_matmul l H (OState G')
            else
              do G' <- st_matmul l G (OArr2 (aeye (minn (spn H) (smn H))));
              st_matmul l G' (OState H)
          else
            if smn G == 1%N then st_matmul l G (OState H)
            else if spn G == 1%N then st_matmul l H (OState G)
            else if (smn G <= spn G)%N then
              do H' <- st_matmul l H (OArr2 (aeye (minn (spn G) (smn G))));
              st_matmul l G (OState H')
            else
              do H' <- st_matmul l H (OArr2 (aeye (minn (spn G) (smn G))));
              st_matmul l H' (OState G)
        else
          (* 2198-2208 *)
          guard ~~ [&& ~~ sSISO G, ~~ sSISO H & smn G != spn H] else ValueError;
          st_series G H
    | _ =>
      match regularize o with
      | None => Err ValueError
      | Some s => st_matmul_num G s (shape0 o)
      end
    end
  else Err RecursionError.

(* __mul__, lines 2113-2118 *)
Definition st_mul := st_matmul.
(* __rmul__, lines 2120-2124: other @ self with a numeric other is __rmatmul__ *)
Definition st_rmul := st_rmatmul.

(* __rtruediv__, lines 2441-2465.  [small_sv d] stands for
   np.any(svdvals(d) < np.spacing(1.)) (line 2450).  ndarray.inv is solve with I. *)
Definition st_rtruediv (small_sv : arr R -> bool) (G : state) (o : operand) : res state :=
  guard spn G == smn G else ValueError;
  if small_sv (sd G) then Err LinAlgError
  else
    do di <- np_solve (sd G) (aeye (nr (sd G)));
    if sgain G then
      do Gi <- mk_state None None None (Some di) (sdt G);
      st_rmatmul Gi o
    else
      do dc <- np_solve (sd G) (sc G);
      do bt <- np_solve (aT (sd G)) (aT (sb G));
      do ai <- (if nc (sb G) == nr dc then Ok (asub (sa G) (amul (sb G) dc)) else Err ValueError);
      do Gi <- mkS ai (aT bt) (aneg dc) di (sdt G);
      st_rmatmul Gi o.

(* __truediv__ by a State or a scalar, lines 2435-2439.  1/x of a Python scalar
   raises ZeroDivisionError for x = 0; arrays are elementwise (not modelled). *)
Definition st_truediv lim (small_sv : arr R -> bool) (G : state) (o : operand) : res state :=
  match o with
  | OScal x => if x == 0 then Err ZeroDivisionError else st_matmul lim G (OScal (1 / x))
  | OState H => do Hi <- st_rtruediv small_sv H (OScal 1); st_matmul lim G (OState Hi)
  | _ => Err ValueError
  end.

(* __getitem__, lines 2467-2500.  rs/cs are the index lists np.arange(p)[rows],
   np.arange(m)[cols] (lines 2476-2477) after numpy resolved slices and negative
   indices; an out-of-range index is an IndexError.  Empty selections are not
   modelled (treated as IndexError). *)
Definition st_getitem (G : state) (rs cs : seq nat) : res state :=
  guard all (fun i => (i < spn G)%N) rs && all (fun j => (j < smn G)%N) cs
        && (rs != [::]) && (cs != [::]) else IndexError;
  let d' := acols (arows (sd G) rs) cs in
  if sgain G then mkGain d' (sdt G)
  else mkS (sa G) (acols (sb G) cs) (arows (sc G) rs) d' (sdt G).

(* concatenate_state_matrices, lines 3503-3524 *)
Definition concat_state (G : state) : res (arr R) :=
  if sgain G then Ok (sd G)
  else Ok (ablock (sa G) (sb G) (sc G) (sd G)).

(* A State object as the constructor leaves it: matrices are real arrays with
   mutually consistent shapes; the sampling period is positive. *)
Definition wfS (G : state) : bool :=
  [&& wfa (sa G), wfa (sb G), wfa (sc G), wfa (sd G),
      (if sdt G is Some v then 0 < v else true) &
      if sgain G then [&& shp (sa G) == (0, 0)%N, shp (sb G) == (0, 0)%N & shp (sc G) == (0, 0)%N]
      else [&& nr (sa G) == nc (sa G), nr (sb G) == nr (sa G), nc (sc G) == nr (sa G),
               nr (sc G) == nr (sd G) & nc (sb G) == nc (sd G)]].

End State.
