(* Model of /repo/harold/_polynomial_ops.py.  Definitions only.

   Simplifications (everywhere in this file):
   - a 1-D array is a list of exact field elements, highest power first;
   - np.real/.real on coefficients is the identity (real data); type checks on the arguments
     (TypeError branches) and ndim checks are not modelled;
   - the singular value decomposition, LU factorization and balancing are arguments of the
     functions; their contracts are hypotheses of the theorems. *)
From mathcomp Require Import all_ssreflect all_algebra.
From Verif Require Import Base.

Set Implicit Arguments.
Unset Strict Implicit.
Unset Printing Implicit Defensive.

Import GRing.Theory Num.Theory.
Local Open Scope ring_scope.

Section Poly.
Variable F : fieldType.
Implicit Types (p q r : seq F).

(* for y in range(x, 0, -1): p[y] -= p[y-1] * r[x]      (lines 340-341) *)
Fixpoint poly_inner (p : seq F) (rx : F) (y : nat) : seq F :=
  if y is y'.+1 then poly_inner (set_nth 0 p y (nth 0 p y - nth 0 p y' * rx)) rx y' else p.

(* for x in range(1, n): p[x+1] = -p[x]*r[x]; <inner loop>   (lines 338-341) *)
Fixpoint poly_outer (p rs : seq F) (x k : nat) : seq F :=
  if k is k'.+1 then
    let rx := nth 0 rs x in
    poly_outer (poly_inner (set_nth 0 p x.+1 (- nth 0 p x * rx)) rx x) rs x.+1 k'
  else p.

(* haroldpoly, lines 319-342 *)
Definition haroldpoly (rs : seq F) : seq F :=
  let n := size rs in
  if n == 0%N then [:: 1]
  else
    let p := nseq n.+1 0 in
    let p := set_nth 0 p 0 1 in
    let p := set_nth 0 p 1 (- nth 0 rs 0) in
    poly_outer p rs 1 n.-1.

(* s[0, max(degs)-degs[ind]:] += x     (lines 384-385) *)
Definition add_tail (s x : seq F) : seq F :=
  let k := (size s - size x)%N in
  mkseq (fun i => if (i < k)%N then nth 0 s i else nth 0 s i + nth 0 x (i - k)) (size s).

Definition maxsize (l : seq (seq F)) : nat := foldr maxn 0%N [seq size x | x <- l].

(* haroldpolyadd, lines 345-387; max of an empty sequence is a ValueError *)
Definition haroldpolyadd (args : seq (seq F)) (trim_zeros : bool) : res (seq F) :=
  if args == [::] then Err ValueError else
  let tr := if trim_zeros then [seq trimf x | x <- args] else args in
  Ok (foldl add_tail (nseq (maxsize tr) 0) tr).

(* np.convolve raises ValueError on an empty operand *)
Definition np_convolve p q : res (seq F) :=
  if (p == [::]) || (q == [::]) then Err ValueError else Ok (convolve p q).

(* the loop of haroldpolymul, lines 428-432 *)
Fixpoint mul_loop (p : seq F) (xs : seq (seq F)) : res (seq F) :=
  if xs is x :: xs' then
    if size x == 0%N then Ok [::]
    else do p' <- np_convolve p x; mul_loop p' xs'
  else Ok p.

(* haroldpolymul, lines 390-434; no argument: trimmedargs[0] is an IndexError *)
Definition haroldpolymul (args : seq (seq F)) (trim_zeros : bool) : res (seq F) :=
  let tr := if trim_zeros then [seq trimf x | x <- args] else args in
  if tr is p :: xs then
    do q <- mul_loop p xs;
    Ok (if has (fun c => c != 0) q then q else [:: 0])
  else Err IndexError.

(* the first k outputs of lfilter(num, den, impulse): the documented difference equation
   den[0] y[n] = num[n] - den[1] y[n-1] - ... *)
Fixpoint lfilt (num den : seq F) (k : nat) : seq F :=
  if k is k'.+1 then
    let q := lfilt num den k' in
    rcons q ((nth 0 num k' - sumN k' (fun j => nth 0 den j.+1 * nth 0 q (k' - j.+1))) / nth 0 den 0)
  else [::].

(* scipy.signal.deconvolve as documented: (quotient, remainder).  A divisor with leading
   coefficient 0 (or no coefficient) is rejected. *)
Definition deconvolve (num den : seq F) : res (seq F * seq F) :=
  if (size num < size den)%N then Ok ([::], num)
  else if nth 0 den 0 == 0 then Err ValueError
  else
    let quot := lfilt num den (size num - size den).+1 in
    let c := convolve den quot in
    Ok (quot, mkseq (fun i => nth 0 num i - nth 0 c i) (size num)).

(* haroldpolydiv, lines 437-470 *)
Definition haroldpolydiv (dividend divisor : seq F) : res (seq F * seq F) :=
  do qr <- deconvolve dividend divisor;
  Ok (trimf qr.1, trimf qr.2).

(* haroldcompanion, lines 273-316.  The 1-D empty array returned for constants is represented by
   its np.atleast_2d shape (1, 0). *)
Definition haroldcompanion (p : seq F) : res (arr F) :=
  if size p == 0%N then Ok (azeros 1 0)
  else
    let ta := trimf p in
    if ta is c :: rest then
      (* ta = ta / ta[0]; ta = -ta[-1:0:-1] *)
      let t := rev [seq - (c^-1 * x) | x <- rest] in
      let n := size t in
      if n == 0%N then Ok (azeros 1 0)
      else Ok (mk n n (fun i j => if i == n.-1 then nth 0 t j else (j == i.+1)%:R))
    else Err IndexError.

End Poly.

Section PolyReal.
Variable R : realFieldType.
Implicit Types (p q : seq R).

(* the basis vector e_i(n, k) as a column, _aux_linalg.py e_i; k = None is the last one *)
Definition unitcol (n : nat) (k : nat) : arr R := mk n 1 (fun i _ => (i == k)%:R).

(* np.linalg.matrix_rank with exact arithmetic: Gaussian elimination on a list of rows,
   column by column (n columns left) *)
Fixpoint rank_rows (n : nat) (rows : seq (seq R)) : nat :=
  if n is n'.+1 then
    let k := find (fun r => head 0 r != 0) rows in
    if (k < size rows)%N then
      let u := nth [::] rows k in
      let others := take k rows ++ drop k.+1 rows in
      (rank_rows n' [seq mkseq (fun j => nth 0 v j.+1 - head 0 v / head 0 u * nth 0 u j.+1) n' | v <- others]).+1
    else rank_rows n' [seq behead r | r <- rows]
  else 0%N.
Definition arank (A : arr R) : nat := rank_rows (nc A) (dat A).

(* scipy.linalg.lstsq for a matrix of full column rank, exact arithmetic: the solution of
   the normal equations (the rank-deficient case is a LinAlgError here). *)
Definition lstsq (A B : arr R) : res (arr R) := np_solve (amul (aT A) A) (amul (aT A) B).

(* np.roll(v, k) for k < size v *)
Definition roll (v : seq R) (k : nat) : seq R := rotr k v.

(* the rows of one polynomial in the Sylvester matrix: np.hstack((item, zeros)) repeated and
   rolled (lines 240-256) *)
Definition sylv_rows (item : seq R) (N k : nat) : seq (seq R) :=
  mkseq (fun r => roll (item ++ nseq (N - size item) 0) r) k.

(* np.max of a list of integers; degrees are size - 1, kept here as sizes *)
Definition argmax_size (l : seq (seq R)) : nat :=
  index (maxsize l) [seq size x | x <- l].

(* drop all-zero rows at the bottom, keeping row 0 (lines 264-268) *)
Fixpoint drop_zero_rows (rows : seq (seq R)) : seq (seq R) :=
  (* rows listed bottom first *)
  if rows is r :: rest then
    if rest is [::] then rows
    else if has (fun c => c != 0) r then rows else drop_zero_rows rest
  else [::].

(* largest size and the largest one below it (216-225) *)
Definition gcd_second (aa : seq (seq R)) : nat :=
  let lower := [seq x <- aa | (size x < maxsize aa)%N] in
  if lower is [::] then maxsize aa else maxsize lower.

(* the Sylvester matrix, lines 238-257 *)
Definition gcd_sylvester (aa : seq (seq R)) : arr R :=
  let n := (maxsize aa).-1 in let p := (gcd_second aa).-1 in
  let im := argmax_size aa in
  let f := nth [::] aa im in
  let others := take im aa ++ drop im.+1 aa in
  let rows := sylv_rows f (n + p) p ++
    flatten [seq sylv_rows x (n + p) (n + p - size x).+1 | x <- others] in
  Arr (size rows) (n + p) rows.

(* empty arrays are dropped, the others trimmed (208-209) *)
Definition gcd_args (args : seq (seq R)) : seq (seq R) := [seq trimf x | x <- args & size x != 0%N].

(* haroldgcd, lines 175-274.  lu stands for scipy.linalg.lu (only its third component is used);
   eps is the 1e-8 threshold of line 263.
   Sizes are used instead of degrees: size = degree + 1, a zero polynomial has
   size 0 after trimming. *)
Definition haroldgcd (lu : arr R -> arr R) (eps : R)
    (args : seq (seq R)) : res (seq R) :=
  let aa := gcd_args args in
  if aa is a0 :: _ then
    let mx := maxsize aa in
    let sec := gcd_second aa in
    if size aa == 1%N then Ok a0                                       (* 230-231 *)
    else if mx == 1%N then Ok [:: 1]                                   (* 233-234 *)
    else if (1 < mx)%N && (sec == 1%N) then Ok (nth [::] aa (argmax_size aa))  (* 236-237 *)
    else if sec == 0%N then Err ValueError (* np.zeros((1, p-1)) with p = -1 *)
    else
      let S := gcd_sylvester aa in
      (* 259-262 *)
      if arank S == minn (nr S) (nc S) then Ok [:: 1]
      else
        let u := amap (fun x => if `|x| < eps then 0 else x) (lu S) in
        let rows' := drop_zero_rows (rev [seq [seq get u i j | j <- iota 0 (nc u)] | i <- iota 0 (nr u)]) in
        let g := trimf (head [::] rows') in
        (* 270-272; g[0] of an empty array is an IndexError *)
        if g is c :: _ then Ok [seq x / c | x <- g] else Err IndexError
  else Err ValueError.  (* max of an empty sequence, line 213 *)

(* Krylov loop, lines 97-105: append A times the last column until the rank drops or n+1
   columns are there *)
Fixpoint krylov (A C : arr R) (k : nat) : arr R :=
  let C' := ahcat C (amul A (acols C [:: (nc C).-1])) in
  if k is k'.+1 then if arank C' != nc C' then C' else krylov A C' k'
  else C'.

(* adj(sI - A) for the companion matrix of the lcm, lines 124-136: entry (x,y), coefficient z *)
Definition adj_coef (l : seq R) (x y z : nat) : R :=
  let n := (size l).-1 in
  if x == y then (if (z < n - x)%N then nth 0 l z else 0)
  else if (y < x)%N then (if (x - y <= z)%N then (if (z - (x - y) < n - x)%N then nth 0 l (z - (x - y)) else 0) else 0)
  else (if (n - y <= z)%N && (z < (n + 1 + x) - y)%N then - nth 0 l (n - x + (z - (n - y))) else 0).

Definition clean (eps : R) (p : seq R) := [seq (if `|x| < eps then 0 else x) | x <- p].

(* 143-147: a constant gets the lcm as its multiplier, the others theirs in order *)
Fixpoint place (args : seq (seq R)) (lcm : seq R) (mults : seq (seq R)) : seq (seq R) :=
  if args is a :: args' then
    if (1 < size a)%N then head [::] mults :: place args' lcm (behead mults)
    else lcm :: place args' lcm mults
  else [::].

(* What is used of haroldsvd (an orthogonal factorisation C = u s v with s
   diagonal and nonincreasing): the factorisation itself, that u and v are
   invertible, that s is diagonal and that its zero entries come last. *)
Definition svd_ok (C : arr R) (usv : arr R * arr R * arr R) : Prop :=
  let: (u, s, v) := usv in
  [/\ [/\ shp u = (nr C, nr C), shp s = (nr C, nc C) & shp v = (nc C, nc C)],
      C = amul (amul u s) v,
      (adet u != 0) /\ (adet v != 0),
      forall i j, (i < nr s)%N -> (j < nc s)%N -> i <> j -> get s i j = 0 &
      forall i, (i.+1 < nr s)%N -> (i.+1 < nc s)%N -> get s i i = 0 -> get s i.+1 i.+1 = 0].

(* What is used of matrix_balance(a, permute=False): one nonzero scale per row *)
Definition sca_ok (a : arr R) (sc : seq R) : Prop :=
  size sc = nr a /\ all (fun x => x != 0) sc.

(* haroldlcm, lines 95-112 and 119-138: more than one nonconstant polynomial.
   sca is the scaling of matrix_balance(..., permute=False) as a function of the
   matrix; svd returns (u, s, v). *)
Definition lcm_many (sca : arr R -> seq R) (svd : arr R -> arr R * arr R * arr R)
    (popped : seq (seq R)) : res (seq R * seq (seq R)) :=
  do comps <- foldr (fun x acc => do a <- haroldcompanion x; do t <- acc; Ok (a :: t)) (Ok [::]) popped;
  let a := adiag comps in
  let b := foldr (fun x acc => avcat (unitcol (size x).-1 (size x).-2) acc) (azeros 0 1) popped in
  let n := nr a in
  guard nr b == n else ValueError;   (* 101: broadcasting b with sca *)
  let sc := sca a in
  (* matrix_balance: As = D^-1 A D *)
  let As := mk n n (fun i j => (nth 0 sc i)^-1 * get a i j * nth 0 sc j) in
  let Bs := mk n 1 (fun i _ => get b i 0 * (nth 0 sc i)^-1) in
  let C := krylov As Bs n.-1 in
  let cols := nc C in
  let: (_, s, v) := svd C in
  let temp := amul s v in
  do x <- np_solve (asubm temp 0 cols.-1 0 cols.-1)
                   (aneg (asubm temp 0 cols.-1 cols.-1 cols));
  let lcm := rev (mkseq (fun i => get x i 0) (nr x) ++ [:: 1]) in
  (* 120-138 *)
  let n_lcm := (size lcm).-1 in
  let c := foldr (fun x acc => adiag2 (aT (unitcol (size x).-1 0)) acc) (azeros 0 0) popped in
  let c := mk (nr c) (nc c) (fun i j => get c i j * nth 0 sc j) in
  let Ck := asubm C 0 (nc c) 0 cols.-1 in
  do b_lcm <- lstsq Ck Bs;
  let c_lcm := amul c Ck in
  let mults := mkseq (fun i => mkseq (fun z =>
       sumN n_lcm (fun x => get c_lcm i x *
         sumN n_lcm (fun y => adj_coef lcm x y z * get b_lcm y 0))) n_lcm) (nr c) in
  Ok (lcm, mults).

(* haroldlcm, lines 113-115 and 139-141: a single nonconstant polynomial *)
Definition lcm_one (p : seq R) : res (seq R * seq (seq R)) :=
  let t := trimf p in
  if t is c :: _ then
    let lcm := [seq x / c | x <- t] in
    if (size lcm).-1 == 0%N then Err IndexError
    else Ok (lcm, [:: rcons (nseq (size lcm).-2 0) 1])
  else Err IndexError.

(* haroldlcm with compute_multipliers=True, lines 16-158; eps is cleanup_threshold.
   The conversion of the arguments to real 1-D arrays (68-75) is not modelled. *)
Definition haroldlcm (sca : arr R -> seq R) (svd : arr R -> arr R * arr R * arr R) (eps : R)
    (args : seq (seq R)) : res (seq R * seq (seq R)) :=
  (* 77-78 *)
  if has (fun x => size x == 0%N) args then Err ValueError
  (* 81-85 *)
  else if all (fun x => size x == 1%N) args then Ok ([:: 1], nseq (size args) [:: 1])
  else
  let popped := [seq x <- args | (1 < size x)%N] in
  do (lcm, mults) <-
    (if (1 < size popped)%N then lcm_many sca svd popped else lcm_one (head [::] popped));
  (* 143-147: constants get the lcm itself as their multiplier *)
  Ok (clean eps lcm, [seq trimf (clean eps m) | m <- place args lcm mults]).

End PolyReal.
