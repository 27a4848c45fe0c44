(* Properties C01 - C06 of the polynomial functions.  polyhi p (Spec.v) is the polynomial whose
   coefficients are listed in p highest power first. *)
From mathcomp Require Import all_ssreflect all_algebra.
From Verif Require Import Base BaseTheory Spec ModelPoly PolyTheory PolyOps RankTheory GcdTheory LcmTheory.

Set Implicit Arguments.
Unset Strict Implicit.
Unset Printing Implicit Defensive.

Import Order.TTheory GRing.Theory Num.Theory.
Local Open Scope ring_scope.

Local Notation Q := rat_fieldType.

(* ------------------------------------------------------------------ C01 *)
Theorem C01_haroldpoly (F : fieldType) (rs : seq F) :
  [/\ size (haroldpoly rs) = (size rs).+1, nth 0 (haroldpoly rs) 0 = 1 &
      polyhi (haroldpoly rs) = \prod_(r <- rs) ('X - r%:P)].
Proof. exact: haroldpoly_full. Qed.
Print Assumptions C01_haroldpoly.

Example C01_ex : haroldpoly [:: 1; 1; -2%:~R : Q] == [:: 1; 0; -3%:~R; 2%:~R].
Proof. by vm_compute. Qed.

(* ------------------------------------------------------------------ C02 *)
Theorem C02_polyadd (F : fieldType) (args : seq (seq F)) (trim_zeros : bool) :
  args != [::] ->
  exists2 s, haroldpolyadd args trim_zeros = Ok s & polyhi s = \sum_(p <- args) polyhi p.
Proof. exact: polyadd_full. Qed.
Print Assumptions C02_polyadd.

Example C02_ex : if haroldpolyadd [:: [:: 0; 1; 2%:~R]; [:: 3%:~R : Q]; [:: -1; 0; 0; 5%:~R]] true is Ok s
  then s == [:: -1; 0; 1; 10%:~R] else false.
Proof. by vm_compute. Qed.

(* ------------------------------------------------------------------ C03 *)
(* False of the code: the output is as long as the longest trimmed argument whatever cancels.
   Full statement: haroldpolyadd args true = Ok s -> head 1 s != 0. *)
Theorem C03_polyadd_trimmed_refuted :
  exists (args : seq (seq Q)) s, [/\ args != [::], haroldpolyadd args true = Ok s & head 1 s = 0].
Proof. exact: polyadd_untrimmed. Qed.
Print Assumptions C03_polyadd_trimmed_refuted.

(* It is trimmed exactly when the sum has the largest of the degrees of the arguments. *)
Theorem C03_polyadd_trimmed_partial (F : fieldType) (args : seq (seq F)) s :
  haroldpolyadd args true = Ok s ->
  (head 1 s != 0) = (size (\sum_(p <- args) polyhi p)%R == foldr maxn 0%N [seq size (polyhi p) | p <- args]).
Proof. exact: polyadd_trimmed_iff. Qed.
Print Assumptions C03_polyadd_trimmed_partial.

(* ------------------------------------------------------------------ C04 *)
(* Full statement: haroldpolymul args true = Ok q with polyhi q the product, for every nonempty
   args.  False when the first polynomial is zero and the second is not. *)
Theorem C04_polymul_partial (F : fieldType) (p : seq F) (args : seq (seq F)) :
  polyhi p != 0 ->
  exists2 q, haroldpolymul (p :: args) true = Ok q & polyhi q = polyhi p * \prod_(x <- args) polyhi x /\ q != [::].
Proof. exact: polymul_full. Qed.
Print Assumptions C04_polymul_partial.

Theorem C04_polymul_notrim_partial (F : fieldType) (p : seq F) (args : seq (seq F)) :
  p != [::] ->
  exists2 q, haroldpolymul (p :: args) false = Ok q & polyhi q = polyhi p * \prod_(x <- args) polyhi x /\ q != [::].
Proof. exact: polymul_full_notrim. Qed.
Print Assumptions C04_polymul_notrim_partial.

Theorem C04_polymul_zero_result (F : fieldType) (args : seq (seq F)) tz q :
  haroldpolymul args tz = Ok q -> \prod_(x <- args) polyhi x = 0 -> q = [:: 0].
Proof. exact: polymul_zero_result. Qed.
Print Assumptions C04_polymul_zero_result.

(* the failure, for every such argument list *)
Theorem C04_polymul_zero_first_refuted (F : fieldType) (p x : seq F) (args : seq (seq F)) :
  polyhi p = 0 -> polyhi x != 0 -> haroldpolymul [:: p, x & args] true = Err ValueError.
Proof. exact: polymul_zero_first. Qed.
Print Assumptions C04_polymul_zero_first_refuted.

Example C04_ex : if haroldpolymul [:: [:: 0; 1; 2%:~R]; [:: 1; -1 : Q]; [:: 3%:~R]] true is Ok s
  then s == [:: 3%:~R; 3%:~R; -6%:~R] else false.
Proof. by vm_compute. Qed.
Example C04_ex_zero : (polyhi [:: 0 : Q] == 0) && (polyhi [:: 1; 2%:~R : Q] != 0).
Proof. by rewrite -!has_polyhi -[_ == 0]negbK -has_polyhi. Qed.

(* ------------------------------------------------------------------ C05 *)
Theorem C05_polydiv (F : fieldType) (dividend divisor : seq F) :
  nth 0 divisor 0 != 0 ->
  exists q r, [/\ haroldpolydiv dividend divisor = Ok (q, r),
     polyhi dividend = polyhi q * polyhi divisor + polyhi r,
     (size (polyhi r) < size (polyhi divisor))%N &
     (head 1 q != 0) && (head 1 r != 0)].
Proof. exact: polydivP. Qed.
Print Assumptions C05_polydiv.

Example C05_ex : if haroldpolydiv [:: 2%:~R; 3%:~R; 0; 7%:~R] [:: 2%:~R; 1 : Q] is Ok (q, r)
  then (q == [:: 1; 1; - (1 / 2%:~R)]) && (r == [:: 15%:~R / 2%:~R]) else false.
Proof. by vm_compute. Qed.

(* ------------------------------------------------------------------ C06 *)
(* k leading zeros, then a nonzero coefficient c, then at least one more *)
Theorem C06_companion (F : fieldType) (k : nat) (c : F) (p : seq F) : c != 0 -> p != [::] ->
  exists A : arr F, [/\ haroldcompanion (nseq k 0 ++ c :: p) = Ok A, nr A = size p, nc A = size p &
    char_poly (\matrix_(i < size p, j < size p) get A i j) = c^-1 *: polyhi (c :: p)].
Proof. exact: companion_full. Qed.
Print Assumptions C06_companion.

Theorem C06_companion_const (F : fieldType) (k : nat) (c : F) : c != 0 ->
  exists A : arr F, haroldcompanion (nseq k 0 ++ [:: c]) = Ok A /\ (nr A * nc A)%N = 0%N.
Proof. exact: companion_const_full. Qed.
Print Assumptions C06_companion_const.

Theorem C06_companion_zero (F : fieldType) (p : seq F) : p != [::] -> polyhi p = 0 ->
  haroldcompanion p = Err IndexError.
Proof. exact: companion_zero. Qed.
Print Assumptions C06_companion_zero.

Example C06_ex : if haroldcompanion [:: 0; 2%:~R; 4%:~R; 6%:~R : Q] is Ok A
  then dat A == [:: [:: 0; 1]; [:: -3%:~R; -2%:~R]] else false.
Proof. by vm_compute. Qed.

(* ------------------------------------------------------------------ C07 *)
(* Full statement: haroldgcd args returns a greatest common divisor of its arguments for every
   list of polynomials.  True when all the degrees are equal and positive or when two different
   positive degrees occur, for every exact LU factorization of the Sylvester matrix whose nonzero
   entries are not below the cleaning threshold (1e-8). *)
Theorem C07_gcd_partial (R : realFieldType) lu (eps : R) (args : seq (seq R)) :
  let S := gcd_sylvester (gcd_args args) in
  ((1 < count (fun x => x != [::]) args)%N /\
     exists2 k, (1 < k)%N & forall x, x \in args -> x != [::] -> size (polyhi x) = k) \/
  (exists x y, [/\ x \in args, y \in args & (1 < size (polyhi x) < size (polyhi y))%N]) ->
  lu_spec S (lu S) -> (forall i j, get (lu S) i j != 0 -> eps <= `|get (lu S) i j|) ->
  exists2 g, haroldgcd lu eps args = Ok g & polyhi g \is monic /\ is_gcd args (polyhi g).
Proof. exact: gcd_main. Qed.
Print Assumptions C07_gcd_partial.

Theorem C07_gcd_constants_partial (R : realFieldType) lu (eps : R) (args : seq (seq R)) :
  (1 < count (fun x => x != [::]) args)%N ->
  (forall x, x \in args -> (size (polyhi x) <= 1)%N) ->
  (exists2 x, x \in args & size (polyhi x) = 1%N) ->
  haroldgcd lu eps args = Ok [:: 1] /\ is_gcd args (polyhi [:: 1 : R]).
Proof. exact: gcd_constants. Qed.
Print Assumptions C07_gcd_constants_partial.

Theorem C07_gcd_single_partial (R : realFieldType) lu (eps : R) (args : seq (seq R)) x :
  [seq y <- args | y != [::]] = [:: x] ->
  exists2 g, haroldgcd lu eps args = Ok g & is_gcd args (polyhi g).
Proof. exact: gcd_single_ex. Qed.
Print Assumptions C07_gcd_single_partial.

(* The documented example "2 and 2s+4" and every other list in which constants are the only
   polynomials below the largest degree: the result is not a common divisor. *)
Theorem C07_gcd_refuted (R : realFieldType) lu (eps : R) (args : seq (seq R)) x y :
  x \in args -> y \in args -> size (polyhi x) = 1%N -> (1 < size (polyhi y))%N ->
  (forall z, z \in args -> (size (polyhi z) <= 1)%N \/ size (polyhi z) = size (polyhi y)) ->
  exists2 g, haroldgcd lu eps args = Ok g & (1 < size (polyhi g))%N /\ ~~ (polyhi g %| polyhi x).
Proof. exact: gcd_early. Qed.
Print Assumptions C07_gcd_refuted.

Definition exgcd : seq (seq rat_realFieldType) := [:: [:: 1; 3%:~R; 2%:~R]; [:: 1; 1]].
Definition exU : arr rat_realFieldType :=
  of_rows [:: [:: 1; 3%:~R; 2%:~R]; [:: 0; -2%:~R; -2%:~R]; [:: 0; 0; 0]].
Definition exL : arr rat_realFieldType :=
  of_rows [:: [:: 1; 0; 0]; [:: 1; 1; 0]; [:: 0; - (1 / 2%:~R); 1]].
Example C07_ex_spec : lu_spec (gcd_sylvester (gcd_args exgcd)) exU.
Proof. by apply: (@lu_checkP _ _ exL); vm_compute. Qed.
Example C07_ex : if haroldgcd (fun _ => exU) (1 / 2%:~R) exgcd is Ok g then g == [:: 1; 1] else false.
Proof. by vm_compute. Qed.
Example C07_ex_doc : if haroldgcd (fun _ => exU) 0 [:: [:: 2%:~R]; [:: 2%:~R; 4%:~R]] is Ok g
  then g == [:: 2%:~R; 4%:~R] else false.
Proof. by vm_compute. Qed.

(* ------------------------------------------------------------------ C08 *)
(* Full statement: for every list of nonzero polynomials.  Proved for lists without leading
   zeros and with the clean-up threshold set to 0 (exact arithmetic has nothing to clean up);
   sca_ok and svd_ok say what is used of matrix_balance and of the singular value
   decomposition.  Both restrictions are needed, see the next two theorems. *)
Theorem C08_lcm_partial (R : realFieldType) (sca : arr R -> seq R) svd (args : seq (seq R)) :
  (forall a, sca_ok a (sca a)) -> (forall C, wfa C -> svd_ok C (svd C)) -> args != [::] ->
  (forall p, p \in args -> p != [::] /\ head 1 p != 0) ->
  exists l ms, [/\ haroldlcm sca svd 0 args = Ok (l, ms), polyhi l \is monic, is_lcm args (polyhi l),
    size ms = size args &
    forall i, (i < size args)%N -> let p := polyhi (nth [::] args i) in
      polyhi (nth [::] ms i) * ((lead_coef p)^-1 *: p) = polyhi l].
Proof. exact: lcm_spec_full. Qed.
Print Assumptions C08_lcm_partial.

(* two or more nonconstant arguments, one of them written with a leading zero *)
Theorem C08_lcm_leading_zero_refuted (R : realFieldType) (sca : arr R -> seq R) svd eps (args : seq (seq R)) p q :
  (forall x, x \in args -> x != [::] /\ ((1 < size x)%N -> (1 < size (polyhi x))%N)) ->
  [seq x <- args | (1 < size x)%N] = p :: q ->
  q != [::] -> (exists x, [/\ x \in args, (1 < size x)%N & head 1 x = 0]) ->
  haroldlcm sca svd eps args = Err ValueError.
Proof. exact: lcm_leading_zero. Qed.
Print Assumptions C08_lcm_leading_zero_refuted.

(* any positive clean-up threshold (the default is 1e-9) removes genuine coefficients of some
   argument list *)
Theorem C08_lcm_threshold_refuted (R : realFieldType) (sca : arr R -> seq R) svd (eps : R) : 0 < eps ->
  exists2 args : seq (seq R), all (fun p => (p != [::]) && (head 1 p != 0)) args &
  exists l ms, haroldlcm sca svd eps args = Ok (l, ms) /\ ~ is_lcm args (polyhi l).
Proof. exact: lcm_threshold. Qed.
Print Assumptions C08_lcm_threshold_refuted.

(* the contracts can be met for every matrix *)
Example C08_ex_contracts (R : realFieldType) :
  (forall a : arr R, sca_ok a (sca0 a)) /\ (forall C : arr R, wfa C -> svd_ok C (svd0 C)).
Proof. by split; [exact: sca0_ok | exact: svd0_ok]. Qed.
(* (s+1)(s+2), (s+1)(s+3) and the constant 4: the multipliers are s+3, s+2 and the lcm *)
Definition exlcm : seq (seq rat_realFieldType) :=
  [:: [:: 1; 3%:~R; 2%:~R]; [:: 4%:~R]; [:: 2%:~R; 8%:~R; 6%:~R]].
Example C08_ex_hyp : all (fun p => (p != [::]) && (head 1 p != 0)) exlcm.
Proof. by vm_compute. Qed.
(* s and v of a factorisation of the Krylov matrix found by row reduction; u is not used by the code *)
Definition exsvd (C : arr rat_realFieldType) : arr rat_realFieldType * arr rat_realFieldType * arr rat_realFieldType :=
  (aeye (nr C), mk (nr C) (nc C) (fun i j => ((i == j) && (i < 3)%N)%:R),
   of_rows [:: [:: 1; 0; 0; -6%:~R]; [:: 0; 1; 0; -11%:~R]; [:: 0; 0; 1; -6%:~R]; [:: 0; 0; 0; 1]]).
Example C08_ex : if haroldlcm (@sca0 _) exsvd 0 exlcm is Ok (l, ms)
  then (l == [:: 1; 6%:~R; 11%:~R; 6%:~R]) &&
       (ms == [:: [:: 1; 3%:~R]; [:: 1; 6%:~R; 11%:~R; 6%:~R]; [:: 1; 2%:~R]]) else false.
Proof. by vm_compute. Qed.
