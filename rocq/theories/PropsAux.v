(* Properties C55 - C57 and C59: auxiliary array functions. *)
From mathcomp Require Import all_ssreflect all_algebra.
From Coq Require Import String.
From Verif Require Import Base BaseTheory Spec ModelState Denote ModelAux AuxTheory.

Set Implicit Arguments.
Unset Strict Implicit.
Unset Printing Implicit Defensive.

Import Order.TTheory GRing.Theory Num.Theory.
Local Open Scope ring_scope.

Local Notation Q := rat_realFieldType.

(* ------------------------------------------------------------------ C55 *)
(* [[A, B], [C, D]] is the matrix, for every corner string that is accepted and every corner shape
   (also shapes larger than the matrix) *)
Theorem C55_reassemble (F : fieldType) (M A B C D : arr F) z w corner :
  wfa M -> matrix_slice M z w corner = Ok (A, B, C, D) -> ablock A B C D = M.
Proof. exact: slice_glue. Qed.
Print Assumptions C55_reassemble.

Theorem C55_accepts (F : fieldType) (M : arr F) z w corner :
  is_ok (matrix_slice M z w corner) = has (String.eqb corner) [:: "nw"; "ne"; "sw"; "se"]%string.
Proof. exact: slice_total. Qed.
Print Assumptions C55_accepts.

(* the named corner has the given shape; full statement: also for 'ne' *)
Theorem C55_corner_shape_partial (F : fieldType) (M A B C D : arr F) z w corner :
  wfa M -> (z <= nr M)%N -> (w <= nc M)%N -> matrix_slice M z w corner = Ok (A, B, C, D) ->
  corner <> "ne"%string ->
  shp (if String.eqb corner "nw" then A else if String.eqb corner "sw" then C else D) = (z, w).
Proof.
move=> wM hz hw h hne; have : is_ok (matrix_slice M z w corner) by rewrite h.
rewrite slice_total /=; case: (String.eqb_spec corner "nw") => [e _|_].
  by rewrite e in h; have [] := slice_nw wM hz hw h.
case: (String.eqb_spec corner "ne") => //= _; case: (String.eqb_spec corner "sw") => [e _|_].
  by rewrite e in h; exact: (slice_sw wM hz hw h).
case: (String.eqb_spec corner "se") => [e _|] //.
by rewrite e in h; exact: (slice_se wM hz hw h).
Qed.
Print Assumptions C55_corner_shape_partial.

(* False of the code for 'ne': the corner always has all rows *)
Theorem C55_ne_refuted (F : fieldType) (M A B C D : arr F) z w :
  wfa M -> (w <= nc M)%N -> matrix_slice M z w "ne" = Ok (A, B, C, D) -> shp B = (nr M, w).
Proof. exact: slice_ne. Qed.
Print Assumptions C55_ne_refuted.

Example C55_ex : if matrix_slice (of_rows [:: [:: 1; 2%:~R; 3%:~R]; [:: 4%:~R; 5%:~R; 6%:~R : Q]]) 1 2 "sw" is Ok (A, B, C, D)
  then [&& aeq A (of_rows [:: [:: 1; 2%:~R]]), aeq B (of_rows [:: [:: 3%:~R]]),
           aeq C (of_rows [:: [:: 4%:~R; 5%:~R]]) & aeq D (of_rows [:: [:: 6%:~R]])] else false.
Proof. by vm_compute. Qed.
Example C55_ex_ne : if matrix_slice (aones 3 3 : arr Q) 1 1 "ne" is Ok (A, B, C, D) then shp B == (3, 1)%N else false.
Proof. by vm_compute. Qed.

(* ------------------------------------------------------------------ C56 *)
(* column k of e_i(n, idx) is the idx[k]-th unit vector *)
Theorem C56_columns (F : fieldType) n idx (E : arr F) :
  e_i F n idx "c" = Ok E ->
  [/\ wfa E, nr E = n, nc E = size idx &
   forall i k, (i < n)%N -> (k < size idx)%N -> get E i k = if i == nth 0%N idx k then 1 else 0].
Proof.
move=> /e_i_col[w [e1 e2] h]; split=> // i k hi hk; rewrite h //; by case: eqP.
Qed.
Print Assumptions C56_columns.

(* every other output string gives the transpose *)
Theorem C56_rows (F : fieldType) n idx o (E : arr F) :
  o <> "c"%string -> e_i F n idx o = Ok E -> exists2 E', e_i F n idx "c" = Ok E' & E = aT E'.
Proof. by move=> ho; apply: e_i_row; case: (String.eqb_spec o "c"). Qed.
Print Assumptions C56_rows.

(* and it succeeds exactly for indices in range *)
Theorem C56_accepts (F : fieldType) n idx o : is_ok (e_i F n idx o) = all (fun x => (x < n)%N) idx.
Proof. exact: e_i_total. Qed.
Print Assumptions C56_accepts.

Example C56_ex : if e_i Q 3 [:: 2; 0; 2]%N "c" is Ok E
  then aeq E (of_rows [:: [:: 0; 1; 0]; [:: 0; 0; 0]; [:: 1; 0; 1]]) else false.
Proof. by vm_compute. Qed.

(* ------------------------------------------------------------------ C57 *)
(* Full statement: N @ haroldker(N) = 0 for every N and every singular value decomposition.  What holds
   is the trivial case of full column rank, where zeros are returned, *)
Theorem C57_fullrank_partial (R : realFieldType) (svd : arr R -> arr R * seq R * arr R) (spac : R) (N K : arr R) :
  haroldker svd spac N "right" = Ok K ->
  count (fun x => smax (svd N).1.2 * (maxn (nr N) (nc N))%:R * spac < x) (svd N).1.2 = nc N ->
  (nc N <= nr N)%N -> amul N K = azeros (nr N) (nc K).
Proof. exact: ker_fullrank. Qed.
Print Assumptions C57_fullrank_partial.

(* and the case of the zero matrix, where an orthogonal matrix is returned. *)
Theorem C57_zero_partial (R : realFieldType) (svd : arr R -> arr R * seq R * arr R) (spac : R) m n (K : arr R) :
  0 <= spac -> (1 < m * n)%N -> npsvd_ok (azeros m n) (svd (azeros m n)) ->
  haroldker svd spac (azeros m n) "right" = Ok K ->
  [/\ shp K = (n, n), amul K (aT K) = aeye n & amul (azeros m n) K = azeros m n].
Proof. exact: ker_zero. Qed.
Print Assumptions C57_zero_partial.

(* False of the code: a rank two matrix of order three with its decomposition (V is returned by numpy
   transposed, haroldker takes columns of that) *)
Theorem C57_ker_refuted (spac : Q) : 0 <= spac < 6%:R^-1 ->
  npsvd_ok kerN (kersvd kerN) /\
  if haroldker kersvd spac kerN "right" is Ok K then aany (amul kerN K) else false.
Proof. exact: ker_refuted. Qed.
Print Assumptions C57_ker_refuted.

(* ------------------------------------------------------------------ C59 *)
Theorem C59_slice_concat (R : realFieldType) (G : state R) M :
  wfS G -> ~~ sgain G -> concat_state G = Ok M ->
  matrix_slice M (snn G) (snn G) "nw" = Ok (sa G, sb G, sc G, sd G).
Proof. exact: concat_slice. Qed.
Print Assumptions C59_slice_concat.

(* static gains are returned as they are *)
Theorem C59_gain (R : realFieldType) (G : state R) : sgain G -> concat_state G = Ok (sd G).
Proof. exact: concat_gain. Qed.
Print Assumptions C59_gain.

Example C59_ex : let G : state Q := St (aeye 2) (aones 2 3) (aones 1 2) (azeros 1 3) false None in
  wfS G && is_ok (concat_state G).
Proof. by vm_compute. Qed.
