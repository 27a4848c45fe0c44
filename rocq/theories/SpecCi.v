(* Specification for C65: what the controllability indices are, and what it means that the numerical decisions of
   controllability_indices are correct. *)
From mathcomp Require Import all_ssreflect all_algebra.
From Verif Require Import Base SpecSim ModelSim ModelCi.

Set Implicit Arguments.
Unset Strict Implicit.
Unset Printing Implicit Defensive.

Import GRing.Theory Num.Theory.
Local Open Scope ring_scope.

Section SpecCi.
Variable R : realFieldType.

(* the vectors b_j, A b_j, ..., A^(d_j - 1) b_j for every column b_j of B *)
Definition chains n m (A : 'M[R]_n) (B : 'M[R]_(n, m)) (d : nat -> nat) : seq 'cV[R]_n :=
  flatten [seq [seq mpow A k *m col j B | k <- iota 0 (d j)] | j <- enum 'I_m].

(* [B, A B, ..., A^(K-1) B], its columns in some order *)
Definition kry n m (A : 'M[R]_n) (B : 'M[R]_(n, m)) (K : nat) : 'M[R]_(n, #|{: 'I_K * 'I_m}|) :=
  \matrix_(i, p) let kj : 'I_K * 'I_m := enum_val p in (mpow A kj.1 *m B) i kj.2.

(* scipy's qr(B, mode='economic', pivoting=True): B[:, p] = q r with orthonormal columns of q and upper triangular r; no
   entry of r[i:, i:] is larger than that at the corner *)
Definition qrp_ok (B : arr R) (qrp : arr R * arr R * seq nat) : Prop :=
  let: (q, r, p) := qrp in let l := minn (nr B) (nc B) in
  [/\ shp q = (nr B, l) /\ shp r = (l, nc B),
      forall a b, (a < l)%N -> (b < l)%N -> \sum_(i < nr B) get q i a * get q i b = (a == b)%:R,
      perm_eq p (iota 0 (nc B)),
      forall i j, (i < nr B)%N -> (j < nc B)%N -> get B i (nth 0%N p j) = \sum_(k < l) get q i k * get r k j &
      (forall k j, (j < k)%N -> (k < l)%N -> get r k j = 0) /\
      (forall i k j, (i <= k)%N -> (k < l)%N -> (i <= j)%N -> (j < nc B)%N -> `|get r k j| <= `|get r i i|)].

Variable qrp : arr R -> arr R * arr R * seq nat.
Variable sq : R -> R.
Variable spnorm : arr R -> R.
Variable sqeps : R.

(* the vectors w whose norm is compared with tol, in the order of the loops *)
Fixpoint pass_tests (tol : R) (qb : arr R) (st : cist R) (l : seq (nat * nat)) : seq (arr R) :=
  if l is ic :: l' then test_vec st.1.1 qb ic.1 :: pass_tests tol qb (ci_col sq tol qb st ic) l' else [::].
Fixpoint loop_tests (passes : nat) (tol : R) (A : arr R) (st : cist R) : seq (arr R) :=
  if passes is c.+1 then
    pass_tests tol (q_bank A st.1.1 st.1.2) st (zip (iota 0 (size st.1.2)) st.1.2) ++
    (let st := ci_pass sq tol A st in if st.1.2 is [::] then [::] else loop_tests c tol A st)
  else [::].

(* sq is the square root of w's sum of squares, and the norm of w is 0 or above tol *)
Definition norm_at (tol : R) (w : arr R) : Prop :=
  let s := sumN (nr w) (fun i => get w i 0 ^+ 2) in
  (0 <= sq s /\ sq s ^+ 2 = s) /\ (sq s = 0 \/ tol < sq s).

Definition ci_exact (tol : R) (A B : arr R) : Prop :=
  [/\ qrp_ok B (qrp B), 0 <= spnorm B,
      forall i, (i < minn (nr B) (nc B))%N -> let x := get (qrp B).1.2 i i in
        x = 0 \/ (maxn (nc B) (nr B))%:R * spnorm B < `|x| &
      forall w, List.In w (loop_tests (nr B).-1 tol A (ci_start qrp spnorm B)) -> norm_at tol w].
End SpecCi.
