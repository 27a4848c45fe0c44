(* Specification for C48, C62, C72: controllability and observability of matrix pairs, and what it means that the
   singular value decompositions taken by staircase decide the ranks correctly.  mpow A k is A^k (SpecSim.v). *)
From mathcomp Require Import all_ssreflect all_algebra.
From Coq Require Import String.
From Verif Require Import Base ModelAux ModelMin SpecSim SpecReach.

Set Implicit Arguments.
Unset Strict Implicit.
Unset Printing Implicit Defensive.

Local Open Scope ring_scope.

Section SpecMin.
Variable F : fieldType.

(* the rows of [B, AB, A^2 B, ...] are linearly independent *)
Definition controllable n m (A : 'M[F]_n) (B : 'M[F]_(n, m)) : Prop :=
  forall x : 'rV[F]_n, (forall j, x *m mpow A j *m B = 0) -> x = 0.
(* the columns of [C; CA; CA^2; ...] are linearly independent *)
Definition observable n p (A : 'M[F]_n) (C : 'M[F]_(p, n)) : Prop :=
  forall x : 'cV[F]_n, (forall j, C *m mpow A j *m x = 0) -> x = 0.

(* started in x, without input, the output is 0; the states x of this kind that can be reached from rest are all on one
   line (from_rest: SpecReach.v) *)
Definition unobs n p (A : 'M[F]_n) (C : 'M[F]_(p, n)) (x : 'cV[F]_n) : Prop := forall j, C *m mpow A j *m x = 0.
Definition from_rest_to n m (A : 'M[F]_n) (B : 'M[F]_(n, m)) (x : 'cV[F]_n) : Prop := exists N u, from_rest A B u N = x.
Definition unobs_line n m p (A : 'M[F]_n) (B : 'M[F]_(n, m)) (C : 'M[F]_(p, n)) : Prop :=
  forall x y, from_rest_to A B x -> from_rest_to A B y -> unobs A C x -> unobs A C y -> exists c d : F, (c, d) <> (0%R, 0%R) /\ c *: x + d *: y = 0.

(* (A, B) in staircase form with k reachable states: they come first, the others are not driven by them nor by the
   input, and the first k are a controllable pair.  stairs_ctrb_inv has them last. *)
Definition stairs_ctrb n m k (A : 'M[F]_n) (B : 'M[F]_(n, m)) : Prop :=
  exists (A1 : 'M_k) (B1 : 'M_(k, m)), [/\ (k <= n)%N,
    forall (i j : 'I_n), (k <= i)%N -> (j < k)%N -> A i j = 0,
    forall (i : 'I_n) j, (k <= i)%N -> B i j = 0,
    (forall (i j : 'I_n) (a b : 'I_k), i = a :> nat -> j = b :> nat -> A1 a b = A i j) /\
      (forall (i : 'I_n) j (a : 'I_k), i = a :> nat -> B1 a j = B i j) &
    controllable A1 B1].
Definition stairs_ctrb_inv n m k (A : 'M[F]_n) (B : 'M[F]_(n, m)) : Prop :=
  exists (A1 : 'M_k) (B1 : 'M_(k, m)), [/\ (k <= n)%N,
    forall (i j : 'I_n), (i < n - k)%N -> (n - k <= j)%N -> A i j = 0,
    forall (i : 'I_n) j, (i < n - k)%N -> B i j = 0,
    (forall (i j : 'I_n) (a b : 'I_k), i = (n - k + a)%N :> nat -> j = (n - k + b)%N :> nat -> A1 a b = A i j) /\
      (forall (i : 'I_n) j (a : 'I_k), i = (n - k + a)%N :> nat -> B1 a j = B i j) &
    controllable A1 B1].
(* the same for (A, C) and observability *)
Definition stairs_obsv n p k (A : 'M[F]_n) (C : 'M[F]_(p, n)) : Prop := stairs_ctrb k A^T C^T.
Definition stairs_obsv_inv n p k (A : 'M[F]_n) (C : 'M[F]_(p, n)) : Prop := stairs_ctrb_inv k A^T C^T.
End SpecMin.

Section Exact.
Variable R : realFieldType.

(* the docstring of staircase: Ah = T^-1 A T, Bh = T^-1 B, Ch = C T; T is orthogonal *)
Definition orth_similar n m p (A B C Ah Bh Ch T : arr R) : Prop :=
  [/\ [/\ shp Ah = (n, n), shp Bh = (n, m), shp Ch = (p, n) & shp T = (n, n)],
    (amx n n T)^T *m amx n n T = 1%:M,
    amx n n A *m amx n n T = amx n n T *m amx n n Ah,
    amx n m B = amx n n T *m amx n m Bh & amx p n Ch = amx p n C *m amx n n T].

Variable npsvd : arr R -> arr R * seq R * arr R.
Variable spac : R.

(* numpy's svd of M is exact, and each singular value is 0 or above tol *)
Definition svd_at (tol : R) (M : arr R) : Prop :=
  npsvd_ok M (npsvd M) /\ forall x, x \in (npsvd M).1.2 -> x = 0 \/ Num.lt tol x.

(* the arrays h3 whose svd the loop of staircase takes *)
Fixpoint loop_svds (fuel : nat) (tol : R) (st : sst R) : seq (arr R) :=
  if fuel is c.+1 then
    if aany (sub_block st) then
      sub_block st :: (if st_step npsvd spac tol st is Ok (Some st') then loop_svds c tol st' else [::])
    else [::]
  else [::].

(* the rank decisions of the reduction of (A, B, C) are correct: that of B with numpy's tolerance, and the others with
   the tolerance n norm(A, 1) eps *)
Definition stair_exact (A B C : arr R) : Prop :=
  aany B ->
  svd_at (smax (npsvd B).1.2 * (maxn (nr B) (nc B))%:R * spac) B /\
  forall st B0 M, st_start npsvd spac A B C = Ok (st, B0) ->
    List.In M (loop_svds (nr A) ((nr A)%:R * norm1 A * spac) st) -> svd_at ((nr A)%:R * norm1 A * spac) M.

Variable cdist : arr R -> arr R -> R.
(* cancellation_distance is at most tol exactly for the uncontrollable pairs *)
Definition cdist_ok (tol : R) : Prop := forall r m (F G : arr R), shp F = (r, r) -> shp G = (r, m) -> (0 < r)%N ->
  (Num.le (cdist F G) tol -> ~ controllable (amx r r F) (amx r m G)) /\
  (Num.lt tol (cdist F G) -> controllable (amx r r F) (amx r m G)).

Variable balance : arr R -> arr R * arr R.
(* matrix_balance(A) = (A', T) with A T = T A' *)
Definition bal_ok n (A : arr R) : Prop := let: (A', T) := balance A in
  [/\ wfa A', shp A' = (n, n), shp T = (n, n), amx n n T \in unitmx & amx n n A *m amx n n T = amx n n T *m amx n n A'].

(* the svds taken by minimal_realization are exact *)
Definition min_exact tol (A B C : arr R) : Prop := let: (A', T) := balance A in forall B' C', np_solve T B = Ok B' -> C' = amul C T ->
  [/\ stair_exact A' B' C', stair_exact (aT A') (aT C') (aT B') &
    forall A0 B0 C0 T0 A1 B1 C1, staircase npsvd spac A' B' C' "c"%string false = Ok (A0, B0, C0, T0) ->
      Num.le (cdist A0 B0) tol -> trim_c cdist tol (nr A0) A0 B0 C0 = Ok (A1, B1, C1) -> stair_exact (aT A1) (aT C1) (aT B1)].

End Exact.
