(* Specification for C77: the zeros of a State model and what the external computations deliver. *)
From mathcomp Require Import all_ssreflect all_algebra.
From Verif Require Import Base BaseTheory ModelAux ModelTz SpecSim SpecMin.

Set Implicit Arguments.
Unset Strict Implicit.
Unset Printing Implicit Defensive.

Import GRing.Theory Num.Theory.
Local Open Scope ring_scope.

(* Rosenbrock's system matrix at s *)
Definition sysmx (L : fieldType) n m p (A : 'M[L]_n) (B : 'M[L]_(n, m)) (C : 'M[L]_(p, n)) (D : 'M[L]_(p, m)) (s : L) :
  'M[L]_(n + p, n + m) := block_mx (A - s%:M) B C D.

(* a zero is a point where it loses rank *)
Definition zero_at (L : fieldType) n m p (A : 'M[L]_n) (B : 'M[L]_(n, m)) (C : 'M[L]_(p, n)) (D : 'M[L]_(p, m)) (s : L) : Prop :=
  exists t, (\rank (sysmx A B C D s) < \rank (sysmx A B C D t))%N.

Section Exact.
Variables (R : realFieldType) (L : fieldType) (f : {rmorphism R -> L}).
Variable npsvd : arr R -> arr R * seq R * arr R.
Variable spac : R.
Variable meps : arr R -> arr R -> arr R -> R.

(* qz: the pairs (a, b) are the generalized eigenvalues of the pencil s M - N *)
Definition qz_ok (M N : arr R) (ps : seq (L * L)) : Prop :=
  size ps = nr M /\ exists c : L, c != 0 /\
    forall s, \det (s *: mxof f (nr M) (nr M) M - mxof f (nr M) (nr M) N) = c * \prod_(x <- ps) (s * x.1 - x.2).

(* the svds taken by one pass of the reduction are exact and decide the ranks correctly (svd_at: SpecMin.v) *)
Definition step_exact (tol : R) (A B C D : arr R) : Prop :=
  (aany D -> svd_at npsvd tol D) /\
  forall Cbd rD sigma, tz_compress npsvd spac tol C D = Ok (Some (Cbd, rD, sigma)) ->
    svd_at npsvd tol (aT (asubm Cbd sigma (nr D) 0 (nr A))).

(* ... and those of all passes *)
Fixpoint loop_exact (fuel : nat) (tol : R) (S : quad R) : Prop :=
  if fuel is c.+1 then
    let: (A, B, C, D) := S in
    step_exact tol A B C D /\
    forall S', tz_step npsvd spac tol A B C D = Ok (TzNext S') -> loop_exact c tol S'
  else True.
Definition red_exact (A B C D : arr R) : Prop :=
  0 <= meps A B C /\ loop_exact (nr A) (meps A B C) (A, B, C, D).

(* the decomposition of [D, C] of line 3207 is exact, and qz is exact on the pencil made from it *)
Definition final_exact qz (A B C D : arr R) : Prop :=
  npsvd_ok (ahcat D C) (npsvd (ahcat D C)) /\
  let w := aroll (aT (npsvd (ahcat D C)).2) (nc D) in
  let M := asubm w 0 (nr A) 0 (nr A) in
  let N := asubm (amul (ahcat A B) w) 0 (nr A) 0 (nr A) in
  qz_ok M N (qz M N).

(* all of this for a call transmission_zeros(A, B, C, D) *)
Definition tz_exact qz (A B C D : arr R) : Prop :=
  svd_at npsvd (smax (npsvd D).1.2 * (maxn (nr D) (nc D))%:R * spac) D /\
  forall r, res_map snd (haroldsvd npsvd spac D None) = Ok r ->
  if tz_direct r (nr D) (nc D) then final_exact qz A B C D
  else
    (r <> nr D -> red_exact A B C D) /\
    forall Ar Br Cr Dr, tz_first npsvd spac meps r A B C D = Ok (Ar, Br, Cr, Dr) -> asize Ar <> 0%N ->
      red_exact (aT Ar) (aT Cr) (aT Br) (aT Dr) /\
      forall Ac Bc Cc Dc, tz_second npsvd spac meps (Ar, Br, Cr, Dr) = Ok (Ac, Bc, Cc, Dc) -> asize Ac <> 0%N ->
        final_exact qz Ac Bc Cc Dc.

(* the arrays on which lines 3205-3219 run satisfy P *)
Definition at_final (P : arr R -> arr R -> arr R -> arr R -> Prop) (A B C D : arr R) : Prop :=
  forall r, res_map snd (haroldsvd npsvd spac D None) = Ok r ->
  if tz_direct r (nr D) (nc D) then P A B C D
  else forall S T, tz_first npsvd spac meps r A B C D = Ok S -> tz_second npsvd spac meps S = Ok T ->
    let: (Ac, Bc, Cc, Dc) := T in P Ac Bc Cc Dc.

(* the pencil handed to qz there is regular: its determinant does not vanish identically *)
Definition final_regular (A B C D : arr R) : Prop :=
  let w := aroll (aT (npsvd (ahcat D C)).2) (nc D) in
  let M := mxof f (nr A) (nr A) (asubm w 0 (nr A) 0 (nr A)) in
  let N := mxof f (nr A) (nr A) (asubm (amul (ahcat A B) w) 0 (nr A) 0 (nr A)) in
  exists s, \det (s *: M - N) != 0.
End Exact.
