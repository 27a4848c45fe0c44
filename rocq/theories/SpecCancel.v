(* Specification vocabulary for cancellation_distance: Euclidean norms, bounds of matrices, rank deficient pencils. *)
From mathcomp Require Import all_ssreflect all_algebra.
From Verif Require Import Base.

Set Implicit Arguments.
Unset Strict Implicit.
Unset Printing Implicit Defensive.

Import GRing.Theory Num.Theory.
Local Open Scope ring_scope.

Section SpecCancel.
Variable C : numClosedFieldType.

(* the Euclidean norm of a vector *)
Definition vn n (u : 'cV[C]_n) : C := sqrtC (\sum_i `|u i 0| ^+ 2).

(* the 2-norm of E is at most b *)
Definition norm_le p q (E : 'M[C]_(p, q)) (b : C) : Prop := forall w, vn (E *m w) <= b * vn w.

(* s is the smallest singular value of M: the smallest value of |M u| / |u| *)
Definition smallest_sv p q (M : 'M[C]_(p, q)) (s : C) : Prop :=
  [/\ 0 <= s, forall u, s * vn u <= vn (M *m u) & exists2 u, u != 0 & vn (M *m u) = s * vn u].

(* K is the condition number |V| |V^-1|, or larger *)
Definition condition n (V : 'M[C]_n) (K : C) : Prop :=
  exists a b, [/\ 0 <= a, 0 <= b, norm_le V a, norm_le (invmx V) b & a * b <= K].

(* the columns of V are linearly independent eigenvectors of M for the eigenvalues d *)
Definition eigenbasis n (M V : 'M[C]_n) (d : 'rV[C]_n) : Prop := V \in unitmx /\ M *m V = V *m diag_mx d.

(* [F - p I | G] does not have full row rank *)
Definition deficient n m (F : 'M[C]_n) (G : 'M[C]_(n, m)) (p : C) : Prop :=
  exists2 x : 'rV[C]_n, x != 0 & x *m (F - p%:M) = 0 /\ x *m G = 0.

(* the perturbation [dF | dG] has norm at most b (a matrix and its transpose have the same norm) *)
Definition pert_le n m (dF : 'M[C]_n) (dG : 'M[C]_(n, m)) (b : C) : Prop := norm_le (row_mx dF dG)^T b.

(* the matrix in an array *)
Definition cmx m n (A : arr C) : 'M[C]_(m, n) := \matrix_(i, j) get A i j.

(* what scipy promises of one call: svdvals ends with the smallest singular value, *)
Definition svd_ok (svdvals : arr C -> seq C) (M : arr C) : Prop :=
  forall p q, shp M = (p, q) -> smallest_sv (cmx p q M) (last 0 (svdvals M)).
(* eig finds a basis of eigenvectors of length 1 (the matrix has one), *)
Definition eig_ok (eig : arr C -> seq C * arr C) (M : arr C) : Prop :=
  forall n, shp M = (n, n) -> [/\ size (eig M).1 = n, shp (eig M).2 = (n, n),
    eigenbasis (cmx n n M) (cmx n n (eig M).2) (\row_i (eig M).1`_i) & forall j, vn (col j (cmx n n (eig M).2)) = 1].
(* cond is the condition number *)
Definition cond_ok (cond : arr C -> C) (V : arr C) : Prop := forall n, shp V = (n, n) -> condition (cmx n n V) (cond V).
End SpecCancel.
