(* Matrix algebra of transfer functions (no model code). *)
From mathcomp Require Import all_ssreflect all_algebra.
From Verif Require Import Spec.

Set Implicit Arguments.
Unset Strict Implicit.
Unset Printing Implicit Defensive.

Import GRing.Theory.
Local Open Scope ring_scope.

Section Tf.
Variable L : fieldType.

Lemma mulmx_solve n m (M : 'M[L]_n) (X B : 'M[L]_(n, m)) :
  M \in unitmx -> M *m X = B -> X = invmx M *m B.
Proof. by move=> u <-; rewrite mulKmx. Qed.

Lemma tfmx_solve n m p (A : 'M[L]_n) (B : 'M[L]_(n, m)) (C : 'M[L]_(p, n))
    (D : 'M[L]_(p, m)) s (X : 'M[L]_(n, m)) :
  regular A s -> (s%:M - A) *m X = B -> tfmx A B C D s = D + C *m X.
Proof. by move=> r e; rewrite /tfmx -mulmxA (mulmx_solve r e). Qed.

Lemma tfmx_X n m (A : 'M[L]_n) (B : 'M[L]_(n, m)) s :
  regular A s -> (s%:M - A) *m (invmx (s%:M - A) *m B) = B.
Proof. by move=> r; rewrite mulKVmx. Qed.

(* Block structure of sI - A *)
Lemma char_block n1 n2 (A : 'M[L]_n1) B C (D : 'M[L]_n2) s :
  s%:M - block_mx A B C D = block_mx (s%:M - A) (- B) (- C) (s%:M - D).
Proof. by rewrite (scalar_mx_block n1 n2) opp_block_mx add_block_mx !add0r. Qed.

Lemma unit_ublock n1 n2 (A : 'M[L]_n1) B (D : 'M[L]_n2) :
  (block_mx A B 0 D \in unitmx) = (A \in unitmx) && (D \in unitmx).
Proof. by rewrite !unitmxE det_ublock unitrM. Qed.

Lemma unit_lblock n1 n2 (A : 'M[L]_n1) C (D : 'M[L]_n2) :
  (block_mx A 0 C D \in unitmx) = (A \in unitmx) && (D \in unitmx).
Proof. by rewrite !unitmxE det_lblock unitrM. Qed.

Lemma regular_ublock n1 n2 (A : 'M[L]_n1) B (D : 'M[L]_n2) s :
  regular (block_mx A B 0 D) s = regular A s && regular D s.
Proof. by rewrite /regular char_block oppr0 unit_ublock. Qed.

Lemma regular_lblock n1 n2 (A : 'M[L]_n1) C (D : 'M[L]_n2) s :
  regular (block_mx A 0 C D) s = regular A s && regular D s.
Proof. by rewrite /regular char_block oppr0 unit_lblock. Qed.

Lemma regular0 (A : 'M[L]_0) s : regular A s.
Proof. by rewrite /regular unitmxE det_mx00 unitr1. Qed.

Lemma tfmx0 m p (A : 'M[L]_0) (B : 'M[L]_(0, m)) (C : 'M[L]_(p, 0)) D s :
  tfmx A B C D s = D.
Proof. by rewrite /tfmx [C]thinmx0 !mul0mx addr0. Qed.

(* Parallel connection *)
Lemma tf_parallel n1 n2 m p (A1 : 'M[L]_n1) (B1 : 'M[L]_(n1, m)) (C1 : 'M[L]_(p, n1)) D1
    (A2 : 'M[L]_n2) (B2 : 'M[L]_(n2, m)) (C2 : 'M[L]_(p, n2)) D2 s :
  regular A1 s -> regular A2 s ->
  tfmx (block_mx A1 0 0 A2) (col_mx B1 B2) (row_mx C1 C2) (D1 + D2) s =
  tfmx A1 B1 C1 D1 s + tfmx A2 B2 C2 D2 s.
Proof.
move=> r1 r2.
rewrite (@tfmx_solve _ _ _ _ _ _ _ _
  (col_mx (invmx (s%:M - A1) *m B1) (invmx (s%:M - A2) *m B2))).
- by rewrite mul_row_col /tfmx !mulmxA addrACA.
- by rewrite regular_ublock r1.
- by rewrite char_block !oppr0 mul_block_col !mul0mx addr0 add0r !mulKVmx.
Qed.

(* Series connection: the first system is applied last *)
Lemma tf_series n1 n2 m k p (A1 : 'M[L]_n1) (B1 : 'M[L]_(n1, k)) (C1 : 'M[L]_(p, n1)) D1
    (A2 : 'M[L]_n2) (B2 : 'M[L]_(n2, m)) (C2 : 'M[L]_(k, n2)) D2 s :
  regular A1 s -> regular A2 s ->
  tfmx (block_mx A1 (B1 *m C2) 0 A2) (col_mx (B1 *m D2) B2)
       (row_mx C1 (D1 *m C2)) (D1 *m D2) s =
  tfmx A1 B1 C1 D1 s *m tfmx A2 B2 C2 D2 s.
Proof.
move=> r1 r2; set X2 := invmx (s%:M - A2) *m B2.
rewrite (@tfmx_solve _ _ _ _ _ _ _ _
  (col_mx (invmx (s%:M - A1) *m (B1 *m (D2 + C2 *m X2))) X2)).
- rewrite mul_row_col /tfmx -/X2 mulmxDl -(mulmxA C2) -/X2.
  rewrite -[D1 *m C2 *m X2]mulmxA addrCA addrC -mulmxDr addrC.
  by rewrite addrC -!mulmxA.
- by rewrite regular_ublock r1.
- rewrite char_block oppr0 mul_block_col mul0mx add0r !mulKVmx // mulNmx.
  by rewrite mulmxDr mulmxA addrK.
Qed.

(* Constant factors *)
Lemma tf_mulr n m k p (A : 'M[L]_n) (B : 'M[L]_(n, m)) (C : 'M[L]_(p, n)) D
    (M : 'M[L]_(m, k)) s :
  tfmx A (B *m M) C (D *m M) s = tfmx A B C D s *m M.
Proof. by rewrite /tfmx mulmxDl !mulmxA. Qed.

Lemma tf_mull n m k p (A : 'M[L]_n) (B : 'M[L]_(n, m)) (C : 'M[L]_(p, n)) D
    (M : 'M[L]_(k, p)) s :
  tfmx A B (M *m C) (M *m D) s = M *m tfmx A B C D s.
Proof. by rewrite /tfmx mulmxDr !mulmxA. Qed.

Lemma tf_scaler n m p (A : 'M[L]_n) (B : 'M[L]_(n, m)) (C : 'M[L]_(p, n)) D c s :
  tfmx A (c *: B) C (c *: D) s = c *: tfmx A B C D s.
Proof. by rewrite /tfmx scalerDr scalemxAr. Qed.

Lemma tf_scalel n m p (A : 'M[L]_n) (B : 'M[L]_(n, m)) (C : 'M[L]_(p, n)) D c s :
  tfmx A B (c *: C) (c *: D) s = c *: tfmx A B C D s.
Proof. by rewrite /tfmx scalerDr -!scalemxAl. Qed.

Lemma tf_neg n m p (A : 'M[L]_n) (B : 'M[L]_(n, m)) (C : 'M[L]_(p, n)) D s :
  tfmx A B (- C) (- D) s = - tfmx A B C D s.
Proof. by rewrite -!scaleN1r tf_scalel. Qed.

Lemma tf_addD n m p (A : 'M[L]_n) (B : 'M[L]_(n, m)) (C : 'M[L]_(p, n)) D E s :
  tfmx A B C (D + E) s = tfmx A B C D s + E.
Proof. by rewrite /tfmx addrAC. Qed.

(* State inverse *)
Lemma tf_inverse n m (A : 'M[L]_n) (B : 'M[L]_(n, m)) (C : 'M[L]_(m, n)) (D : 'M[L]_m) s :
  D \in unitmx -> regular A s -> regular (A - B *m (invmx D *m C)) s ->
  tfmx (A - B *m (invmx D *m C)) (B *m invmx D) (- (invmx D *m C)) (invmx D) s
    *m tfmx A B C D s = 1%:M.
Proof.
move=> uD r; set Ai := A - _ => ri; set X := invmx (s%:M - A) *m B.
set G := tfmx A B C D s; have GE : G = D + C *m X by rewrite /G /tfmx mulmxA.
have XE : X = invmx (s%:M - Ai) *m (B *m invmx D *m G).
  apply: (mulmx_solve ri); rewrite /Ai opprB addrA addrAC mulmxDl.
  rewrite {1}/X mulKVmx // GE mulmxDr mulmxKV // !mulmxA.
  by rewrite -!mulmxA.
rewrite /tfmx mulmxDl -!mulmxA (mulmxA B) -XE mulNmx -mulmxA -mulmxBr GE.
by rewrite addrK mulVmx.
Qed.

Lemma tf_inverse_regular n m (A : 'M[L]_n) (B : 'M[L]_(n, m)) (C : 'M[L]_(m, n)) (D : 'M[L]_m) s :
  D \in unitmx -> regular A s ->
  regular (A - B *m (invmx D *m C)) s = (tfmx A B C D s \in unitmx).
Proof.
move=> uD r; apply/idP/idP => [ri|uG].
  by have [] := mulmx1_unit (tf_inverse uD r ri).
set G := tfmx _ _ _ _ _ in uG; set M := s%:M - A; rewrite /regular.
have -> : s%:M - (A - B *m (invmx D *m C)) = M + B *m (invmx D *m C) by rewrite opprB addrCA addrC.
have GE : C *m invmx M *m B = G - D by rewrite /G /tfmx addrC addKr.
set P := B *m (invmx D *m C) *m invmx M; set Q := B *m invmx G *m C *m invmx M.
have NX : (M + B *m (invmx D *m C)) *m invmx M = 1%:M + P by rewrite mulmxDl mulmxV.
have PQ : P *m Q = P - Q.
  have -> : P *m Q = B *m invmx D *m (C *m invmx M *m B) *m invmx G *m C *m invmx M.
    by rewrite /P /Q !mulmxA.
  by rewrite GE mulmxBr mulmxKV // !mulmxBl mulmxK // /P /Q !mulmxA.
have e : (M + B *m (invmx D *m C)) *m (invmx M *m (1%:M - Q)) = 1%:M.
  by rewrite mulmxA NX mulmxDl mul1mx mulmxBr mulmx1 PQ opprB [P + _]addrC subrK subrK.
by have [] := mulmx1_unit e.
Qed.

(* Similarity *)
Lemma regular_sim n (A : 'M[L]_n) (T : 'M[L]_n) s : T \in unitmx ->
  regular (invmx T *m A *m T) s = regular A s.
Proof.
move=> uT; rewrite /regular.
have -> : s%:M - invmx T *m A *m T = invmx T *m (s%:M - A) *m T.
  by rewrite mulmxBr mulmxBl scalar_mxC -(mulmxA s%:M) mulVmx // mulmx1.
by rewrite !unitmx_mul unitmx_inv uT /= andbT.
Qed.

Lemma tf_sim n m p (A : 'M[L]_n) (B : 'M[L]_(n, m)) (C : 'M[L]_(p, n)) D
   (T : 'M[L]_n) s : T \in unitmx -> regular A s ->
  tfmx (invmx T *m A *m T) (invmx T *m B) (C *m T) D s = tfmx A B C D s.
Proof.
move=> uT r.
rewrite (@tfmx_solve _ _ _ _ _ _ _ _ (invmx T *m (invmx (s%:M - A) *m B))).
- by rewrite /tfmx -!mulmxA (mulmxA T) mulmxV // mul1mx.
- by rewrite regular_sim.
rewrite mulmxBl -!mulmxA (mulmxA T) mulmxV // mul1mx.
rewrite (mulmxA s%:M) -scalar_mxC -(mulmxA (invmx T) s%:M) -mulmxBr.
by rewrite -mulmxBl mulKVmx.
Qed.

End Tf.
