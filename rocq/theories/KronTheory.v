(* np.kron and repeated block_diag against the tensor product of matrices. *)
From mathcomp Require Import all_ssreflect all_algebra.
From mathcomp.real_closed Require Import mxtens.
From Verif Require Import Base BaseTheory Spec TfTheory.

Set Implicit Arguments.
Unset Strict Implicit.
Unset Printing Implicit Defensive.

Import GRing.Theory.
Local Open Scope ring_scope.

Section Kron.
Variable F : fieldType.
Implicit Types A B : arr F.

Lemma adiag_nseq_dims k A :
  nr (adiag (nseq k A)) = (k * nr A)%N /\ nc (adiag (nseq k A)) = (k * nc A)%N.
Proof.
elim: k => //= k [IH1 IH2].
by rewrite IH1 IH2 !mulSn.
Qed.

Lemma adiag_nseq_get k A i j : (i < k * nr A)%N -> (j < k * nc A)%N ->
  get (adiag (nseq k A)) i j =
  if (i %/ nr A == j %/ nc A)%N then get A (i %% nr A) (j %% nc A) else 0.
Proof.
elim: k i j => // k IH i j hi hj.
have n0 : (0 < nr A)%N by case: (nr A) hi => //; rewrite muln0.
have c0 : (0 < nc A)%N by case: (nc A) hj => //; rewrite muln0.
have [d1 d2] := adiag_nseq_dims k A.
have z x y w z0 : get (@azeros F x y) w z0 = 0.
  case: (ltnP w x) => h1; last by rewrite get_out_r // wfa_mk.
  by case: (ltnP z0 y) => h2; [rewrite get_mk | rewrite get_out_c // wfa_mk].
rewrite [adiag _]/= /adiag2 /ablock get_mk /= ?d1 ?d2; last 2 first.
- by rewrite -mulSn.
- by rewrite -mulSn.
rewrite !mulSn in hi hj.
case: (ltnP i (nr A)) => hiA; rewrite get_mk ?ltn_subLR ?d1 ?d2 //.
- case: (ltnP j (nc A)) => hjA; first by rewrite !divn_small // eqxx !modn_small.
  rewrite z divn_small //; case: eqP => // e.
  by have := divn_gt0 j c0; rewrite -e hjA.
- case: (ltnP j (nc A)) => hjA.
    rewrite z (@divn_small j) //; case: eqP => // e.
    by have := divn_gt0 i n0; rewrite e hiA.
  rewrite IH ?ltn_subLR //.
  have ed x y : (0 < y)%N -> (y <= x)%N -> (x %/ y = ((x - y) %/ y).+1)%N.
    by move=> y0 h; rewrite -{1}(subnK h) divnDr ?dvdnn // divnn y0 addn1.
  have em x y : (y <= x)%N -> (x %% y = (x - y) %% y)%N.
    by move=> h; rewrite -{1}(subnK h) modnDr.
  by rewrite (ed i) // (ed j) // eqSS (em i) // (em j).
Qed.

Variables (L : fieldType) (f : {rmorphism F -> L}).

Lemma mxof_kron m n p q A B : nr A = m -> nc A = n -> nr B = p -> nc B = q ->
  mxof f (m * p) (n * q) (akron A B) = mxof f m n A *t mxof f p q B.
Proof.
move=> <- <- <- <-; rewrite mxof_mk; apply/matrixP => i j.
by rewrite !mxE rmorphM.
Qed.

Lemma mxof_diag_nseq k m n A : nr A = m -> nc A = n ->
  mxof f (k * m) (k * n) (adiag (nseq k A)) = 1%:M *t mxof f m n A.
Proof.
move=> e1 e2; apply/matrixP => i j; rewrite !mxE adiag_nseq_get ?e1 ?e2 //.
rewrite -val_eqE /=; case: eqP => _; first by rewrite mul1r.
by rewrite mul0r rmorph0.
Qed.

Lemma tens_one m n : (1%:M : 'M[L]_m) *t (1%:M : 'M[L]_n) = 1%:M.
Proof.
apply/matrixP => i j; case: (mxtens_indexP i) => i0 i1; case: (mxtens_indexP j) => j0 j1.
rewrite tensmxE !mxE (can_eq (@mxtens_indexK m n)).
by rewrite -natrM mulnb.
Qed.

Lemma tens_unit k n (M : 'M[L]_n) : M \in unitmx -> (1%:M : 'M[L]_k) *t M \in unitmx.
Proof.
move=> u; have e : (1%:M : 'M_k) *t M *m (1%:M *t invmx M) = 1%:M.
  by rewrite tensmx_mul mul1mx mulmxV // tens_one.
by case: (mulmx1_unit e).
Qed.

Lemma tens_char k n (A : 'M[L]_n) s :
  s%:M - (1%:M : 'M[L]_k) *t A = 1%:M *t (s%:M - A).
Proof.
apply/matrixP => i j; case: (mxtens_indexP i) => i0 i1; case: (mxtens_indexP j) => j0 j1.
rewrite !(mxE,mxtens_indexK) /= (can_eq (@mxtens_indexK k n)) xpair_eqE.
by case: (i0 == j0); rewrite /= ?mul1r ?mul0r ?subr0.
Qed.

Lemma regular_tens k n (A : 'M[L]_n) s : regular A s ->
  regular ((1%:M : 'M[L]_k) *t A) s.
Proof. by move=> r; rewrite /regular tens_char tens_unit. Qed.

(* diagonal copies on the left, a matrix of scaled inputs on the right *)
Lemma tf_tens_b k m n (A : 'M[L]_n) (b : 'cV[L]_n) (c : 'rV[L]_n) (d : 'M[L]_1)
    (S : 'M[L]_(k, m)) s : regular A s ->
  tfmx (1%:M *t A) (S *t b) (1%:M *t c) (S *t d) s = S *t tfmx A b c d s.
Proof.
move=> r; rewrite (@tfmx_solve _ _ _ _ _ _ _ _ _ (S *t (invmx (s%:M - A) *m b))).
- rewrite tensmx_mul mul1mx /tfmx !mulmxA.
  by apply/matrixP => i j; rewrite !mxE -mulrDr.
- exact: regular_tens.
- by rewrite tens_char tensmx_mul mul1mx mulKVmx.
Qed.

Lemma tf_tens_c k m n (A : 'M[L]_n) (b : 'cV[L]_n) (c : 'rV[L]_n) (d : 'M[L]_1)
    (S : 'M[L]_(k, m)) s : regular A s ->
  tfmx (1%:M *t A) (1%:M *t b) (S *t c) (S *t d) s = S *t tfmx A b c d s.
Proof.
move=> r; rewrite (@tfmx_solve _ _ _ _ _ _ _ _ _ (1%:M *t (invmx (s%:M - A) *m b))).
- rewrite tensmx_mul mulmx1 /tfmx !mulmxA.
  by apply/matrixP => i j; rewrite !mxE -mulrDr.
- exact: regular_tens.
- by rewrite tens_char tensmx_mul mul1mx mulKVmx.
Qed.

End Kron.
