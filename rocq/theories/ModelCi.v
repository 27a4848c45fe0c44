(* Model of controllability_indices, /repo/harold/_system_props.py lines 151-261.  Definitions only.

   Simplifications: exact arithmetic; A and B are 2-D arrays of finite numbers; scipy's pivoted economic qr is the argument
   qrp, np.sqrt the argument sq, np.spacing(norm(b, 2)) the argument spnorm, and np.sqrt(np.spacing(1.)) the argument
   sqeps. *)
From mathcomp Require Import all_ssreflect all_algebra.
From Verif Require Import Base ModelSim.

Set Implicit Arguments.
Unset Strict Implicit.
Unset Printing Implicit Defensive.

Import GRing.Theory Num.Theory.
Local Open Scope ring_scope.

Section Ci.
Variable R : realFieldType.
Variable qrp : arr R -> arr R * arr R * seq nat.
Variable sq : R -> R.
Variable spnorm : arr R -> R.
Variable sqeps : R.

(* w -= ((q.T @ w).T * q).sum(axis=1, keepdims=True), line 246 *)
Definition ortho (q w : arr R) : arr R :=
  let qw := amul (aT q) w in
  mk (nr w) 1 (fun i _ => get w i 0 - sumN (nc q) (fun l => get qw l 0 * get q i l)).

(* the vector w after the two rounds, lines 243-246 *)
Definition test_vec (q qb : arr R) (i : nat) : arr R := ortho q (ortho q (acol qb i)).

(* norm(w), line 248 *)
Definition vnorm (w : arr R) : R := sq (sumN (nr w) (fun i => get w i 0 ^+ 2)).

(* indices[col] += 1 *)
Definition incr (inds : seq nat) (col : nat) : seq nat := set_nth 0%N inds col (nth 0%N inds col).+1.

(* q, remaining_cols, indices *)
Definition cist := (arr R * seq nat * seq nat)%type.

(* lines 243-254 for one (ind, col) *)
Definition ci_col (tol : R) (qb : arr R) (st : cist) (ic : nat * nat) : cist :=
  let: (q, rc, inds) := st in
  let w := test_vec q qb ic.1 in
  if vnorm w <= tol then (q, rem ic.2 rc, inds)
  else (ahcat q (amap (fun x => x / vnorm w) w), rc, incr inds ic.2).

(* q_bank = a @ q[:, -len(remaining_cols):], line 241; q[:, -0:] is q *)
Definition q_bank (A q : arr R) (rc : seq nat) : arr R :=
  amul A (if rc is [::] then q else asubm q 0 (nr q) (nc q - size rc) (nc q)).

(* lines 241-254; the list is copied before the loop *)
Definition ci_pass (tol : R) (A : arr R) (st : cist) : cist :=
  let: (q, rc, inds) := st in
  foldl (ci_col tol (q_bank A q rc)) st (zip (iota 0 (size rc)) rc).

(* lines 239-257 *)
Fixpoint ci_loop (passes : nat) (tol : R) (A : arr R) (st : cist) : cist :=
  if passes is c.+1 then
    let st := ci_pass tol A st in
    if st.1.2 is [::] then st else ci_loop c tol A st
  else st.

(* rank_b, line 231 *)
Definition rank_b (B r : arr R) : nat :=
  count (fun i => (maxn (nc B) (nr B))%:R * spnorm B < `|get r i i|) (iota 0 (minn (nr B) (nc B))).

(* lines 226-235 *)
Definition ci_start (B : arr R) : cist :=
  let: (q, r, p) := qrp B in
  let rb := rank_b B r in
  (asubm q 0 (nr B) 0 rb, take rb p, foldl incr (nseq (nc B) 0%N) (take rb p)).

(* controllability_indices(A, B, tol) *)
Definition controllability_indices (A B : arr R) (tol : option R) : res (seq nat) :=
  guard nr A == nc A else LinAlgError;
  guard nr A == nr B else ValueError;
  let n := nr B in
  let t := odflt (sqeps * n%:R ^+ 2) tol in
  Ok (ci_loop n.-1 t A (ci_start B)).2.
End Ci.
