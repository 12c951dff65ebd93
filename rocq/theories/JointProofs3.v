(** Scalar witnesses for C175. *)
From mathcomp Require Import all_ssreflect all_algebra.
From Verif Require Import JointModel JointSpec JointProofs JointProofs2.
Set Implicit Arguments.
Unset Strict Implicit.
Unset Printing Implicit Defensive.
Import Order.Theory GRing.Theory Num.Theory.
Local Open Scope ring_scope.

(** One dimension, all variances one. *)
Definition est1 (q : rat) : est rat_realFieldType 1 1 1 :=
  Est (fun _ => 1%:M) (fun _ => 1%:M) 1%:M (fun _ => q%:M) (fun _ => q%:M)
      (fun i j => if i == j then 1%:M else 0) 1%:M.
Definition pair2 (w u : rat) : seq (assoc rat_realFieldType 1) := [:: (1%N, u%:M); (0%N, w%:M)].

Lemma add1 (a b : rat) : (a%:M : 'M[rat]_1) + b%:M = (a + b)%:M.
Proof. by rewrite [RHS]raddfD. Qed.


Lemma code_w i j : w_block (est1 0) false i j = 2%:R%:M.
Proof. by rewrite /w_block /= !mul1mx trmx1 add1. Qed.
Lemma code_c i q : c_current (est1 q) i = 3%:R%:M.
Proof. by rewrite /c_current /= eqxx !mul1mx trmx1 !add1. Qed.
Lemma true_x i j : i <> j -> true_cross (est1 0) i j = 1%:M.
Proof.
move=> n; rewrite /true_cross /=; have -> : (i == j) = false by apply/eqP.
by rewrite !mul1mx trmx1 mulmx1 raddf0 !mul0mx !addr0.
Qed.
Lemma true_c i q : true_cov (est1 q) i = (3%:R + q + q)%:M.
Proof.
rewrite /true_cov /true_cross /= eqxx !mul1mx trmx1 !mulmx1 !add1; congr (_%:M).
by rewrite [1 + q]addrC -!addrA addrC -!addrA; congr (_ + _); rewrite addrC -!addrA.
Qed.
Lemma sym1 q : (e_rr (est1 q))^T = e_rr (est1 q) /\ (forall i, (e_ll (est1 q) i i)^T = e_ll (est1 q) i i) /\ (e_Q (est1 q))^T = e_Q (est1 q).
Proof. by split; [|split=> [i|]]; rewrite /= ?eqxx trmx1. Qed.
Lemma coupled1 q : coupled (est1 q) false.
Proof. by rewrite /coupled /=; apply/eqP => /matrixP /(_ 0 0); rewrite !mxE. Qed.
Lemma regular_code w u : regular (w_block (est1 0) false) (c_current (est1 0)) (pair2 w u).
Proof.
apply: (@regular_ext _ _ (fun _ _ => 2%:R%:M) _ (fun _ => 3%:R%:M)) => //.
- by move=> i; rewrite code_c.
- by move=> i j _; rewrite code_w.
- exact: scalar_regular.
Qed.
Lemma regular_true w u : regular (true_cross (est1 0)) (true_cov (est1 0)) (pair2 w u).
Proof.
apply: (@regular_ext _ _ (fun _ _ => 1%:M) _ (fun _ => 3%:R%:M)) => //.
- by move=> i; rewrite true_c !addr0.
- by move=> i j n; rewrite true_x.
- exact: scalar_regular.
Qed.
Lemma code_pair w u : jcbb_dist (est1 0) false (pair2 w u) =
  maha (joint (fun _ _ => 2%:R%:M : 'M[rat]_1) (fun _ => 3%:R%:M) (pair2 w u)) (stack (pair2 w u)).
Proof.
have [a [b c]] := sym1 0.
rewrite (jcbb_exact a b c); [|exact: coupled1|exact: regular_code].
rewrite (@joint_ext _ _ _ (fun _ _ => 2%:R%:M) _ (fun _ => 3%:R%:M)) //.
- by move=> i; rewrite code_c.
- by move=> i j _; rewrite code_w.
Qed.
Lemma true_pair w u : maha (joint (true_cross (est1 0)) (true_cov (est1 0)) (pair2 w u)) (stack (pair2 w u)) =
  maha (joint (fun _ _ => 1%:M : 'M[rat]_1) (fun _ => 3%:R%:M) (pair2 w u)) (stack (pair2 w u)).
Proof.
rewrite (@joint_ext _ _ _ (fun _ _ => 1%:M) _ (fun _ => 3%:R%:M)) //.
- by move=> i; rewrite true_c !addr0.
- by move=> i j n; rewrite true_x.
Qed.
Lemma uncorrelated1 : uncorrelated (est1 0).
Proof. by split; [|split] => [i|i|i j /eqP/negPf n] /=; rewrite ?raddf0 ?n. Qed.

