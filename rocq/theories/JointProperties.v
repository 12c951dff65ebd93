(** C175: the joint distance of a JCBB hypothesis. *)
From mathcomp Require Import all_ssreflect all_algebra.
From Verif Require Import JointModel JointSpec JointProofs JointProofs2 JointProofs3.
Set Implicit Arguments.
Unset Strict Implicit.
Unset Printing Implicit Defensive.
Import Order.Theory GRing.Theory Num.Theory.
Local Open Scope ring_scope.

(** The recursion itself is right: for any blocks, and hypotheses of any length, the inverse kept at the node
    is the inverse of the joint matrix, the innovation is the stack and the distance is v^T S^-1 v. *)
Theorem C175_recursion : forall (F : realFieldType) (m : nat) (X : nat -> nat -> 'M[F]_m) (C : nat -> 'M[F]_m) (h : seq (assoc F m)),
  (forall i, (C i)^T = C i) -> regular X C h ->
  node_of true X C h = (invmx (joint X C h), stack h, maha (joint X C h) (stack h)).
Proof. move=> F m X C h s R; exact (node_exact s R). Qed.
Print Assumptions C175_recursion.

(** What the code computes: the distance for the matrix of its own blocks, which carry the measurement noise
    beside the diagonal and (without a dense covariance) the new landmark's Jacobian on both sides. *)
Theorem C175_exact : forall (F : realFieldType) (r l m : nat) (e : est F r l m),
  (e_rr e)^T = e_rr e -> (forall i, (e_ll e i i)^T = e_ll e i i) -> (e_Q e)^T = e_Q e ->
  forall dense h, coupled e dense -> regular (w_block e dense) (c_current e) h ->
  jcbb_dist e dense h = maha (joint (w_block e dense) (c_current e) h) (stack h).
Proof. move=> F r l m e a b c dense h; exact (@jcbb_exact F r l m e a b c dense h). Qed.
Print Assumptions C175_exact.

(** The same against the true covariances.  Dense: each block beside the diagonal is too large by the noise, each
    block of the diagonal lacks the correlation of robot and landmark. *)
Theorem C175_dense_partial : forall (F : realFieldType) (r l m : nat) (e : est F r l m),
  (e_rr e)^T = e_rr e -> (forall i, (e_ll e i i)^T = e_ll e i i) -> (e_Q e)^T = e_Q e ->
  forall h,
  let X := fun i j => true_cross e i j + e_Q e in
  let C := fun i => true_cov e i - (e_Hr e i *m e_rl e i *m (e_Hl e i)^T + e_Hl e i *m e_lr e i *m (e_Hr e i)^T) in
  regular X C h -> jcbb_dist e true h = maha (joint X C h) (stack h).
Proof. move=> F r l m e a b c h; exact (@jcbb_dense F r l m e a b c h). Qed.
Print Assumptions C175_dense_partial.

(** Uncorrelated: beside the diagonal the new landmark's Jacobian is on both sides and the noise is added. *)
Theorem C175_block_partial : forall (F : realFieldType) (r l m : nat) (e : est F r l m),
  (e_rr e)^T = e_rr e -> (forall i, (e_ll e i i)^T = e_ll e i i) -> (e_Q e)^T = e_Q e ->
  forall h, e_rr e != 0 ->
  let X := fun i (_ : nat) => e_Hr e i *m e_rr e *m (e_Hr e i)^T + e_Q e in
  uncorrelated e -> regular X (true_cov e) h -> jcbb_dist e false h = maha (joint X (true_cov e) h) (stack h).
Proof. move=> F r l m e a b c h; exact (@jcbb_block F r l m e a b c h). Qed.
Print Assumptions C175_block_partial.

(** With a certain robot pose it is the joint Mahalanobis distance, for every number of associations. *)
Theorem C175_partial : forall (F : realFieldType) (r l m : nat) (e : est F r l m),
  (e_rr e)^T = e_rr e -> (forall i, (e_ll e i i)^T = e_ll e i i) -> (e_Q e)^T = e_Q e ->
  forall h, uncorrelated e -> e_rr e = 0 -> uniq (map fst h) -> regular (true_cross e) (true_cov e) h ->
  jcbb_dist e false h = maha (joint (true_cross e) (true_cov e) h) (stack h).
Proof. move=> F r l m e a b c h; exact (@jcbb_certain F r l m e a b c h). Qed.
Print Assumptions C175_partial.

(** With an uncertain one it is for the first association. *)
Theorem C175_single_partial : forall (F : realFieldType) (r l m : nat) (e : est F r l m) (a : assoc F m),
  uncorrelated e -> true_cov e a.1 \in unitmx ->
  jcbb_dist e false [:: a] = maha (true_cov e a.1) a.2.
Proof. move=> F r l m e a; exact (@jcbb_single F r l m e a). Qed.
Print Assumptions C175_single_partial.

(** Uncorrelated estimates of variance one, noise one: innovations 3 and 4 have joint distance 51/8, above the
    95% quantile of two degrees of freedom (5.99), and JCBB computes 27/5, below it (and 3 for the first one
    alone, below the quantile 3.84 of one); innovations 2 and -2 have 4 and JCBB computes 8. *)
Theorem C175_refuted : exists e : est rat_realFieldType 1 1 1,
  uncorrelated e /\ (forall w u, regular (true_cross e) (true_cov e) (pair2 w u)) /\
  jcbb_dist e false [:: (0%N, 3%:R%:M)] = 3%:R /\
  jcbb_dist e false (pair2 3%:R 4%:R) = 27%:R / 5%:R /\
  maha (joint (true_cross e) (true_cov e) (pair2 3%:R 4%:R)) (stack (pair2 3%:R 4%:R)) = 51%:R / 8%:R /\
  jcbb_dist e false (pair2 2%:R (- 2%:R)) = 8%:R /\
  maha (joint (true_cross e) (true_cov e) (pair2 2%:R (- 2%:R))) (stack (pair2 2%:R (- 2%:R))) = 4%:R.
Proof.
exists (est1 0); split; first exact: uncorrelated1; split; first by move=> w u; exact: regular_true.
rewrite !code_pair !true_pair !two_dist //.
split; last by split; [|split; [|split]]; apply/eqP; vm_compute.
rewrite (C175_single_partial (a := (0%N, 3%:R%:M)) uncorrelated1); last by rewrite true_c; exact: scalar_unit.
rewrite /maha true_c invmx_scalar tr_scalar_mx -!scalar_mxM mxE eqxx mulr1n.
by apply/eqP; vm_compute.
Qed.
Print Assumptions C175_refuted.

(** A dense covariance with correlation 1/2 between robot and landmark: the innovation of one association has
    variance 4, JCBB takes 3; an innovation of 7/2 is within the 95% quantile (3.84) and JCBB rejects it. *)
Theorem C175_dense_refuted : exists (e : est rat_realFieldType 1 1 1) (a : assoc rat_realFieldType 1),
  (forall i, e_lr e i = (e_rl e i)^T) /\ true_cov e a.1 \in unitmx /\
  jcbb_dist e true [:: a] = 49%:R / 12%:R /\ maha (true_cov e a.1) a.2 = 49%:R / 16%:R.
Proof.
exists (est1 (2%:R^-1)), (0%N, (7%:R / 2%:R)%:M).
split; first by move=> i /=; rewrite tr_scalar_mx.
have E : (3%:R + 2%:R^-1 + 2%:R^-1 : rat) = 4%:R by apply/eqP; vm_compute.
split; first by rewrite true_c E; exact: scalar_unit.
split.
  rewrite /jcbb_dist /= /extend /= add0r code_c invmx_scalar tr_scalar_mx -!scalar_mxM mxE eqxx mulr1n.
  by apply/eqP; vm_compute.
rewrite /maha true_c E invmx_scalar tr_scalar_mx -!scalar_mxM mxE eqxx mulr1n.
by apply/eqP; vm_compute.
Qed.
Print Assumptions C175_dense_refuted.

(** Hypotheses of C175_exact and C175_recursion: two associations with an uncertain pose. *)
Example C175_exact_example : coupled (est1 0) false /\ regular (w_block (est1 0) false) (c_current (est1 0)) (pair2 3%:R 4%:R) /\
  (e_rr (est1 0))^T = e_rr (est1 0) /\ (forall i, (e_ll (est1 0) i i)^T = e_ll (est1 0) i i) /\ (e_Q (est1 0))^T = e_Q (est1 0).
Proof. by split; [exact: coupled1 | split; [exact: regular_code | exact: sym1]]. Qed.

(** Hypotheses of C175_partial: the same with a certain pose. *)
Definition est0 : est rat_realFieldType 1 1 1 :=
  Est (fun _ => 1%:M) (fun _ => 1%:M) 0 (fun _ => 0) (fun _ => 0) (fun i j => if i == j then 1%:M else 0) 1%:M.
Example C175_partial_example : uncorrelated est0 /\ e_rr est0 = 0 /\ uniq (map fst (pair2 3%:R 4%:R)) /\
  regular (true_cross est0) (true_cov est0) (pair2 3%:R 4%:R) /\ jcbb_dist est0 false (pair2 3%:R 4%:R) = 25%:R / 2%:R.
Proof.
have u : uncorrelated est0 by split; [|split] => [i|i|i j /eqP/negPf n] //=; rewrite ?n.
have c i : c_current est0 i = 2%:R%:M by rewrite /c_current /= eqxx !mul1mx mul0mx trmx1 add0r add1.
split=> //; split=> //; split=> //; split.
  apply: (@regular_ext _ _ (fun _ _ => 0%:M) _ (fun _ => 2%:R%:M)) => //.
  - by move=> i; rewrite true_cov_uncorrelated.
  - by move=> i j n; rewrite true_cross_uncorrelated //= mulmx0 mul0mx raddf0.
  - exact: scalar_regular.
rewrite /jcbb_dist /coupled /= eqxx /extend /= add0r !c invmx_scalar !tr_scalar_mx -!scalar_mxM !mxE eqxx !mulr1n.
by apply/eqP; vm_compute.
Qed.

(** Hypotheses of C175_single_partial. *)
Example C175_single_example : uncorrelated (est1 0) /\ true_cov (est1 0) 0%N \in unitmx.
Proof. by split; [exact: uncorrelated1 | rewrite true_c; exact: scalar_unit]. Qed.

(** Hypotheses of C175_dense_partial and C175_block_partial: two associations, unit variances. *)
Example C175_dense_example : e_rr (est1 0) != 0 /\
  regular (fun i j => true_cross (est1 0) i j + e_Q (est1 0))
    (fun i => true_cov (est1 0) i - (e_Hr (est1 0) i *m e_rl (est1 0) i *m (e_Hl (est1 0) i)^T +
                                     e_Hl (est1 0) i *m e_lr (est1 0) i *m (e_Hr (est1 0) i)^T)) (pair2 3%:R 4%:R) /\
  regular (fun i _ => e_Hr (est1 0) i *m e_rr (est1 0) *m (e_Hr (est1 0) i)^T + e_Q (est1 0)) (true_cov (est1 0)) (pair2 3%:R 4%:R).
Proof.
split; first by have := coupled1 0; rewrite /coupled.
split; apply: (@regular_ext _ _ (fun _ _ => 2%:R%:M) _ (fun _ => 3%:R%:M)) => //.
- move=> i; case: uncorrelated1 => a [b _]; rewrite a b !mulmx0 !mul0mx addr0 subr0 true_c; congr (_%:M).
- by move=> i j n; rewrite true_x //= add1; congr (_%:M).
- exact: scalar_regular.
- by move=> i; rewrite true_c; congr (_%:M).
- by move=> i j n /=; rewrite !mul1mx trmx1 add1; congr (_%:M).
- exact: scalar_regular.
Qed.
