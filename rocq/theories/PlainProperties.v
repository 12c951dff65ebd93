(** C176 and C177: rfsMeasurementLikelihood of RFSCeresSLAM (include/RFSCeresSLAM.hpp:559-866). *)
From Coq Require Import ZArith List Bool Arith QArith Qcanon Lia.
From Verif Require Import Base QcLra PermanentSpec LexSpec PartitionSpec PartitionRef RfsModel RfsSpec RfsProofs RfsProofs2 RfsProofs4 RfsKbest
  PlainModel PlainSpec PlainProofs2 PlainProofs4.
Import ListNotations.
Local Open Scope Qc_scope.

(** ** C176: the value *)

(** For every scan of a map that is not empty, whatever the detection probabilities [pdm] are: the function returns, and the value is
    the sum over all association hypotheses with detection probability 0.9 for every landmark, 0.9 instead of 0.1 for missing a landmark
    without possible measurement, divided by the clutter integral; never more, and exactly if the components of the table have at most 8
    landmarks and measurements or at most 200 hypotheses. *)
Theorem C176_exact_partial : forall gauss jl jp pdm clu da thr kbest cc ncc integral M nZ,
  (forall m n, 0 <= gauss m n) -> (forall n, 0 <= clu n) -> kbest_contract kbest -> 0 < integral -> (0 < M)%nat ->
  let pd := fun _ => Q2Qc (9 # 10) in let L := table gauss pd da thr in let cl := origin_clutter clu da in
  components_of (support L) 0%Z M nZ cc ncc ->
  exists l lg pg s, plain_scan gauss jl jp pdm clu da thr kbest cc ncc integral M nZ = Val (l, lg, pg) /\
  association_sum M nZ L (swapped nZ L pd) cl s /\ 0 <= l /\ l * integral <= s /\ (tractable L pd cl M nZ -> l * integral = s).
Proof.
  intros gauss jl jp pdm clu da thr kbest cc ncc integral M nZ Hg Hc Hk Hi HM pd L cl Hcc.
  destruct (plain_run gauss jl jp pdm clu da thr kbest cc ncc integral M nZ Hg Hc Hk Hi HM Hcc) as (l & lg & pg & s & H1 & H2 & H3 & H4 & H5 & _).
  exists l, lg, pg, s. auto.
Qed.
Print Assumptions C176_exact_partial.

(** If the detection probabilities are 0.9 and every landmark has a possible measurement, the value is the sum over all association
    hypotheses divided by the clutter integral. *)
Theorem C176_partial : forall gauss jl jp pdm clu da thr kbest cc ncc integral M nZ,
  (forall m n, 0 <= gauss m n) -> (forall n, 0 <= clu n) -> kbest_contract kbest -> 0 < integral -> (0 < M)%nat ->
  (forall m, pdm m = Q2Qc (9 # 10)) ->
  let L := table gauss pdm da thr in let cl := origin_clutter clu da in
  components_of (support L) 0%Z M nZ cc ncc -> unseen M nZ L = [] -> tractable L pdm cl M nZ ->
  exists l lg pg, plain_scan gauss jl jp pdm clu da thr kbest cc ncc integral M nZ = Val (l, lg, pg) /\
  association_sum M nZ L pdm cl (l * integral).
Proof. exact plain_seen. Qed.
Print Assumptions C176_partial.

(** Two landmarks, three measurements: the first is known to be of landmark 1, the second of unknown origin, the third an outlier. *)
Definition x_gauss (m n : nat) : Qc := match m, n with 0%nat, 1%nat => Q2Qc (5 # 9) | 1%nat, 0%nat => Q2Qc (1 # 3) | _, _ => Q2Qc (1 # 100) end.
Definition x_da (n : nat) : Z := match n with 0%nat => 1%Z | 1%nat => (-1)%Z | _ => (-2)%Z end.
Definition x_one (_ : nat) : Qc := 1.
Definition x_nine (_ : nat) : Qc := Q2Qc (9 # 10).
Definition x_thr : Qc := Q2Qc (1 # 50).
Definition x_jac (m n : nat) : Qc := Q2Qc (Z.of_nat (2 + m) # 1).
Notation x_L := (table x_gauss x_nine x_da x_thr).
Notation cc_of L M nZ := (ref_cc (support L) 0%Z M nZ).
Notation ncc_of L M nZ := (ref_ncc (support L) 0%Z M nZ).

Definition shown (r : Qc * (nat -> Qc) * Qc) : Q * list Q * Q := (this (fst (fst r)), map (fun m => this (snd (fst r) m)) (seq 0 2), this (snd r)).
Lemma shown_val : forall o l a b p, omap shown o = Val (l, [a; b], p) ->
  exists lg pg, o = Val (Q2Qc l, lg, pg) /\ lg 0%nat = Q2Qc a /\ lg 1%nat = Q2Qc b /\ pg = Q2Qc p.
Proof.
  intros o l a b p H. destruct o as [((l0 & lg) & pg)|u|]; [|discriminate|discriminate]. cbn in H. injection H as H1 H2 H3 H4.
  assert (R : forall (x : Qc) q, this x = q -> x = Q2Qc q).
  { intros x q E. apply Qc_is_canon. unfold Q2Qc. cbn [this]. rewrite <- E. symmetry. apply Qred_correct. }
  exists lg, pg. split; [f_equal; f_equal; f_equal; apply R; exact H1|]. repeat split; apply R; assumption.
Qed.

Example C176_ex : (forall m n, 0 <= x_gauss m n) /\ components_of (support x_L) 0%Z 2 3 (cc_of x_L 2 3) (ncc_of x_L 2 3) /\ unseen 2 3 x_L = [] /\ tractable x_L x_nine (origin_clutter x_one x_da) 2 3 /\
  omap shown (plain_scan x_gauss x_jac x_jac x_nine x_one x_da x_thr kbest_ref (cc_of x_L 2 3) (ncc_of x_L 2 3) (Q2Qc 2) 2 3) =
    Val ((1 # 10)%Q, [(5 # 6)%Q; 1%Q], (11 # 6)%Q).
Proof.
  split; [intros [|[|m]] [|[|n]]; vm_compute; discriminate|]. split; [apply ref_ok|]. split; [vm_compute; reflexivity|].
  split; [apply small_tractable; lia|vm_compute; reflexivity].
Qed.

(** *** False in general *)

Definition y_gauss (_ _ : nat) : Qc := Q2Qc (5 # 9).
Definition y_half (_ : nat) : Qc := Q2Qc (1 # 2).
Definition y_da (_ : nat) : Z := (-1)%Z.
Definition y_jac (_ _ : nat) : Qc := 1.
Notation y_run pd M nZ i := (let L := table y_gauss pd y_da 0 in
  plain_scan y_gauss y_jac y_jac pd x_one y_da 0 kbest_ref (cc_of L M nZ) (ncc_of L M nZ) i M nZ).

Lemma shown_one : forall o l a b p, omap shown o = Val (l, [a; b], p) -> exists lg pg, o = Val (Q2Qc l, lg, pg) /\ lg 0%nat = Q2Qc a /\ pg = Q2Qc p.
Proof. intros o l a b p H. destruct (shown_val _ _ _ _ _ H) as (lg & pg & H1 & H2 & _ & H3). exists lg, pg. auto. Qed.

(** One landmark seen with probability 1/2, one measurement that is likely of it (5/9): the sum is 1/2 + 5/18 = 7/9; the value is the one for
    0.9, because rfsMeasurementLikelihood overwrites the probability of the sensor model. *)
Theorem C176_refuted :
  (let L := table y_gauss y_half y_da 0 in
   components_of (support L) 0%Z 1 1 (cc_of L 1%nat 1%nat) (ncc_of L 1%nat 1%nat) /\ unseen 1 1 L = [] /\
   tractable L y_half (origin_clutter x_one y_da) 1 1 /\ association_sum 1 1 L y_half (origin_clutter x_one y_da) (Q2Qc (7 # 9))) /\
  exists lg pg, y_run y_half 1%nat 1%nat 1 = Val (Q2Qc (3 # 5), lg, pg).
Proof.
  split.
  - cbv zeta. split; [apply ref_ok|]. split; [vm_compute; reflexivity|]. split; [apply small_tractable; lia|].
    apply association_sum_iff. apply Qc_is_canon. vm_compute. reflexivity.
  - assert (E : omap shown (y_run y_half 1%nat 1%nat 1) = Val ((3 # 5)%Q, [(5 # 12)%Q; 0%Q], (5 # 12)%Q)) by (vm_compute; reflexivity).
    destruct (shown_one _ _ _ _ _ E) as (lg & pg & H & _). exists lg, pg. exact H.
Qed.
Print Assumptions C176_refuted.

(** No measurement and one landmark seen with probability 0.9: the sum is 1/10, the value 9/10. *)
Theorem C176_missed_refuted :
  association_sum 1 0 (table y_gauss x_nine y_da 0) x_nine (origin_clutter x_one y_da) (Q2Qc (1 # 10)) /\
  exists lg pg, y_run x_nine 1%nat 0%nat 1 = Val (Q2Qc (9 # 10), lg, pg).
Proof.
  split; [apply association_sum_iff; apply Qc_is_canon; vm_compute; reflexivity|].
  assert (E : omap shown (y_run x_nine 1%nat 0%nat 1) = Val ((9 # 10)%Q, [0%Q; 0%Q], 0%Q)) by (vm_compute; reflexivity).
  destruct (shown_one _ _ _ _ _ E) as (lg & pg & H & _). exists lg, pg. exact H.
Qed.
Print Assumptions C176_missed_refuted.

(** No landmark, two measurements of clutter intensity 1, clutter integral 2: the sum is 1, the value is 1, not 1/2. *)
Theorem C176_empty_refuted :
  association_sum 0 2 (table y_gauss x_nine y_da 0) x_nine (origin_clutter x_one y_da) 1 /\
  exists lg pg, y_run x_nine 0%nat 2%nat (Q2Qc 2) = Val (1, lg, pg).
Proof.
  split; [apply association_sum_iff; apply Qc_is_canon; vm_compute; reflexivity|].
  assert (E : omap shown (y_run x_nine 0%nat 2%nat (Q2Qc 2)) = Val (1%Q, [0%Q; 0%Q], 0%Q)) by (vm_compute; reflexivity).
  destruct (shown_one _ _ _ _ _ E) as (lg & pg & H & _). exists lg, pg. rewrite H. f_equal.
Qed.
Print Assumptions C176_empty_refuted.

(** ** C177: the gradients *)

(** For every scan of a map that is not empty with a positive sum: the gradient of landmark m is the mean, over the association hypotheses, of
    the table entry times the derivative at the measurement of m, the gradient of the pose the mean of the sum of these over all
    landmarks (with detection probability 0.9). *)
Theorem C177_partial : forall gauss jl jp pdm clu da thr kbest cc ncc integral M nZ,
  (forall m n, 0 <= gauss m n) -> (forall n, 0 <= clu n) -> kbest_contract kbest -> 0 < integral -> (0 < M)%nat ->
  let pd := fun _ => Q2Qc (9 # 10) in let L := table gauss pd da thr in let cl := origin_clutter clu da in
  components_of (support L) 0%Z M nZ cc ncc -> tractable L pd cl M nZ -> (exists t, association_sum M nZ L pd cl t /\ 0 < t) ->
  exists l lg pg, plain_scan gauss jl jp pdm clu da thr kbest cc ncc integral M nZ = Val (l, lg, pg) /\
  (forall m, (m < M)%nat -> mean M nZ L pd cl (gain nZ (fun m n => L m n * jl m n) m) (lg m)) /\
  mean M nZ L pd cl (gains M nZ (fun m n => L m n * jp m n)) pg.
Proof.
  intros gauss jl jp pdm clu da thr kbest cc ncc integral M nZ Hg Hc Hk Hi HM pd L cl Hcc Ht Hp.
  destruct (plain_run gauss jl jp pdm clu da thr kbest cc ncc integral M nZ Hg Hc Hk Hi HM Hcc) as (l & lg & pg & s & H1 & _ & _ & _ & _ & H6).
  exists l, lg, pg. split; [exact H1|]. apply H6; assumption.
Qed.
Print Assumptions C177_partial.

(** The scan of C176_ex: the sum is positive. *)
Example C177_ex : association_sum 2 3 x_L x_nine (origin_clutter x_one x_da) (Q2Qc (1 # 5)) /\
  exists lg pg, plain_scan x_gauss x_jac x_jac x_nine x_one x_da x_thr kbest_ref (cc_of x_L 2 3) (ncc_of x_L 2 3) (Q2Qc 2) 2 3 =
    Val (Q2Qc (1 # 10), lg, pg) /\ lg 0%nat = Q2Qc (5 # 6) /\ lg 1%nat = 1 /\ pg = Q2Qc (11 # 6).
Proof.
  split; [apply association_sum_iff; apply Qc_is_canon; vm_compute; reflexivity|].
  destruct (shown_val _ _ _ _ _ (proj2 (proj2 (proj2 (proj2 C176_ex))))) as (lg & pg & H). exists lg, pg. exact H.
Qed.

(** With the derivatives of the logarithm of the likelihood of a measurement, the gradient is neither that of the logarithm of the value
    (the mean of the derivatives) nor that of the value (the value times this mean): one landmark, one measurement that is likely
    of it (5/9), derivative 1: 5/12 is returned, the first is 5/6, the second 1/2. *)
Theorem C177_refuted :
  mean 1 1 (table y_gauss x_nine y_da 0) x_nine (origin_clutter x_one y_da) (gain 1 y_jac 0) (Q2Qc (5 # 6)) /\
  exists lg pg, y_run x_nine 1%nat 1%nat 1 = Val (Q2Qc (3 # 5), lg, pg) /\ lg 0%nat = Q2Qc (5 # 12) /\ pg = Q2Qc (5 # 12) /\
  Q2Qc (5 # 12) <> Q2Qc (5 # 6) /\ Q2Qc (5 # 12) <> Q2Qc (3 # 5) * Q2Qc (5 # 6).
Proof.
  split.
  - exists (henum 1 1 (seq 0 1)). split; [apply henum_nodup; [apply seq_NoDup|apply seq_not]|].
    split; [intros h; rewrite henum_in by apply seq_not; apply assoc_association|].
    split; [vm_compute; reflexivity|]. apply Qc_is_canon. vm_compute. reflexivity.
  - assert (E : omap shown (y_run x_nine 1%nat 1%nat 1) = Val ((3 # 5)%Q, [(5 # 12)%Q; 0%Q], (5 # 12)%Q)) by (vm_compute; reflexivity).
    destruct (shown_one _ _ _ _ _ E) as (lg & pg & H). exists lg, pg. destruct H as (H1 & H2 & H3). repeat split; auto; vm_compute; discriminate.
Qed.
Print Assumptions C177_refuted.
