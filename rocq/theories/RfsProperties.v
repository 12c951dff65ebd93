(** C17-C18: the multi-feature measurement likelihood (include/RBPHDFilter.hpp:826-1000). *)
From Coq Require Import ZArith List Bool Arith QArith Qcanon Lia.
From Verif Require Import Base QcLra PermanentSpec PartitionModel PartitionSpec PartitionRef LexSpec
  RfsModel RfsSpec RfsProofs RfsProofs2 RfsProofs4 RfsProofs5 RfsKbest.
Import ListNotations.
Local Open Scope Qc_scope.

(** C17: for every table without negative entries, all detection probabilities and all clutter
    intensities, partition() succeeds, every partition has a sum over its own association
    hypotheses, and the product of these sums is the sum over all hypotheses of the whole table. *)
Theorem C17_factorises : forall L pd cl nM nZ cc ncc, (forall r c, 0 <= L r c) -> (nM + nZ <> 0)%nat ->
  components_of (support L) 0%Z nM nZ cc ncc ->
  exists g np, partition cc ncc (cg_new (support L) nM nZ 0%Z) = Val (g, np) /\
  (forall p ext, (p < np)%nat -> exists g' got v, getPartition g p ext = Val (g', got) /\
     block_sum L pd cl (grows got) (gcols got) v) /\
  forall v, (forall p, (p < np)%nat -> exists ext g' got, getPartition g p ext = Val (g', got) /\
     block_sum L pd cl (grows got) (gcols got) (v p)) ->
  association_sum nM nZ L pd cl (qprod (map v (seq 0 np))).
Proof. exact factorises. Qed.
Print Assumptions C17_factorises.

(** The sum over the hypotheses exists and is unique. *)
Theorem C17_sum_unique : forall nM nZ L pd cl, exists v, association_sum nM nZ L pd cl v /\
  forall v', association_sum nM nZ L pd cl v' -> v' = v.
Proof. exact sum_unique. Qed.
Print Assumptions C17_sum_unique.

Definition half : Qc := Q2Qc (1 # 2).
(** Two landmarks and two measurements in two blocks, a third landmark without measurement. *)
Definition exL (r c : nat) : Qc := match r, c with 0%nat, 0%nat => half | 1%nat, 1%nat => 1 | _, _ => 0 end.
Definition expd (_ : nat) : Qc := Q2Qc (1 # 4).
Definition excl (c : nat) : Qc := match c with 0%nat => 1 | _ => half end.

Example C17_ex : (forall r c, 0 <= exL r c) /\
  components_of (support exL) 0%Z 3 2 (ref_cc (support exL) 0%Z 3 2) (ref_ncc (support exL) 0%Z 3 2) /\
  omap snd (partition (ref_cc (support exL) 0%Z 3 2) (ref_ncc (support exL) 0%Z 3 2) (cg_new (support exL) 3 2 0%Z)) = Val 3%nat /\
  association_sum 3 2 exL expd excl (Q2Qc (165 # 128)).
Proof.
  split; [|split; [apply ref_ok|split; [vm_compute; reflexivity|]]].
  - intros [|[|r]] [|[|c]]; vm_compute; discriminate.
  - apply association_sum_iff. apply Qc_is_canon. vm_compute. reflexivity.
Qed.

(** C18, what the filter returns, for all tables, detection probabilities, clutter intensities
    and sizes: it succeeds, and the factor (1 - Pd) of every landmark without a significant entry
    is replaced by Pd; apart from that it is the sum over all hypotheses divided by the clutter
    integral if every component has at most lim rows and columns (8 in the filters, 0 in RFSPSOSLAM) or at most 200 hypotheses of
    positive weight (it is never more). *)
Theorem C18_value_partial : forall L pd cl lim kbest,
  (forall r c, 0 <= L r c) -> (forall r, 0 <= pd r <= 1) -> (forall c, 0 <= cl c) -> kbest_contract kbest ->
  forall cc ncc integral nM nZ, 0 < integral -> (nM + nZ <> 0)%nat ->
  components_of (support L) 0%Z nM nZ cc ncc ->
  exists l s, rfs_likelihood L pd cl lim kbest cc ncc integral nM nZ = Val l /\ association_sum nM nZ L pd cl s /\
  0 <= l /\
  l * integral * qprod (map (fun m => 1 - pd m) (unseen nM nZ L)) <= s * qprod (map pd (unseen nM nZ L)) /\
  ((forall il jl, component L nM nZ il jl -> (length il + length jl <= lim)%nat \/ few 200 L pd cl il jl) ->
   l * integral * qprod (map (fun m => 1 - pd m) (unseen nM nZ L)) = s * qprod (map pd (unseen nM nZ L))).
Proof. exact rfs_value. Qed.
Print Assumptions C18_value_partial.

(** The same without division: what the filter returns is exactly the sum over all hypotheses in
    which a landmark without possible measurement is missed with probability Pd instead of
    1 - Pd ([swapped]). *)
Theorem C18_exact_partial : forall L pd cl lim kbest,
  (forall r c, 0 <= L r c) -> (forall r, 0 <= pd r <= 1) -> (forall c, 0 <= cl c) -> kbest_contract kbest ->
  forall cc ncc integral nM nZ, 0 < integral -> (nM + nZ <> 0)%nat ->
  components_of (support L) 0%Z nM nZ cc ncc ->
  exists l s, rfs_likelihood L pd cl lim kbest cc ncc integral nM nZ = Val l /\
  association_sum nM nZ L (swapped nZ L pd) cl s /\ 0 <= l /\ l * integral <= s /\
  ((forall il jl, component L nM nZ il jl -> (length il + length jl <= lim)%nat \/ few 200 L pd cl il jl) ->
   l * integral = s).
Proof. exact rfs_exact. Qed.
Print Assumptions C18_exact_partial.

(** C18 when every landmark has a significant entry: the result is the sum over all
    association hypotheses divided by the clutter integral. *)
Theorem C18_seen_partial : forall L pd cl lim kbest,
  (forall r c, 0 <= L r c) -> (forall r, 0 <= pd r <= 1) -> (forall c, 0 <= cl c) ->
  kbest_contract kbest -> forall cc ncc integral nM nZ, 0 < integral -> (nM + nZ <> 0)%nat ->
  components_of (support L) 0%Z nM nZ cc ncc -> unseen nM nZ L = [] ->
  (forall il jl, component L nM nZ il jl -> (length il + length jl <= lim)%nat \/ few 200 L pd cl il jl) ->
  exists l s, rfs_likelihood L pd cl lim kbest cc ncc integral nM nZ = Val l /\ association_sum nM nZ L pd cl s /\
  l * integral = s.
Proof. exact rfs_seen. Qed.
Print Assumptions C18_seen_partial.

(** The contract of the k-best search can be met. *)
Theorem C18_kbest_exists : kbest_contract kbest_ref.
Proof. exact kbest_ref_ok. Qed.
Print Assumptions C18_kbest_exists.

(** C18 is false: a landmark without measurement contributes Pd, not 1 - Pd. *)
Theorem C18_refuted : exists L pd cl cc ncc nM nZ l s,
  (forall r c, 0 <= L r c) /\ (forall r, 0 <= pd r <= 1) /\ (forall c, 0 <= cl c) /\
  components_of (support L) 0%Z nM nZ cc ncc /\
  rfs_likelihood L pd cl 8 kbest_ref cc ncc 1 nM nZ = Val l /\ association_sum nM nZ L pd cl s /\ l <> s.
Proof.
  exists exL, expd, excl, (ref_cc (support exL) 0%Z 3 2), (ref_ncc (support exL) 0%Z 3 2), 3%nat, 2%nat,
    (Q2Qc (55 # 128)), (Q2Qc (165 # 128)).
  split; [exact (proj1 C17_ex)|]. split; [intros r; split; vm_compute; discriminate|].
  split; [intros [|c]; vm_compute; discriminate|]. split; [apply ref_ok|]. split; [|split; [exact (proj2 (proj2 (proj2 C17_ex)))|]].
  - assert (E : omap this (rfs_likelihood exL expd excl 8 kbest_ref (ref_cc (support exL) 0%Z 3 2) (ref_ncc (support exL) 0%Z 3 2) 1 3 2) =
                Val (55 # 128)%Q) by (vm_compute; reflexivity).
    destruct (rfs_likelihood _ _ _ _ _ _ _ _ _ _) as [v|u|]; [|discriminate|discriminate].
    cbn in E. injection E as E. f_equal. apply Qc_is_canon. rewrite E. vm_compute. reflexivity.
  - vm_compute. discriminate.
Qed.
Print Assumptions C18_refuted.

(** C18_seen_partial at work on the two seen landmarks. *)
Example C18_seen_ex : unseen 2 2 exL = [] /\
  omap this (rfs_likelihood exL expd excl 8 kbest_ref (ref_cc (support exL) 0%Z 2 2) (ref_ncc (support exL) 0%Z 2 2) 1 2 2) =
  Val (55 # 32)%Q.
Proof. split; vm_compute; reflexivity. Qed.

(** The sum over the results of Murty's algorithm on a block: equal to the sum over the permutations. *)
Example C18_murty_ex :
  omap this (block_likelihood (fun r c => half) expd excl kbest_ref true true [0; 1]%nat [0; 1]%nat) = Val (61 # 32)%Q /\
  omap this (block_likelihood (fun r c => half) expd excl kbest_ref false true [0; 1]%nat [0; 1]%nat) = Val (61 # 32)%Q.
Proof. split; vm_compute; reflexivity. Qed.
