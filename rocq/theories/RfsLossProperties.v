(** C18: what is lost if a block has more than 200 hypotheses. *)
From Coq Require Import ZArith List Bool Arith QArith Qcanon.
From Verif Require Import Base QcLra PermanentSpec PartitionModel PartitionSpec PartitionRef LexSpec
  RfsModel RfsSpec RfsKbest RfsProofs7 RfsProofs8.
Import ListNotations.
Local Open Scope Qc_scope.

(** C18.  If no component with more than lim rows and columns has more than N hypotheses of positive weight, the filter
    returns at least (200 / N) ^ e of the sum over all hypotheses ([swapped] as in C18_exact_partial), where e is the number
    of components of that size for which there is room. *)
Theorem C18_loss_partial : forall L pd cl lim kbest,
  (forall r c, 0 <= L r c) -> (forall r, 0 <= pd r <= 1) -> (forall c, 0 <= cl c) -> kbest_contract kbest ->
  forall cc ncc integral nM nZ, 0 < integral -> (nM + nZ <> 0)%nat ->
  components_of (support L) 0%Z nM nZ cc ncc ->
  exists l s, rfs_likelihood L pd cl lim kbest cc ncc integral nM nZ = Val l /\
  association_sum nM nZ L (swapped nZ L pd) cl s /\
  forall N, (200 <= N)%nat -> (forall il jl, component L nM nZ il jl -> (lim < length il + length jl)%nat -> few N L pd cl il jl) ->
  s * Qcpower (QcN 200) ((nM + nZ) / S lim) <= l * integral * Qcpower (QcN N) ((nM + nZ) / S lim).
Proof. exact rfs_loss. Qed.
Print Assumptions C18_loss_partial.

(** C18 is false also if every landmark has a measurement that fits: with five landmarks and four measurements there are 501
    hypotheses, here of weight 1/32 each, and whatever Murty's algorithm does among equals, the filter returns 200/32. *)
Theorem C18_cut_refuted : exists L pd cl cc ncc nM nZ s,
  (forall r c, 0 <= L r c) /\ (forall r, 0 <= pd r <= 1) /\ (forall c, 0 <= cl c) /\
  components_of (support L) 0%Z nM nZ cc ncc /\ unseen nM nZ L = [] /\ association_sum nM nZ L pd cl s /\ s = Q2Qc (501 # 32) /\
  forall kbest, kbest_contract kbest -> rfs_likelihood L pd cl 8 kbest cc ncc 1 nM nZ = Val (Q2Qc (200 # 32)).
Proof.
  exists cutL, cutpd, cutcl, (fun _ => 0%nat), 1%nat, 5%nat, 4%nat, (Q2Qc (501 # 32)).
  split; [intros; vm_compute; discriminate|]. split; [intros; split; vm_compute; discriminate|]. split; [intros; vm_compute; discriminate|].
  split; [exact cut_components|]. split; [vm_compute; reflexivity|]. split; [exact cut_sum|]. split; [reflexivity|exact cut_exactly].
Qed.
Print Assumptions C18_cut_refuted.

(** For these the bound of C18_loss_partial with N = 501 holds with equality; no smaller N will do. *)
Example C18_loss_ex : kbest_contract kbest_ref /\ components_of (support cutL) 0%Z 5 4 (fun _ => 0%nat) 1 /\
  (forall il jl, length il = 5%nat -> length jl = 4%nat -> few 501 cutL cutpd cutcl il jl) /\ ((5 + 4) / 9 = 1)%nat /\
  rfs_likelihood cutL cutpd cutcl 8 kbest_ref (fun _ => 0%nat) 1 1 5 4 = Val (Q2Qc (200 # 32)) /\
  Q2Qc (501 # 32) * QcN 200 = Q2Qc (200 # 32) * QcN 501.
Proof.
  split; [exact kbest_ref_ok|]. split; [exact cut_components|]. split; [exact cut_few|]. split; [reflexivity|]. split; [apply cut_exactly, kbest_ref_ok|].
  apply Qc_is_canon. vm_compute. reflexivity.
Qed.
