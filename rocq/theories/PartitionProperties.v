(** C15-C16: CostMatrixGeneral::partition / getPartition (src/CostMatrix.cpp:30-231). *)
From Coq Require Import ZArith List Bool Arith Lia Permutation Relations.
From Verif Require Import Base HungarianModel AssignSpec PartitionModel PartitionSpec PartitionProofs PartitionProofs2 PartitionRef.
Import ListNotations.
Local Open Scope nat_scope.

(** C15: for every matrix with a row or a column and every numbering of the connected components,
    partition() terminates normally; every row and every column is listed in
    exactly one partition, exactly once; a partition is flagged non-zero exactly
    when it holds a significant entry; at most one is flagged zero; every
    significant entry is inside one non-zero partition; and a non-zero partition
    is exactly the set of rows and columns connected to any of its members. *)
Theorem C15_partition : forall C ml nR nC cc ncc, components_of C ml nR nC cc ncc -> nR + nC <> 0 ->
  exists g np b flag,
  partition cc ncc (cg_new C nR nC ml) = Val (g, np) /\
  nParts g = np /\ gC g = C /\ cmats g = (fun _ => None) /\
  (forall p, p < np -> getPartitionSize g p = Val (length (fst (b p)), length (snd (b p)), flag p)) /\
  (forall p ext, p < np -> exists g' a, getPartition g p ext = Val (g', Got (Some a) (fst (b p)) (snd (b p)) (flag p))) /\
  Permutation (flat_map (fun p => fst (b p)) (seq 0 np)) (seq 0 nR) /\
  Permutation (flat_map (fun p => snd (b p)) (seq 0 np)) (seq 0 nC) /\
  (forall p, p < np -> (flag p = true <-> significant C ml (b p))) /\
  (forall p q, p < np -> q < np -> flag p = false -> flag q = false -> p = q) /\
  (forall i j, i < nR -> j < nC -> (ml < C i j)%Z ->
     exists p, p < np /\ flag p = true /\ In i (fst (b p)) /\ In j (snd (b p))) /\
  (forall p u v, p < np -> flag p = true -> inside (b p) u -> in_range nR nC v ->
     (inside (b p) v <-> connected C ml nR nC u v)).
Proof. exact partition_ok. Qed.
Print Assumptions C15_partition.

(** Without rows and columns partition() is undefined. *)
Example C15_empty : forall C ml cc ncc, partition cc ncc (cg_new C 0 0 ml) = UB OutOfBounds.
Proof. reflexivity. Qed.

(** The hypothesis on the components can be met for every matrix. *)
Theorem C15_components_exist : forall C ml nR nC,
  components_of C ml nR nC (ref_cc C ml nR nC) (ref_ncc C ml nR nC).
Proof. exact ref_ok. Qed.
Print Assumptions C15_components_exist.

(** C16, exact behaviour for every history of calls: indices, flag and the block
    of the matrix are right in every call, but the allocated size is the one asked
    for in the first call for that partition; and the destructor reads past the
    allocated rows iff the first call for some partition with columns did not ask
    for the extension and the last one did (it leaks iff it was the other way round). *)
Theorem C16_exact : forall C nR nC ml cc ncc, components_of C ml nR nC cc ncc ->
  forall g np, partition cc ncc (cg_new C nR nC ml) = Val (g, np) ->
  exists b flag, forall h, Forall (fun q => fst q < np) h ->
  exists g' rs, calls g h = Val (g', rs) /\
  (forall k p ext, nth_error h k = Some (p, ext) -> exists r c e first,
     getPartitionSize g p = Val (length (fst (b p)), length (snd (b p)), flag p) /\
     nth_error rs k = Some (Got (Some (r, c, e)) (fst (b p)) (snd (b p)) (flag p)) /\
     first_flag h p = Some first /\ (r, c) = wanted_size first (b p) /\
     forall i j x y, nth_error (fst (b p)) i = Some x -> nth_error (snd (b p)) j = Some y ->
       e i j = Some (C x y)) /\
  match destroy g' with
  | Val n => (forall p, p < np -> ~ excess h p (snd (b p))) /\
             (n = 0 <-> forall p, p < np -> ~ lost h p (snd (b p)))
  | UB _ => exists p, p < np /\ excess h p (snd (b p))
  | OutOfFuel => False
  end.
Proof. exact getPartition_ok. Qed.
Print Assumptions C16_exact.

(** C16 holds for histories that use one flag per partition (missing: histories
    that mix the flags, for which it is false, see below). *)
Theorem C16_same_flag_partial : forall C nR nC ml cc ncc, components_of C ml nR nC cc ncc ->
  forall g np, partition cc ncc (cg_new C nR nC ml) = Val (g, np) ->
  exists b flag, forall h, Forall (fun q => fst q < np) h ->
  (forall p e1 e2, In (p, e1) h -> In (p, e2) h -> e1 = e2) ->
  exists g' rs, calls g h = Val (g', rs) /\ destroy g' = Val 0 /\
  forall k p ext, nth_error h k = Some (p, ext) -> exists r c e,
     nth_error rs k = Some (Got (Some (r, c, e)) (fst (b p)) (snd (b p)) (flag p)) /\
     (r, c) = wanted_size ext (b p) /\
     forall i j x y, nth_error (fst (b p)) i = Some x -> nth_error (snd (b p)) j = Some y ->
       e i j = Some (C x y).
Proof. exact getPartition_same_flag. Qed.
Print Assumptions C16_same_flag_partial.

(** A 3 x 4 matrix: rows 0 and 2 share column 1, row 1 and columns 0, 2, 3 are
    insignificant. *)
Definition exP : mat := of_rows [[0; 5; 0; 0]; [0; 0; 0; 0]; [0; 2; 0; 0]]%Z.

(** C16 is false: the second caller asks for a 3 x 3 matrix and gets the 2 x 1
    one; the destructor then runs past it. *)
Theorem C16_refuted : exists C nR nC ml cc ncc g np g' rs e,
  components_of C ml nR nC cc ncc /\
  partition cc ncc (cg_new C nR nC ml) = Val (g, np) /\
  calls g [(1, false); (1, true)] = Val (g', rs) /\
  nth_error rs 1 = Some (Got (Some (2, 1, e)) [0; 2] [1] true) /\
  wanted_size true ([0; 2], [1]) = (3, 3) /\
  destroy g' = UB OutOfBounds.
Proof.
  exists exP, 3, 4, 0%Z, (ref_cc exP 0 3 4), (ref_ncc exP 0 3 4).
  eexists. eexists. eexists. eexists. eexists.
  split; [apply ref_ok|].
  split. { vm_compute. reflexivity. }
  split. { vm_compute. reflexivity. }
  split. { vm_compute. reflexivity. }
  split; [reflexivity|]. vm_compute. reflexivity.
Qed.
Print Assumptions C16_refuted.

(** Asking for the size of a partition before partition() dereferences NULL
    although getPartition handles that case. *)
Theorem C16_size_refuted : forall C nR nC ml p,
  getPartitionSize (cg_new C nR nC ml) p = UB NullDeref /\
  getPartition (cg_new C nR nC ml) p false = Val (cg_new C nR nC ml, Got None [] [] false).
Proof. intros. split; reflexivity. Qed.
Print Assumptions C16_size_refuted.

(** Examples. *)
Example C15_ex : omap (fun r => (option_map (firstn (snd r)) (cparts (fst r)), zeroP (fst r), snd r))
    (partition (ref_cc exP 0 3 4) (ref_ncc exP 0 3 4) (cg_new exP 3 4 0%Z)) =
  Val (Some [([1], [0; 3; 2]); ([0; 2], [1])], Some 0, 2).
Proof. vm_compute. reflexivity. Qed.

(** Zero components before and after non-zero ones: blocks are swapped in. *)
Definition exP2 : mat := of_rows [[0; 0; 0]; [0; 0; 0]; [0; 0; 4]; [0; 3; 0]]%Z.
Example C15_ex2 : omap (fun r => (option_map (firstn (snd r)) (cparts (fst r)), zeroP (fst r), snd r))
    (partition (ref_cc exP2 0 4 3) (ref_ncc exP2 0 4 3) (cg_new exP2 4 3 0%Z)) =
  Val (Some [([0; 1], [0]); ([2], [2]); ([3], [1])], Some 0, 3).
Proof. vm_compute. reflexivity. Qed.

Example C16_ex : exists g g' rs, partition (ref_cc exP 0 3 4) (ref_ncc exP 0 3 4) (cg_new exP 3 4 0%Z) = Val (g, 2) /\
  Forall (fun q => fst q < 2) [(1, true); (0, false); (1, true)] /\
  calls g [(1, true); (0, false); (1, true)] = Val (g', rs) /\
  map (fun r => option_map (fun a => (fst a, snd a 1 0)) (gmat r)) rs =
    [Some ((3, 3), Some 2%Z); Some ((1, 3), None); Some ((3, 3), Some 2%Z)] /\
  destroy g' = Val 0.
Proof.
  eexists. eexists. eexists.
  split. { vm_compute. reflexivity. }
  split. { repeat constructor. }
  split. { vm_compute. reflexivity. }
  split; vm_compute; reflexivity.
Qed.
