(** C12-C14: CostMatrix::reduce and HungarianMethod::run on a CostMatrix
    (src/CostMatrix.cpp:237-373, src/HungarianMethod.cpp:36-69). *)
From Coq Require Import ZArith List Bool Arith Lia Permutation.
From Verif Require Import Base HungarianModel AssignSpec ReduceModel ReduceSpec ReduceProofs4.
Import ListNotations.
Local Open Scope Z_scope.

(** C13: reduce terminates normally (its assertion never fires); the matrix
    becomes the clamped matrix; exactly the entries that are alone beyond the
    limit in their row and column are fixed (when a single row is left over it is
    fixed too); fixed pairs and remap tables use each row and column once; every
    solution of the reduced matrix completes to an assignment whose score is the
    fixed score plus its own, and an optimum of the reduced matrix completes to an
    optimum of the clamped matrix. *)
Theorem C13_reduce : forall C n lim minVal, exists m Cr nr f fs imap jmap,
  reduce (cm_new C n) lim minVal = Val m /\
  getReduced m = Some (Cr, nr, f, fs, imap, jmap) /\
  (forall x y, cC m x y = clamped n lim minVal C x y) /\
  (forall i j, forced C n lim minVal i j -> f i = Some j) /\
  (nr <> 0%nat -> forall i j, (i < n)%nat -> f i = Some j -> forced C n lim minVal i j) /\
  splits (clamped n lim minVal C) n f fs nr Cr imap jmap /\
  forall r, assignment nr r -> exists a,
    completes n f imap jmap r a /\ assignment n a /\
    score (clamped n lim minVal C) a = fs + score Cr r /\
    (optimal minVal nr Cr r -> optimal minVal n (clamped n lim minVal C) a).
Proof. exact reduce_ok. Qed.
Print Assumptions C13_reduce.

(** C12, what holds: on an unreduced matrix run returns true and an optimum of
    the matrix ... *)
Theorem C12_unreduced_partial : forall C n maximize, exists a,
  run_cm (cm_new C n) maximize = Val (true, Some (map Some a, score C a)) /\
  optimal maximize n C a.
Proof. exact run_cm_unreduced. Qed.
Print Assumptions C12_unreduced_partial.

(** ... and on a reduced one soln and cost are an optimum of the clamped matrix
    when the direction agrees with the kind of limit, but the return value is
    true only if nothing was left to solve (missing for C12: the return value
    when the reduced size is not zero). *)
Theorem C12_reduced_partial : forall C n lim minVal m,
  reduce (cm_new C n) lim minVal = Val m -> exists a,
  run_cm m minVal = Val (Nat.eqb (nred m) 0, Some (map Some a, score (clamped n lim minVal C) a)) /\
  optimal minVal n (clamped n lim minVal C) a.
Proof. exact run_cm_reduced. Qed.
Print Assumptions C12_reduced_partial.

(** C12 is false: run reports failure although it has found the optimum. *)
Definition exR : mat := of_rows [[5; 0; 0]; [0; 7; 6]; [0; 6; 4]].

Theorem C12_refuted : exists C n lim maximize m,
  reduce (cm_new C n) lim maximize = Val m /\
  exists soln cost, run_cm m maximize = Val (false, Some (soln, cost)).
Proof.
  exists exR, 3%nat, 0, true.
  eexists. split; [vm_compute; reflexivity|].
  exists [Some 0; Some 2; Some 1]%nat, 17. vm_compute. reflexivity.
Qed.
Print Assumptions C12_refuted.

(** The direction has to agree with the kind of limit: with a lower limit and
    minimisation the fixed pair is not part of the optimum. *)
Theorem C12_direction_refuted : exists C n lim m soln cost b,
  reduce (cm_new C n) lim true = Val m /\
  run_cm m false = Val (true, Some (soln, cost)) /\
  assignment n b /\ score (clamped n lim true C) b < cost.
Proof.
  exists (of_rows [[5; 0]; [0; 0]]), 2%nat, 0.
  eexists. exists [Some 0; Some 1]%nat, 5, [1; 0]%nat.
  split; [vm_compute; reflexivity|]. split; [vm_compute; reflexivity|].
  split; [apply perm_swap|vm_compute; reflexivity].
Qed.
Print Assumptions C12_direction_refuted.

(** C14, what holds: the matrix is not changed by a second call, but the list of
    remaining rows is appended to the old one, so that the reduced size is the
    same exactly if every row had a fixed entry, and otherwise doubles. *)
Theorem C14_exact : forall C n lim minVal, exists m1 m2,
  reduce (cm_new C n) lim minVal = Val m1 /\ reduce m1 lim minVal = Val m2 /\
  (forall x y, cC m2 x y = cC m1 x y) /\
  (nred m2 = nred m1 <-> forall i, (i < n)%nat -> exists j, forced C n lim minVal i j) /\
  (nred m1 <> 0%nat -> nred m2 = (2 * nred m1)%nat).
Proof. exact reduce_twice_exact. Qed.
Print Assumptions C14_exact.

(** C14 is false: after a second call the Hungarian method solves a doubled
    problem and reports a cost that no assignment has. *)
Theorem C14_refuted : exists C n lim m1 m2 soln cost,
  reduce (cm_new C n) lim true = Val m1 /\ reduce m1 lim true = Val m2 /\
  nred m2 = (2 * nred m1)%nat /\ nred m1 <> 0%nat /\
  run_cm m2 true = Val (false, Some (soln, cost)) /\
  run_cm m1 true = Val (false, Some ([Some 0; Some 1]%nat, 7)) /\ cost = 14.
Proof.
  exists (of_rows [[3; 3]; [4; 4]]), 2%nat, 0.
  eexists. eexists. eexists. eexists.
  split; [vm_compute; reflexivity|]. split; [vm_compute; reflexivity|].
  split; [reflexivity|]. split; [discriminate|].
  split; [vm_compute; reflexivity|]. split; vm_compute; reflexivity.
Qed.
Print Assumptions C14_refuted.

(** Examples.  In [exR] only (0, 0) is alone beyond the limit 0. *)
Example C13_ex : forced exR 3 0 true 0 0 /\ ~ forced exR 3 0 true 1 1.
Proof.
  split.
  - repeat split; try lia; intros [|[|[|k]]] H1 H2; simpl; try lia; vm_compute; intuition congruence.
  - intros (_ & _ & _ & H & _). apply (H 2%nat); vm_compute; auto. discriminate.
Qed.

Example C13_ex_run : omap (fun m => option_map
    (fun '(Cr, nr, f, fs, im, jm) => (map (fun x => map (Cr x) (seq 0 nr)) (seq 0 nr), map f (seq 0 3), fs, im, jm))
    (getReduced m)) (reduce (cm_new exR 3) 0 true) =
  Val (Some ([[7; 6]; [6; 4]], [Some 0; None; None]%nat, 5, [1; 2]%nat, [1; 2]%nat)).
Proof. vm_compute. reflexivity. Qed.

(** A row left over alone is fixed as well, although its entries are at the limit. *)
Example C13_ex_last : omap (fun m => option_map
    (fun '(Cr, nr, f, fs, im, jm) => (nr, map f (seq 0 3), fs))
    (getReduced m)) (reduce (cm_new (of_rows [[0; 9; -1]; [-3; 0; 0]; [-2; 0; 4]]) 3) 0 true) =
  Val (Some (0%nat, [Some 1; Some 0; Some 2]%nat, 13)).
Proof. vm_compute. reflexivity. Qed.

Example C12_ex : (let* m := reduce (cm_new exR 3) 0 true in run_cm m true) =
  Val (false, Some ([Some 0; Some 2; Some 1]%nat, 17)).
Proof. vm_compute. reflexivity. Qed.

Example C14_ex : (forall i, (i < 2)%nat -> exists j, forced (of_rows [[0; 2]; [3; 0]]) 2 0 true i j) /\
  ~ (forall i, (i < 2)%nat -> exists j, forced (of_rows [[3; 3]; [4; 4]]) 2 0 true i j).
Proof.
  split.
  - intros [|[|i]] Hi; [exists 1%nat|exists 0%nat|lia]; repeat split; try lia;
      intros [|[|k]] H1 H2; simpl; try lia; vm_compute; intuition congruence.
  - intros H. destruct (H 0%nat ltac:(lia)) as (j & _ & Hj & _ & H1 & _).
    apply (H1 (if Nat.eqb j 0 then 1 else 0)%nat); destruct j as [|[|j]]; simpl; try lia; vm_compute; auto.
Qed.
