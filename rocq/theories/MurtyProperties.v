(** C19-C21: class Murty (src/MurtyAlgorithm.cpp). *)
From Coq Require Import ZArith List Bool Arith Lia Permutation Sorted Factorial.
From Verif Require Import Base HungarianModel AssignSpec MurtyModel MurtySpec MurtyPick.
Import ListNotations.
Local Open Scope Z_scope.

(** C19: there is a list of all n! assignments, each once, best first, such that for
    every k the first k calls of findNextBest return 1, 2, 3, ... with these assignments
    and their scores in the caller's matrix, and -1 (no assignment, score 0) once the
    list is used up; for every priority queue meeting its contract and every
    exclusion constant that outweighs the entries. *)
Theorem C19_best_first : forall pick, queue_contract pick -> forall n C big, dominating n C big ->
  exists outs,
  (forall k, best_calls pick k (murty_new C n big) =
     Val (firstn k (answers 1 (score C) outs ++ repeat (-1, None, 0) k))) /\
  NoDup outs /\ (forall a, In a outs <-> assignment n a) /\ length outs = fact n /\
  StronglySorted (fun a b => score C b <= score C a) outs.
Proof. exact murty_all. Qed.
Print Assumptions C19_best_first.

(** The contract of the queue can be met. *)
Theorem C19_queue_exists : queue_contract pick_max.
Proof. exact pick_max_ok. Qed.
Print Assumptions C19_queue_exists.

Definition C19_rows := [[5; -2; 3]; [4; 4; 0]; [1; 7; 2]].
Example C19_ex : dominating 3 (of_rows C19_rows) 10000.
Proof.
  exists (-2), 7. split; [|lia]. intros x y Hx Hy.
  destruct x as [|[|[|x]]]; try lia; destruct y as [|[|[|y]]]; try lia; vm_compute; split; discriminate.
Qed.
Example C19_ex2 : best_calls pick_max 8 (murty_new (of_rows C19_rows) 3 10000) =
  Val [(1, Some [2; 0; 1]%nat, 14); (2, Some [0; 2; 1]%nat, 12); (3, Some [0; 1; 2]%nat, 11);
       (4, Some [2; 1; 0]%nat, 8); (5, Some [1; 0; 2]%nat, 4); (6, Some [1; 2; 0]%nat, -1);
       (-1, None, 0); (-1, None, 0)].
Proof. vm_compute. reflexivity. Qed.

(** C20 with the default constant 10000 holds for matrices with entries in [-B, B],
    (2n-1) B < 10000 (missing: larger entries, for which it is false, see below). *)
Theorem C20_bounded_partial : forall pick, queue_contract pick -> forall n C B, 0 <= B ->
  (forall x y, (x < n)%nat -> (y < n)%nat -> - B <= C x y <= B) -> (2 * Z.of_nat n - 1) * B < 10000 ->
  exists outs,
  (forall k, best_calls pick k (murty_new C n 10000) =
     Val (firstn k (answers 1 (score C) outs ++ repeat (-1, None, 0) k))) /\
  NoDup outs /\ (forall a, In a outs <-> assignment n a) /\ length outs = fact n /\
  StronglySorted (fun a b => score C b <= score C a) outs.
Proof. exact murty_default. Qed.
Print Assumptions C20_bounded_partial.
Example C20_bounded_ex : (2 * Z.of_nat 3 - 1) * 1999 < 10000 /\ 0 <= 1999.
Proof. vm_compute. split; [reflexivity|discriminate]. Qed.

(** A log-likelihood matrix with one entry below the default constant: the same
    assignment is reported again (and again), the other one never. *)
Theorem C20_refuted : exists rows a s,
  best_calls pick_max 3 (murty_new (of_rows rows) 2 10000) = Val [(1, Some a, s); (2, Some a, s); (3, Some a, s)].
Proof. exists [[0; -50000]; [0; 0]], [0; 1]%nat, 0. vm_compute. reflexivity. Qed.
Print Assumptions C20_refuted.

(** C21, what holds for every block size: results come best first with their scores
    and full assignments are never repeated, and every way to assign all rows is
    represented by a result with the same real associations, after which -1 is
    returned (missing: results with the same real associations can be repeated, see below). *)
Theorem C21_block_partial : forall pick, queue_contract pick -> forall n C big nR nC, dominating n C big ->
  exists outs,
  (forall k, best_calls pick k (setRealAssignmentBlock (murty_new C n big) nR nC) =
     Val (firstn k (answers 1 (score C) outs ++ repeat (-1, None, 0) k))) /\
  NoDup outs /\ (forall a, In a outs -> assignment n a) /\
  StronglySorted (fun a b => score C b <= score C a) outs /\
  (forall b, assignment n b -> exists a, In a outs /\ same_real (Nat.min nR n) (Nat.min nC n) a b).
Proof. exact murty_block. Qed.
Print Assumptions C21_block_partial.

(** Two landmarks, two measurements: the first two results both pair row 0 with
    column 0 and leave row 1 unassigned. *)
Theorem C21_refuted : exists rows a s a' s',
  best_calls pick_max 2 (setRealAssignmentBlock (murty_new (of_rows rows) 4 1000) 2 2) =
    Val [(1, Some a, s); (2, Some a', s')] /\ a <> a' /\ same_real 2 2 a a'.
Proof.
  exists [[9; 1; 0; 0]; [1; 0; 5; 4]; [0; 0; 0; 0]; [0; 0; 0; 0]], [0; 2; 3; 1]%nat, 14, [0; 3; 1; 2]%nat, 13.
  split; [vm_compute; reflexivity|]. split; [discriminate|].
  intros i x y Hi Hx Hy. destruct i as [|[|i]]; [left|right|lia]; simpl in Hx, Hy;
    injection Hx as <-; injection Hy as <-; (reflexivity || lia).
Qed.
Print Assumptions C21_refuted.

(** C21 for matrices in which, above some score, a row left unassigned can only use one column
    (the filters give miss i = nC + i a finite score and all other such entries the score of
    log 0): results never agree on all real rows, and every assignment of at least that score
    appears with its real rows, exactly once, completed by the best choice for the other rows. *)
Theorem C21_filters_partial : forall pick, queue_contract pick -> forall n C big nR nC, dominating n C big ->
  exists outs,
  (forall k, best_calls pick k (setRealAssignmentBlock (murty_new C n big) nR nC) =
     Val (firstn k (answers 1 (score C) outs ++ repeat (-1, None, 0) k))) /\
  NoDup (map (firstn (Nat.min nR n)) outs) /\ (forall a, In a outs -> assignment n a) /\
  StronglySorted (fun a b => score C b <= score C a) outs /\
  forall miss tau, (forall a, assignment n a -> tau <= score C a ->
      forall i c, (i < Nat.min nR n)%nat -> nth_error a i = Some c -> (Nat.min nC n <= c)%nat -> c = miss i) ->
    forall b, assignment n b -> tau <= score C b ->
    exists a, In a outs /\ firstn (Nat.min nR n) a = firstn (Nat.min nR n) b /\ score C b <= score C a.
Proof. exact murty_filter. Qed.
Print Assumptions C21_filters_partial.

(** One landmark and two measurements: column 2 is the miss column, rows 1 and 2 are clutter. *)
Example C21_filters_ex :
  dominating 3 (of_rows [[-3; -1; -2]; [-4; -1000; 0]; [-1000; -5; 0]]) 10000 /\
  best_calls pick_max 4 (setRealAssignmentBlock (murty_new (of_rows [[-3; -1; -2]; [-4; -1000; 0]; [-1000; -5; 0]]) 3 10000) 1 2) =
  Val [(1, Some [1; 0; 2]%nat, -5); (2, Some [0; 2; 1]%nat, -8); (3, Some [2; 0; 1]%nat, -11); (-1, None, 0)].
Proof.
  split; [|vm_compute; reflexivity].
  exists (-1000), 0. split; [|lia]. intros x y Hx Hy.
  destruct x as [|[|[|x]]]; try lia; destruct y as [|[|[|y]]]; try lia; vm_compute; split; discriminate.
Qed.

Example C21_ex : dominating 4 (of_rows [[9; 1; 0; 0]; [1; 0; 5; 4]; [0; 0; 0; 0]; [0; 0; 0; 0]]) 1000.
Proof.
  exists 0, 9. split; [|lia]. intros x y Hx Hy.
  destruct x as [|[|[|[|x]]]]; try lia; destruct y as [|[|[|[|y]]]]; try lia; vm_compute; split; discriminate.
Qed.
