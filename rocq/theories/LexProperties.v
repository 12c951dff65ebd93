(** C22-C23: PermutationLexicographic and BruteForceLinearAssignment. *)
From Coq Require Import ZArith List Bool Arith Lia Permutation Sorted Factorial.
From Verif Require Import Base HungarianModel AssignSpec LexModel LexSpec LexProofs2 LexSort.
Import ListNotations.
Local Open Scope nat_scope.

(** C22: there is a list of arrays such that, for every k, the first k calls of next
    return 1, 2, 3, ... together with the arrays of that list, and 0 with an array of zeros
    once the list is used up; the first nM entries of the arrays are exactly the association
    hypotheses, in strictly increasing lexicographic order (so each occurs once); each
    array holds every measurement once (and, with clutter, nM times the clutter mark), the
    entries after the first nM in increasing order.  The clutter flag is
    only used when nM = nZ; otherwise clutter is allowed. *)
Theorem C22_lexicographic : forall nM nZ includeClutter, nM + nZ <> 0 ->
  let cl := if Nat.eqb nM nZ then includeClutter else true in
  let size := if cl then nM + nZ else nM in
  exists outs,
  (forall k, next_calls k (lex_new nM nZ includeClutter) =
     Val (firstn k (combine (seq 1 (length outs)) outs ++ repeat (0, repeat 0 size) k))) /\
  ascending lex_lt (map (firstn nM) outs) /\
  (forall h, In h (map (firstn nM) outs) <-> association nM nZ cl h) /\
  (forall o, In o outs -> Permutation o (seq 0 nZ ++ repeat nZ (if cl then nM else 0)) /\
                          StronglySorted le (skipn nM o)).
Proof. exact lex_enumerates. Qed.
Print Assumptions C22_lexicographic.

(** The excluded case: with neither landmarks nor measurements the first call of next
    is undefined (v = oSize_ - 1 wraps around). *)
Theorem C22_empty : forall includeClutter, next (lex_new 0 0 includeClutter) = UB OutOfBounds.
Proof. exact lex_empty. Qed.
Print Assumptions C22_empty.

(** Two landmarks, one measurement: the measurement explains neither, the second, the first. *)
Example C22_ex : next_calls 5 (lex_new 2 1 false) =
  Val [(1, [0; 1; 1]); (2, [1; 0; 1]); (3, [1; 1; 0]); (0, [0; 0; 0]); (0, [0; 0; 0])].
Proof. vm_compute. reflexivity. Qed.
Example C22_ex2 : association 2 1 true [1; 0] /\ ~ association 2 1 true [0; 0].
Proof.
  split.
  - split; [reflexivity|]. split.
    + intros v [<-|[<-|[]]]; auto.
    + intros [|[|i]] [|[|j]] v Hv Hi Hj; simpl in *; auto; try congruence; try (destruct i; discriminate); try (destruct j; discriminate).
  - intros (_ & _ & H). specialize (H 0 1 0 ltac:(auto) eq_refl eq_refl). discriminate.
Qed.

(** C23, exact behaviour: in both directions every assignment is listed once with its score
    in the caller's original matrix, largest score first; maxToMin = true leaves the matrix
    alone, maxToMin = false leaves it negated and shifted to be non-negative.
    [pq] is the standard library's priority queue. *)
Theorem C23_exact : forall pq, pq_contract pq -> forall fuel C n maxToMin, n <> 0 -> fact n < fuel ->
  exists C' res, brute pq fuel C n maxToMin = Val (C', res) /\
  length res = fact n /\ NoDup (map fst res) /\
  (forall a, In a (map fst res) <-> assignment n a) /\
  (forall a s, In (a, s) res -> s = score C a) /\
  StronglySorted (fun x y => (snd y <= snd x)%Z) res /\
  (maxToMin = true -> C' = C) /\
  (maxToMin = false -> exists least, forall x y, x < n -> y < n -> (C' x y = - C x y - least /\ 0 <= C' x y)%Z).
Proof. exact brute_ok. Qed.
Print Assumptions C23_exact.

(** C23 for maximisation (missing: minimisation, for which it is false, see below). *)
Theorem C23_maximise_partial : forall pq, pq_contract pq -> forall fuel C n, n <> 0 -> fact n < fuel ->
  exists res, brute pq fuel C n true = Val (C, res) /\
  length res = fact n /\ NoDup (map fst res) /\
  (forall a, In a (map fst res) <-> assignment n a) /\
  (forall a s, In (a, s) res -> s = score C a) /\
  StronglySorted (fun x y => better true (snd x) (snd y)) res.
Proof. exact brute_max. Qed.
Print Assumptions C23_maximise_partial.

(** The contract of the priority queue can be met. *)
Theorem C23_queue_exists : pq_contract isort.
Proof. exact isort_ok. Qed.
Print Assumptions C23_queue_exists.

(** Minimisation returns the results in the wrong order ... *)
Theorem C23_refuted : exists rows C' a s a' s' rest,
  brute isort 3 (of_rows rows) 2 false = Val (C', (a, s) :: (a', s') :: rest) /\ ~ better false s s'.
Proof.
  exists [[1; 2]; [0; 5]]%Z.
  eexists _, [0; 1]%nat, 6%Z, [1; 0]%nat, 2%Z, []. split; [vm_compute; reflexivity|]. unfold better. lia.
Qed.
Print Assumptions C23_refuted.

(** ... and leaves the caller's matrix changed. *)
Theorem C23_matrix_refuted : exists rows C' res x y, (x < 2)%nat /\ (y < 2)%nat /\
  brute isort 3 (of_rows rows) 2 false = Val (C', res) /\ C' x y <> of_rows rows x y.
Proof.
  exists [[1; 2]; [0; 5]]%Z. eexists _, _, 0, 0. split; [lia|]. split; [lia|].
  split; [vm_compute; reflexivity|]. vm_compute. discriminate.
Qed.
Print Assumptions C23_matrix_refuted.

Example C23_ex : omap snd (brute isort 7 (of_rows [[1; 2; 3]; [3; 1; 2]; [0; 0; 9]]%Z) 3 true) =
  Val [([1; 0; 2], 14%Z); ([0; 1; 2], 11%Z); ([2; 0; 1], 6%Z); ([2; 1; 0], 4%Z); ([1; 2; 0], 4%Z); ([0; 2; 1], 3%Z)]%nat.
Proof. vm_compute. reflexivity. Qed.
