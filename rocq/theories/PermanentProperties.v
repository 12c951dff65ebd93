(** C24: MatPerm::calc (src/MatrixPermanent.cpp:41-113). *)
From Coq Require Import ZArith QArith Qcanon List Bool Arith Lia Permutation Factorial.
From Verif Require Import Base EnumLemmas PermanentModel PermanentSpec PermanentProofs.
Import ListNotations.
Local Open Scope Qc_scope.

(** C24: for every square matrix of at least one row the evaluation ends without leaving
    its arrays and returns the permanent. *)
Theorem C24_permanent : forall n A, n <> 0%nat -> exists v, calc n n A = Val v /\ is_permanent n A v.
Proof. exact calc_permanent. Qed.
Print Assumptions C24_permanent.

(** Non-square input gives -DBL_MAX. *)
Theorem C24_not_square : forall nr nc A, nr <> nc ->
  calc nr nc A = Val (Q2Qc (inject_Z (- (2 ^ 1024 - 2 ^ 971)))).
Proof. exact calc_not_square. Qed.
Print Assumptions C24_not_square.

(** The excluded 0 x 0 matrix: -2 is returned (the permanent would be 1). *)
Theorem C24_empty_refuted : forall A, calc 0 0 A = Val (Q2Qc (- (2))) /\ ~ is_permanent 0 A (Q2Qc (- (2))).
Proof. exact calc_empty_wrong. Qed.
Print Assumptions C24_empty_refuted.

(** The quantification over lists of all permutations in [is_permanent] is not
    empty: for every n there is such a list, of n! entries. *)
Theorem C24_permutations_exist : forall n, exists ps, NoDup ps /\
  (forall p, In p ps <-> Permutation p (seq 0 n)) /\ length ps = fact n.
Proof. exact permutations_exist. Qed.
Print Assumptions C24_permutations_exist.

(** A 3 x 3 example: the permanent of [[1,2,3],[4,5,6],[7,8,10]] is 463. *)
Definition C24_matrix (i j : nat) : Qc :=
  Q2Qc (inject_Z (nth j (nth i [[1; 2; 3]; [4; 5; 6]; [7; 8; 10]]%Z []) 0%Z)).
Example C24_ex : match calc 3 3 C24_matrix with Val v => Qeq_bool v 463 | _ => false end = true.
Proof. vm_compute. reflexivity. Qed.
Example C24_ex2 : Qeq_bool (qsum (map (product_along C24_matrix 0)
  [[0; 1; 2]; [0; 2; 1]; [1; 0; 2]; [1; 2; 0]; [2; 0; 1]; [2; 1; 0]]%nat)) 463 = true.
Proof. vm_compute. reflexivity. Qed.
