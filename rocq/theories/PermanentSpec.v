(** Vocabulary for C24. *)
From Coq Require Import List Permutation QArith Qcanon.
Import ListNotations.
Local Open Scope Qc_scope.

Definition qsum (l : list Qc) : Qc := fold_right Qcplus 0 l.

(** A(i,p_0) * A(i+1,p_1) * ... *)
Fixpoint product_along (A : nat -> nat -> Qc) (i : nat) (p : list nat) : Qc :=
  match p with
  | [] => 1
  | c :: r => A i c * product_along A (S i) r
  end.

(** [v] is the permanent of the n x n matrix A: the sum of the products along all
    permutations, each listed once. *)
Definition is_permanent (n : nat) (A : nat -> nat -> Qc) (v : Qc) : Prop :=
  forall ps, NoDup ps -> (forall p, In p ps <-> Permutation p (seq 0 n)) ->
  v = qsum (map (product_along A 0) ps).
