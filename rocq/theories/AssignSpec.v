(** Vocabulary for the assignment solvers (C10-C23). *)
From Coq Require Import ZArith List Permutation.
Import ListNotations.
Local Open Scope Z_scope.

(** [a] assigns to row i the column a[i]; complete one-to-one assignments of n
    rows are the permutations of 0..n-1. *)
Definition assignment (n : nat) (a : list nat) : Prop := Permutation a (seq 0 n).

(** Sum of the selected entries, rows i, i+1, ... *)
Fixpoint score_from (C : nat -> nat -> Z) (i : nat) (a : list nat) : Z :=
  match a with
  | [] => 0
  | y :: r => C i y + score_from C (S i) r
  end.
Definition score (C : nat -> nat -> Z) (a : list nat) : Z := score_from C 0 a.

(** Equal on the n x n block. *)
Definition same_block (n : nat) (C C' : nat -> nat -> Z) : Prop :=
  forall x y, (x < n)%nat -> (y < n)%nat -> C' x y = C x y.

(** u is at least as good a total as v. *)
Definition better (maximize : bool) (u v : Z) : Prop := if maximize then v <= u else u <= v.

(** a is a best complete assignment. *)
Definition optimal (maximize : bool) (n : nat) (C : nat -> nat -> Z) (a : list nat) : Prop :=
  assignment n a /\ forall b, assignment n b -> better maximize (score C a) (score C b).

(** Matrix given by its rows (entries outside are 0), for examples. *)
Definition of_rows (rows : list (list Z)) (x y : nat) : Z := nth y (nth x rows []) 0.
