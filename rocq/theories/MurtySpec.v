(** Vocabulary for C19-C21. *)
From Coq Require Import ZArith List Permutation.
From Verif Require Import MurtyModel.
Import ListNotations.
Local Open Scope Z_scope.

(** What std::priority_queue guarantees: the top is a member of largest score and
    pop removes it; empty is recognised. *)
Definition queue_contract (pick : list node -> option (node * list node)) : Prop :=
  forall q, match pick q with
            | None => q = []
            | Some (x, r) => Permutation q (x :: r) /\ forall y, In y q -> ns y <= ns x
            end.

(** The exclusion constant outweighs every difference between assignments. *)
Definition dominating (n : nat) (C : nat -> nat -> Z) (big : Z) : Prop :=
  exists lo hi, (forall x y, (x < n)%nat -> (y < n)%nat -> lo <= C x y <= hi) /\ lo <= hi /\
  (Z.of_nat n - 1) * hi - Z.of_nat n * lo < big.

(** a and b pair the first nR rows with the same real columns (those below nC), or
    both leave a row to one of the other columns. *)
Definition same_real (nR nC : nat) (a b : list nat) : Prop :=
  forall i x y, (i < nR)%nat -> nth_error a i = Some x -> nth_error b i = Some y ->
  x = y \/ ((nC <= x)%nat /\ (nC <= y)%nat).

(** Answers: the k-th call returns k, the assignment and its score. *)
Fixpoint answers (k : nat) (score : list nat -> Z) (outs : list (list nat)) : list answer :=
  match outs with
  | [] => []
  | a :: r => (Z.of_nat k, Some a, score a) :: answers (S k) score r
  end.
