(** Vocabulary for C22-C23. *)
From Coq Require Import ZArith List Permutation Sorted.
Import ListNotations.

(** Strict lexicographic order on sequences of equal length. *)
Inductive lex_lt : list nat -> list nat -> Prop :=
| lex_here : forall x y l m, x < y -> length l = length m -> lex_lt (x :: l) (y :: m)
| lex_next : forall x l m, lex_lt l m -> lex_lt (x :: l) (x :: m).

(** An association hypothesis: each of nM landmarks has a measurement 0..nZ-1, or
    (if allowed) nZ for "not detected"; no measurement is used twice. *)
Definition association (nM nZ : nat) (clutter : bool) (h : list nat) : Prop :=
  length h = nM /\
  (forall v, In v h -> v < nZ \/ (clutter = true /\ v = nZ)) /\
  (forall i j v, v < nZ -> nth_error h i = Some v -> nth_error h j = Some v -> i = j).

(** Every element comes strictly before all later ones. *)
Fixpoint ascending {A : Type} (lt : A -> A -> Prop) (l : list A) : Prop :=
  match l with
  | [] => True
  | x :: r => (forall y, In y r -> lt x y) /\ ascending lt r
  end.

(** What std::priority_queue guarantees: the pushed elements come out, largest score first. *)
Definition pq_contract (pq : list (list nat * Z) -> list (list nat * Z)) : Prop :=
  forall l, Permutation l (pq l) /\ StronglySorted (fun x y => (snd y <= snd x)%Z) (pq l).
