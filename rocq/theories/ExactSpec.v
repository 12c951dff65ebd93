(** Vocabulary for pruning in place. *)
From Coq Require Import List Bool Arith.
Import ListNotations.

(** Some track that holds a Gaussian is to be removed, and so are all behind it. *)
Definition doomed {A : Type} (holds low : A -> bool) (ts : list A) : Prop :=
  exists l a r, ts = l ++ a :: r /\ holds a = true /\ Forall (fun b => low b = true) (a :: r).
