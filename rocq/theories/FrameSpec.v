(** Notions in which the properties of generators are stated. *)
From Coq Require Import List Arith.
Import ListNotations.

Section G.
Variables (E D X : Type) (draw : D -> E -> X * D * E).
(** n draws from one generator. *)
Fixpoint alone (n : nat) (d : D) (e : E) : list X :=
  match n with
  | O => []
  | S n' => let r := draw d e in fst (fst r) :: alone n' (snd (fst r)) (snd r)
  end.
(** What thread t got, where ts says which thread made which draw. *)
Definition by_thread (t : nat) (ts : list nat) (xs : list X) : list X :=
  map snd (filter (fun p => Nat.eqb (fst p) t) (combine ts xs)).
End G.
Arguments alone {E D X}. Arguments by_thread {X}.
