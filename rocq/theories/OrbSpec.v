(** Notions in which the properties of binary descriptors are stated. *)
From Coq Require Import ZArith List Bool QArith Qcanon.
From Verif Require Import PermanentSpec.
Import ListNotations.

(** Number of positions at which two lists of bits differ. *)
Definition differs (a b : list bool) : nat :=
  length (filter (fun i => negb (eqb (nth i a false) (nth i b false))) (seq 0 256)).

(** A descriptor has 256 bits. *)
Definition descriptor (d : list bool) : Prop := length d = 256%nat.

(** All descriptors, each once. *)
Definition enumerates (l : list (list bool)) : Prop := NoDup l /\ (forall d, In d l <-> descriptor d).

(** All values of three bits. *)
Definition triples : list (bool * bool * bool) :=
  flat_map (fun a => flat_map (fun b => map (fun c => (a, b, c)) [true; false]) [true; false]) [true; false].

(** Probability of receiving b when a was sent over a channel that flips each bit with probability p. *)
Local Open Scope Qc_scope.
Definition channel (p : Qc) (a b : list bool) : Qc := p ^ differs a b * (1 - p) ^ (256 - differs a b).
(** The same for a descriptor drawn uniformly. *)
Definition uniform : Qc := (Q2Qc (1 # 2)) ^ 256.
