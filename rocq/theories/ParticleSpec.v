(** Vocabulary for the particle filter properties. *)
From Coq Require Import ZArith QArith Qcanon Qround List Bool Arith.
From Verif Require Import Base QcLra ParticleModel.
Import ListNotations.
Local Open Scope Qc_scope.

(** Weights of a particle set: non-negative numbers, not all zero. *)
Definition weights_of {P D} (l : list (particle P D)) (w : list Qc) : Prop :=
  map pw l = map (@Some Qc) w /\ (forall x, In x w -> 0 <= x) /\ 0 < qsum w.

(** Every particle carries extra data. *)
Definition all_data {P D} (l : list (particle P D)) : Prop := forall p, In p l -> pdata p <> None.

(** Number of particles kept when n are asked for and N are there. *)
Definition kept (n N : nat) : nat := if Nat.eqb n 0 then N else Nat.min n N.

(** Low variance sampling: sampling point x (out of total weight) falls on particle i. *)
Definition falls_on (w : list Qc) (x : Qc) (i : nat) : Prop :=
  (i < length w)%nat /\ (i = 0%nat \/ qsum (firstn i w) < x) /\ x <= qsum (firstn (S i) w).

(** The indices selected by n equally spaced points, the first one at u/n of the total. *)
Definition selection (w : list Qc) (n : nat) (u : Qc) (sel : list nat) : Prop :=
  Forall2 (fun k i => falls_on w ((u + QcN k) / QcN n * qsum w) i) (seq 0 n) sel.

(** q is a weight-one descendant of p. *)
Definition descends {P D} (p q : particle P D) : Prop :=
  ppose q = ppose p /\ pprev q = pprev p /\ pdata q = pdata p /\ pid q = pid p /\
  pparent q = pid p /\ pw q = Some 1.

(** Slot j of the new set descends from slot src(j) of the old one. *)
Definition built_from {P D} (old new : list (particle P D)) (src : list nat) : Prop :=
  length new = length src /\
  forall j q, nth_error new j = Some q ->
    exists i p, nth_error src j = Some i /\ nth_error old i = Some p /\ descends p q.

(** Expected number of copies of particle i. *)
Definition expected (w : list Qc) (n i : nat) : Qc := QcN n * nth i w 0 / qsum w.
