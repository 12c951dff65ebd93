(** Vocabulary for joint compatibility. *)
From Coq Require Import List Bool Arith QArith Qcanon.
From Verif Require Import Base QcLra.
Import ListNotations.
Local Open Scope nat_scope.

(** Landmarks given to measurements, measurement 0 first. *)
Fixpoint landmarks (h : list (option nat)) : list nat :=
  match h with [] => [] | Some m :: r => m :: landmarks r | None :: r => landmarks r end.

(** No landmark is given to two measurements. *)
Definition one_to_one (h : list (option nat)) : Prop := NoDup (landmarks h).

Section Spec.
Variable nL : nat.
Variable jd : list (option nat) -> nat -> Qc.
Variable thr : nat -> Qc.

(** h (measurement 0 first) is compatible: every association passes the joint test with the
    associations before it.  [cnt] gives the number of measurements in the test from the
    associations before. *)
Definition compatible (cnt : list (option nat) -> nat) (h : list (option nat)) : Prop :=
  forall p m r, h = p ++ Some m :: r -> m < nL /\ Qclt (jd (rev p) m) (thr (cnt p)).

(** All associations so far and the new one. *)
Definition full_count (p : list (option nat)) : nat := 1 + length (landmarks p).
(** The same without measurement 0. *)
Definition late_count (p : list (option nat)) : nat := 1 + length (landmarks (tl p)).
End Spec.

(** Number of nodes of the full interpretation tree with [j] levels of inner nodes and [nL]
    landmarks. *)
Fixpoint tree_nodes (nL j : nat) : nat :=
  match j with 0 => 0 | S i => 1 + (nL + 1) * tree_nodes nL i end.
