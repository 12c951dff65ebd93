(** Number of measurements in calls of the LMB and CB-MeMBer filters. *)
From Coq Require Import List.
From Verif Require Import Base TrackRunModel.
Import ListNotations.

Fixpoint told {Pose M G : Type} (ks : list (tcall Pose M G)) : nat :=
  match ks with [] => 0 | TUpdate zs _ :: r => length zs + told r | _ :: r => told r end.
