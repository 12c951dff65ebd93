(** Vocabulary for runs of the track-based filters. *)
From Coq Require Import ZArith QArith Qcanon List Bool Arith.
From Verif Require Import Base QcLra ParticleModel RbRunModel PermanentSpec PartitionSpec RfsSpec LmbModel LmbSpec TrackRunModel.
Import ListNotations.
Local Open Scope Qc_scope.

Section Spec.
Context {Pose M G : Type}.
(** A sensor that never detects with certainty, with clutter everywhere. *)
Definition sensor_sound (sn : sensor Pose M G) : Prop :=
  (forall x g, 0 <= sPd sn x g < 1) /\ (forall x z g g' l, sCor sn x z g = Some (g', l) -> 0 <= l) /\ (forall z, 0 < sClut sn z).
Definition conf_sound (cf : lconf) : Prop := 0 <= cThr cf /\ 0 <= cMax cf <= 1 /\ 0 <= cMin cf /\ 0 <= cExp cf.
(** Merging keeps the total weight, makes no weight negative and no Gaussian out of nothing. *)
Definition merge_sound (merge : list (Qc * G) -> list (Qc * G)) : Prop :=
  forall gs, (forall w g, In (w, g) gs -> 0 <= w) -> (forall w g, In (w, g) (merge gs) -> 0 <= w) /\ qsum (map fst (merge gs)) = qsum (map fst gs) /\ (length (merge gs) <= length gs)%nat.
Definition outside_sound (o : outside G) : Prop :=
  (forall C nR nC, components_of C 0 nR nC (fst (oComp o C nR nC)) (snd (oComp o C nR nC))) /\ kbest_contract (oBest o) /\ merge_sound (oMerge o).

Definition draws_ok (ks : list (tcall Pose M G)) : Prop := forall zs u, In (TUpdate zs u) ks -> 0 <= u < 1.
(** No update without measurements while births are waiting for predict (C93). *)
Fixpoint calm (pending : bool) (ks : list (tcall Pose M G)) : Prop :=
  match ks with
  | [] => True
  | TPredict _ _ :: r => calm false r
  | TUpdate [] _ :: r => pending = false /\ calm false r
  | TUpdate _ _ :: r => calm true r
  | TThreshold _ :: r => calm pending r
  end.
(** Every particle has a map with the property and a positive weight. *)
Definition all_maps (Q : list (track G) -> Prop) (s : tfilt Pose M G) : Prop :=
  forall p, In p (pset (rpf (tRb s))) -> exists ts w, pdata p = Some ts /\ Q ts /\ pw p = Some w /\ 0 < w.
End Spec.
