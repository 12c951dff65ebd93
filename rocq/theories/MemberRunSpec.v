(** Vocabulary for runs of the CB-MeMBer filter. *)
From Coq Require Import ZArith QArith Qcanon List Bool Arith.
From Verif Require Import Base QcLra TracksModel TracksSpec ParticleModel RbRunModel PermanentSpec PartitionSpec RfsSpec LmbModel LmbSpec MemberModel MemberSpec TrackRunModel TrackRunSpec MemberRunModel.
Import ListNotations.
Local Open Scope Qc_scope.

(** Does what is seen of a track in memory hold Gaussians? *)
Definition vholds (v : tview) : bool := negb (Z.eqb (fst (fst (snd v))) 0).
(** Two computations that give related results, or fail in the same way. *)
Definition mem_same {X Y : Type} (R : X -> Y -> Prop) (a : outcome X) (b : outcome Y) : Prop :=
  match a, b with Val x, Val y => R x y | UB e, UB e' => e = e' | _, _ => False end.

Section Spec.
Context {Pose M G : Type}.
(** A sensor that never detects with certainty; every correction it makes is possible, and so is clutter. *)
Definition csensor_sound (sn : sensor Pose M G) (integral : nat -> Qc) : Prop :=
  (forall x g, 0 <= sPd sn x g < 1) /\ (forall x z g g' l, sCor sn x z g = Some (g', l) -> 0 < l) /\ (forall z, 0 < sClut sn z) /\
  (forall n, (0 < n)%nat -> 0 < integral n).
(** Merging keeps the total weight and positive weights positive. *)
Definition cmerge_sound (merge : list (Qc * G) -> list (Qc * G)) : Prop :=
  forall gs, (forall w g, In (w, g) gs -> 0 < w) ->
  (forall w g, In (w, g) (merge gs) -> 0 < w) /\ qsum (map fst (merge gs)) = qsum (map fst gs) /\ (length (merge gs) <= length gs)%nat.
Definition coutside_sound (o : outside G) : Prop :=
  (forall C nR nC, components_of C 0 nR nC (fst (oComp o C nR nC)) (snd (oComp o C nR nC))) /\ kbest_contract (oBest o) /\ cmerge_sound (oMerge o).

(** A track: probability in [0, 1), positive weights of sum at most 1, and only a track without Gaussians is impossible. *)
Definition solid (t : track G) : Prop :=
  0 <= tP t < 1 /\ (forall w g, In (w, g) (tG t) -> 0 < w) /\ qsum (map fst (tG t)) <= 1 /\ (tG t <> [] -> 0 < tP t).
(** A track of the map during a run. *)
Definition cb_fine (cf : cconf) (t : track G) : Prop := solid t /\ (bTrack cf <= tP t \/ tP t = bBirth cf).

(** Measurement number z of the list fits the map. *)
Definition fits_map (sn : sensor Pose M G) (zs : list M) (x : Pose) (ts : list (track G)) (z : nat) : Prop :=
  exists y t w g g' l, nth_error zs z = Some y /\ In t ts /\ 0 < pd_of (sPd sn x) t /\ In (w, g) (tG t) /\ sCor sn x y g = Some (g', l).
(** The corrected Gaussians of the map for measurement z. *)
Definition correction_of (sn : sensor Pose M G) (zs : list M) (x : Pose) (ts : list (track G)) (z : nat) (g' : G) : Prop :=
  exists y t w g l, nth_error zs z = Some y /\ In t ts /\ 0 < pd_of (sPd sn x) t /\ In (w, g) (tG t) /\ sCor sn x y g = Some (g', l).
End Spec.
