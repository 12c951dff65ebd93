(** Where the Gaussians of the track-based filters come from. *)
From Coq Require Import QArith Qcanon List.
From Verif Require Import Base QcLra ParticleModel RbRunModel LmbModel TrackRunModel.
Import ListNotations.

Section Origin.
Context {Pose M G : Type}.
Variable sn : sensor Pose M G.
Variable o : outside G.
(** A measurement of one of the updates. *)
Definition heard_of (ks : list (tcall Pose M G)) (y : M) : Prop := exists zs u, In (TUpdate zs u) ks /\ In y zs.
(** Gaussians that go back to measurements received: placed by the inverse of one, corrected by one, moved by a landmark model,
    merged from such Gaussians. *)
Inductive tfrom (ks : list (tcall Pose M G)) : G -> Prop :=
| tfrom_inverse : forall x y, heard_of ks y -> tfrom ks (sInv sn x y)
| tfrom_correct : forall x g y g' lik, tfrom ks g -> heard_of ks y -> sCor sn x y g = Some (g', lik) -> tfrom ks g'
| tfrom_motion : forall g move stat, tfrom ks g -> In (TPredict move stat) ks -> tfrom ks (stat g)
| tfrom_merge : forall mix g w, (forall v h, In (v, h) mix -> tfrom ks h) -> In (w, g) (oMerge o mix) -> tfrom ks g.
(** Every Gaussian of every track of every particle. *)
Definition all_from (ks : list (tcall Pose M G)) (s : tfilt Pose M G) : Prop :=
  forall p ts t w g, In p (pset (rpf (tRb s))) -> pdata p = Some ts -> In t ts -> In (w, g) (tG t) -> tfrom ks g.
End Origin.
