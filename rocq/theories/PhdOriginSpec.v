(** Where the landmarks of the PHD filter come from. *)
From Coq Require Import QArith Qcanon List.
From Verif Require Import Base QcLra ParticleModel RbRunModel WeighModel PhdRunModel PhdRunSpec.
Import ListNotations.
Local Open Scope Qc_scope.

Section Origin.
Context {Pose M T : Type}.
Variable sn : hsensor Pose M T.
Variable cf : hconf.
Variable o : houtside T.
(** A measurement of one of the updates. *)
Definition received (ks : list (hcall Pose M T)) (y : M) : Prop := exists zs u, In (HUpdate zs u) ks /\ In y zs.
(** Landmarks that go back to measurements received: placed by the inverse of one, corrected by one within the gate, corrected as a
    candidate by one close to it, moved by a landmark model, merged from such landmarks. *)
Inductive hfrom (ks : list (hcall Pose M T)) : T -> Prop :=
| from_inverse : forall x y, received ks y -> hfrom ks (hInv sn x y)
| from_correct : forall x lm y, hfrom ks lm -> received ks y -> fst (fst (hCor sn x lm y)) <> 0 -> snd (fst (hCor sn x lm y)) <= hGate cf ->
    hfrom ks (snd (hCor sn x lm y))
| from_support : forall x lm y, hfrom ks lm -> received ks y -> hNear sn x lm y = true -> hfrom ks (hSup sn x lm y)
| from_motion : forall lm check move stat, hfrom ks lm -> In (HPredict check move stat) ks -> hfrom ks (stat lm)
| from_merge : forall mix lm w, (forall g v, In (g, v) mix -> hfrom ks g) -> In (lm, w) (xMerge o mix) -> hfrom ks lm.
End Origin.
