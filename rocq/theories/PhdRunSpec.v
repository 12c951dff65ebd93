(** Vocabulary for runs of the PHD filter. *)
From Coq Require Import ZArith QArith Qcanon List Bool Arith.
From Verif Require Import Base QcLra ParticleModel RbRunModel PermanentSpec PhdModel RfsSpec WeighModel WeighSpec PhdRunModel.
Import ListNotations.
Local Open Scope Qc_scope.

Section Spec.
Context {Pose M T : Type}.
(** A sensor that never detects with certainty, with clutter everywhere. *)
Definition hsensor_sound (sn : hsensor Pose M T) : Prop :=
  (forall x lm, 0 <= fst (hPd sn x lm) < 1) /\ (forall x lm y, 0 <= fst (fst (hCor sn x lm y))) /\ (forall x lm y, 0 <= fst (hMeas sn x lm y)) /\
  (forall a b, 0 <= hLik sn a b) /\ (forall y n, 0 < hClut sn y n) /\ (forall n, 0 < hInt sn n).
(** The default of one measurement for a birth. *)
Definition hconf_sound (cf : hconf) : Prop := 0 <= hBirthW cf /\ hCnt cf = 1%nat.
(** Merging keeps the total weight and makes no weight negative. *)
Definition hmerge_sound (merge : list (T * Qc) -> list (T * Qc)) : Prop :=
  forall mix, (forall lm w, In (lm, w) mix -> 0 <= w) -> (forall lm w, In (lm, w) (merge mix) -> 0 <= w) /\ mass T (merge mix) = mass T mix.
Definition houtside_sound (o : houtside T) : Prop :=
  0 < xTiny o /\ (forall x, 0 < xExp o x) /\ comps_contract (xComp o) /\ kbest_contract (xBest o) /\ sort_contract (xSort o) /\ hmerge_sound (xMerge o).

Definition hdraws_ok (ks : list (hcall Pose M T)) : Prop := forall zs u, In (HUpdate zs u) ks -> 0 <= u < 1.
(** No update without measurements while unused measurements are waiting for a predict that looks for births (C62). *)
Fixpoint hcalm (pending : bool) (ks : list (hcall Pose M T)) : Prop :=
  match ks with
  | [] => True
  | HPredict check _ _ :: r => hcalm (if check then false else pending) r
  | HUpdate [] _ :: r => pending = false /\ hcalm false r
  | HUpdate _ _ :: r => hcalm true r
  | HThreshold _ :: r => hcalm pending r
  end.
(** Every particle has a positive weight and a map of non-negative weights of at most [b] landmarks. *)
Definition hall_maps (b : Qc) (s : hfilt Pose M T) : Prop :=
  forall p, In p (pset (rpf (hRb s))) -> exists mix w, pdata p = Some mix /\ (forall lm v, In (lm, v) mix -> 0 <= v) /\ mass T mix <= b /\ pw p = Some w /\ 0 < w.
(** Number of measurements in the calls. *)
Fixpoint heard (ks : list (hcall Pose M T)) : nat :=
  match ks with [] => 0 | HUpdate zs _ :: r => length zs + heard r | _ :: r => heard r end.
End Spec.

(** The same calls for the filters with maps of any kind (RbRunModel): the same motions, measurements and draws, landmarks
    stepped one by one, births appended with the birth weight, maps and weights of an update those of phd_one. *)
Definition same_hcall {Pose M T} (sn : hsensor Pose M T) cf o (k : hcall Pose M T) (r : rcall Pose (list (T * Qc))) : Prop :=
  match k, r with
  | HPredict _ move stat, RPredict birth move' stat' =>
    move' = move /\ (forall d, stat' d = map (fun g => (stat (fst g), snd g)) d) /\
    forall i x d, exists nb, birth i x d = d ++ nb /\ forall lm w, In (lm, w) nb -> w = hBirthW cf
  | HUpdate zs u, RUpdate nz maps wts u' =>
    nz = length zs /\ u' = u /\ forall i x d w m, phd_one sn cf o zs x d w = Val m -> maps i x d = nMap m /\ wts i x d w = nW m
  | HThreshold t, RThreshold t' => t' = t
  | _, _ => False
  end.
(** The least one expects of a sensor: probabilities, likelihoods and clutter that are not negative. *)
Definition hsensor_weak {Pose M T} (sn : hsensor Pose M T) : Prop :=
  (forall x lm, 0 <= fst (hPd sn x lm) <= 1) /\ (forall x lm y, 0 <= fst (fst (hCor sn x lm y))) /\ (forall y n, 0 <= hClut sn y n).
