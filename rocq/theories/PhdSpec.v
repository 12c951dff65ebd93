(** Vocabulary for C39-C40. *)
From Coq Require Import List Bool Arith QArith Qcanon Sorted.
From Verif Require Import QcLra PermanentSpec.
Import ListNotations.
Local Open Scope Qc_scope.

Section Spec.
Variable T : Type.
Variable probDet : T -> Qc * bool.
Variable correct : T -> nat -> Qc * Qc * T.
Variable clutter : nat -> Qc.
Variables gateMD birthW : Qc.

(** Detection probability used for a landmark: 1 near the sensing limit. *)
Definition pdet (lm : T) : Qc := if snd (probDet lm) then 1 else fst (probDet lm).
Definition likelihood (lm : T) (z : nat) : Qc := fst (fst (correct lm z)).
Definition corrected (lm : T) (z : nat) : T := snd (correct lm z).

(** The pair is considered: detectable, positive likelihood and within the gate. *)
Definition gated (lm : T) (z : nat) : Prop :=
  pdet lm <> 0 /\ likelihood lm z <> 0 /\ snd (fst (correct lm z)) <= gateMD.

(** v is the unnormalised weight of the pair of a Gaussian with a measurement. *)
Definition pair_weight (g : T * Qc) (z : nat) (v : Qc) : Prop :=
  (gated (fst g) z -> v = pdet (fst g) * snd g * likelihood (fst g) z) /\ (~ gated (fst g) z -> v = 0).

(** s is the sum of the unnormalised weights of a measurement. *)
Definition support_of (mix : list (T * Qc)) (z : nat) (s : Qc) : Prop :=
  exists vs, Forall2 (fun g v => pair_weight g z v) mix vs /\ s = qsum vs.

(** Weights of the new Gaussians that come from measurement z, given the pair (old Gaussian,
    measurement) each new one was made from. *)
Definition created (origin : list (nat * nat)) (gs : list (T * Qc)) (z : nat) : list Qc :=
  map (fun og => snd (snd og)) (filter (fun og => Nat.eqb (snd (fst og)) z) (combine origin gs)).

(** Likewise the ones that come from the old Gaussian m. *)
Definition created_by (origin : list (nat * nat)) (gs : list (T * Qc)) (m : nat) : list Qc :=
  map (fun og => snd (snd og)) (filter (fun og => Nat.eqb (fst (fst og)) m) (combine origin gs)).

Definition qmin (a b : Qc) : Qc := if Qcleb a b then a else b.

(** What an update has to achieve: old map, number of measurements, new map, unused
    measurements; origin lists for each new Gaussian the old one and the measurement it comes
    from.
    - The new Gaussians are one for each pair that is considered and whose old weight is
      positive.
    - Each has the corrected landmark and the weight pd * w * likelihood / (clutter + support).
    - The ones of a measurement sum to support / (clutter + support), which is less than 1
      exactly if there is clutter.
    - The unused measurements are the ones without new Gaussian, in increasing order.
    - An old Gaussian keeps its landmark and gets weight (1 - pd) w; near the sensing limit 0, or,
      if its weight is above the birth weight, what is left of its weight, at most 1. *)
Definition conserved (mix : list (T * Qc)) (nZ : nat) (new : list (T * Qc)) (unused : list nat)
    (origin : list (nat * nat)) : Prop :=
  NoDup origin /\ length new = (length mix + length origin)%nat /\
  (forall m z, In (m, z) origin <-> exists lm w, nth_error mix m = Some (lm, w) /\ (z < nZ)%nat /\ gated lm z /\ 0 < w) /\
  (forall k m z lm w s, nth_error origin k = Some (m, z) -> nth_error mix m = Some (lm, w) ->
     support_of mix z s -> clutter z + s <> 0 /\
     nth_error new (length mix + k) = Some (corrected lm z, pdet lm * w * likelihood lm z / (clutter z + s))) /\
  (forall z s, (z < nZ)%nat -> support_of mix z s ->
     let sum := qsum (created origin (skipn (length mix) new) z) in
     (clutter z + s <> 0 -> sum = s / (clutter z + s) /\ (sum < 1 <-> 0 < clutter z)) /\
     (clutter z + s = 0 -> sum = 0) /\ 0 <= sum <= 1) /\
  (forall z, In z unused <-> (z < nZ)%nat /\ forall m, ~ In (m, z) origin) /\
  StronglySorted lt unused /\
  (forall m lm w, nth_error mix m = Some (lm, w) -> exists w', nth_error new m = Some (lm, w') /\
     (snd (probDet lm) = false -> w' = (1 - fst (probDet lm)) * w) /\
     (snd (probDet lm) = true -> w <= birthW -> w' = 0) /\
     (snd (probDet lm) = true -> birthW < w ->
        let lost := w - qsum (created_by origin (skipn (length mix) new) m) in
        (0 <= lost -> w' = qmin 1 lost) /\ (lost <= 0 -> w' = 0))).
End Spec.
