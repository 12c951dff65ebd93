(** Vocabulary for C104-C109. *)
From Coq Require Import ZArith List Bool Arith QArith Qcanon Sorted Permutation.
From Verif Require Import Base QcLra PermanentSpec PartitionSpec RfsSpec PhdSpec LmbModel LmbSpec MemberSpec WeighModel.
Import ListNotations.
Local Open Scope Qc_scope.

(** Sorting by weight, highest first. *)
Definition sort_contract {T : Type} (srt : list (gauss T) -> list (gauss T)) : Prop :=
  forall l, Permutation l (srt l) /\ StronglySorted (fun a b => g_w b <= g_w a) (srt l).

(** Connected components are found. *)
Definition comps_contract (comps : (nat -> nat -> Z) -> nat -> nat -> (nat -> nat) * nat) : Prop :=
  forall C nM nZ, components_of C 0%Z nM nZ (fst (comps C nM nZ)) (snd (comps C nM nZ)).

Section Spec.
Variable T : Type.

(** Expected number of landmarks of a map, and its intensity at a point. *)
Definition mass (mix : list (T * Qc)) : Qc := qsum (map snd mix).
Variable glik : T -> T -> Qc.
Definition intensity (mix : list (T * Qc)) (x : T) : Qc := qsum (map (fun g => snd g * glik (fst g) x) mix).

Variable probDet : T -> Qc * bool.
(** The Gaussian may serve as evaluation point: heavy enough and detectable. *)
Definition eligible (thr : Qc) (g : T * Qc) : Prop := thr <= snd g /\ 0 < fst (probDet (fst g)).

(** [ev] are the positions in the map of the [limit] heaviest eligible Gaussians (all, if there
    are not more or the limit is negative). *)
Definition heaviest (thr : Qc) (limit : Z) (mix : list (T * Qc)) (ev : list nat) : Prop :=
  StronglySorted lt ev /\
  (forall i, In i ev -> exists g, nth_error mix i = Some g /\ eligible thr g) /\
  ((0 <= limit)%Z -> (Z.of_nat (length ev) <= limit)%Z) /\
  (forall j g, nth_error mix j = Some g -> eligible thr g -> ~ In j ev ->
     Z.of_nat (length ev) = limit /\
     forall i h, In i ev -> nth_error mix i = Some h -> snd g <= snd h).

(** [ps] are the landmarks at the positions ev with their detection probabilities. *)
Definition found (mix : list (T * Qc)) (ev : list nat) (ps : list (T * Qc)) : Prop :=
  Forall2 (fun i p => exists w, nth_error mix i = Some (fst p, w) /\ snd p = fst (probDet (fst p))) ev ps.

(** Likelihood of measurement z for point m, with detection probability, within the gate. *)
Variable meas : T -> nat -> Qc * Qc.
Definition seen_as (gate2 : Qc) (ps : list (T * Qc)) (m z : nat) : Qc :=
  match nth_error ps m with
  | None => 0
  | Some (lm, pd) => if Qcltb gate2 (snd (meas lm z)) then 0 else fst (meas lm z) * pd
  end.
Definition chance (ps : list (T * Qc)) (m : nat) : Qc :=
  match nth_error ps m with None => 0 | Some (_, pd) => pd end.

(** Every group of points and measurements has at most eight members or at most 200 association
    hypotheses of positive weight. *)
Definition groups_small (L : nat -> nat -> Qc) (pd cl : nat -> Qc) (nM nZ : nat) : Prop :=
  forall il jl, component L nM nZ il jl -> (length il + length jl <= 8)%nat \/ few 200 L pd cl il jl.
End Spec.

(** What the code needs of the sensor and the numbers. *)
Definition proper {T : Type} (probDet : T -> Qc * bool) (correct : T -> nat -> Qc * Qc * T)
    (meas : T -> nat -> Qc * Qc) (glik : T -> T -> Qc) (clutter : nat -> Qc) (integral tiny : Qc) : Prop :=
  (forall lm, 0 <= fst (probDet lm) <= 1) /\ (forall lm z, 0 <= likelihood T correct lm z) /\
  (forall lm z, 0 <= fst (meas lm z)) /\ (forall a b, 0 <= glik a b) /\ (forall z, 0 <= clutter z) /\
  0 < integral /\ 0 < tiny.

(** The CB-MeMBer filter: likelihood of a measurement given that the track exists, values up to the
    threshold dropped; detection probabilities of the tracks in view. *)
Section Member.
Context {G : Type}.
Variable probDet : G -> Qc.
Variable correct : nat -> G -> option (G * Qc).
Variable thr : Qc.
Definition exists_table (ts : list (track G)) (m z : nat) : Qc :=
  match nth_error ts m with
  | Some t => let x := pd_of probDet t * lik_of correct t z in if Qcltb thr x then x else 0
  | None => 0
  end.
Definition exists_pd (ts : list (track G)) (m : nat) : Qc :=
  match nth_error ts m with Some t => pd_of probDet t | None => 0 end.

(** Probability density of the measurements given the tracks: sum over all joint events. *)
Definition bayes (clutter : nat -> Qc) (nZ : nat) (ts : list (track G)) (v : Qc) : Prop :=
  exists es, NoDup es /\ (forall e, In e es <-> event (length ts) nZ e) /\
  v = qsum (map (joint probDet correct clutter nZ ts) es).
End Member.
