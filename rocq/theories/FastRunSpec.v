(** Vocabulary for FastSLAM's resampling. *)
From Coq Require Import ZArith QArith Qcanon List Bool Arith.
From Verif Require Import Base ParticleModel ParticleSpec FastRunModel.
Import ListNotations.
Local Open Scope nat_scope.

(** The map update keeps all particles with their identifiers, identifiers of new
    particles are their slots; it makes at most maxNDataAssocHypotheses_ particles of one, the
    number of candidate lists stays. *)
Definition extends {P D} (ps ps' : list (particle P D)) : Prop :=
  length ps <= length ps' /\
  forall i q, nth_error ps' i = Some q -> pid q = match nth_error ps i with Some p => pid p | None => i end.
Definition faithful {P D C} (c : fcfg) (k : call P D C) : Prop :=
  match k with
  | Predict _ _ | SetThreshold _ => True
  | Update _ maps _ => forall o ps cs ps' cs', maps o ps cs = Val (ps', cs') ->
      extends ps ps' /\ length cs' = length cs /\ (length ps * maxHyp c <= length cs -> length ps' <= length cs')
  end.

(** Runs with a log: for every update the number of measurements and whether the
    particles were resampled. *)
Definition entry {P D C} (k : call P D C) (s' : fsl P D C) : list (nat * bool) :=
  match k with
  | Predict _ _ | SetThreshold _ => []
  | Update nz _ _ => [(nz, (0 <? nz) && match focc s' with Some b => b | None => false end)]
  end.
Inductive logged {P D C} (c : fcfg) : fsl P D C -> list (call P D C) -> list (nat * bool) -> fsl P D C -> Prop :=
| logged_nil : forall s, logged c s [] [] s
| logged_cons : forall s k s1 ks log s', do_call c s k = Val s1 -> logged c s1 ks log s' ->
    logged c s (k :: ks) (entry k s1 ++ log) s'.

(** Updates and measurements after the last resampling in a log. *)
Fixpoint updates_since (log : list (nat * bool)) : nat :=
  match log with
  | [] => 0
  | (_, b) :: r => if existsb snd r then updates_since r else (if b then 0 else 1) + updates_since r
  end.
Fixpoint measurements_since (log : list (nat * bool)) : nat :=
  match log with
  | [] => 0
  | (z, b) :: r => if existsb snd r then measurements_since r else (if b then 0 else z) + measurements_since r
  end.

(** The map update gives every particle pose and trajectory of a particle there was, and a map. *)
Definition keeps_paths {P D C} (k : call P D C) : Prop :=
  match k with
  | Predict _ _ | SetThreshold _ => True
  | Update _ maps _ => forall o ps cs ps' cs', maps o ps cs = Val (ps', cs') -> all_data ps ->
      forall q, In q ps' -> pdata q <> None /\ exists p, In p ps /\ ppose q = ppose p /\ pprev q = pprev p
  end.
(** Poses of a particle, latest first: the initial pose, then one for every motion, each made
    from the one before by that motion (as applied to some particle number). *)
Inductive path {P} (x0 : P) : list (nat -> P -> P) -> list P -> Prop :=
| path_start : path x0 [] [x0]
| path_step : forall ms x r move i, path x0 ms (x :: r) -> path x0 (ms ++ [move]) (move i x :: x :: r).
Fixpoint motions {P D C} (ks : list (call P D C)) : list (nat -> P -> P) :=
  match ks with
  | [] => []
  | Predict move _ :: r => move :: motions r
  | _ :: r => motions r
  end.
