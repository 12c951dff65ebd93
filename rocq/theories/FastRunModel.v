(** Model of the part of class FastSLAM around the map update: constructor, predict, update and
    resampleWithMapCopy (include/FastSLAM.hpp:308-357, 366-432, 737-766).

    Simplifications.  One thread; timers left out.  Particles and resampling are those of
    ParticleModel.  The map update of all particles (updateMap, FastModel) is a function
    from the particles and candidate lists to new ones, given with every update; it gets
    resampleOccured_, None before it is first set.  nLandmarksInFOV_ is left out, updateMap writes an
    element before it reads it.  Counters are unbounded; thresholds of type int are converted to
    unsigned in the comparisons with the counters. *)
From Coq Require Import ZArith QArith Qcanon List Bool Arith.
From Verif Require Import Base ListUtil Loop QcLra ParticleModel.
Import ListNotations.
Local Open Scope nat_scope.

Section FastRun.
(** Pose, map and candidate types; template parameters of include/FastSLAM.hpp:73-83. *)
Context {Pose Data C : Type}.
Notation part := (particle Pose Data).

(** nParticles_init_ and the members nParticlesMax_, minUpdatesBeforeResample_,
    minMeasurementsBeforeResample_, maxNDataAssocHypotheses_ of Config;
    include/FastSLAM.hpp:113,116,131,264. *)
Record fcfg := FC { nInit : nat; nMax : Z; minUpd : Z; minMeas : Z; maxHyp : nat }.

(** Base class, landmarkCandidates_, nUpdatesSinceResample_, nMeasurementsSinceResample_,
    resampleOccured_; include/FastSLAM.hpp:256,266,276,277. *)
Record fsl := FL { fpf : pf Pose Data; fcand : list (list C); fupd : nat; fmeas : nat; focc : option bool }.

(** FastSLAM(n), include/FastSLAM.hpp:308-350; [d0] is an empty mixture, [x0] the initial pose. *)
Definition fs_new (n : nat) (x0 : Pose) (d0 : Data) : fsl :=
  let s := pf_new n x0 in
  FL (PF (map (fun p => setData p (Some d0)) (pset s)) (effT s) (effPct s)) (repeat [] n) 0 0 None.

(** Default configuration, include/FastSLAM.hpp:324-337. *)
Definition cfg_new (n : nat) : fcfg := FC n (Z.of_nat n * 3) 1 1 1.

(** Conversion of an int to unsigned int in the comparisons of include/FastSLAM.hpp:745-746. *)
Definition to_uint (z : Z) : Z := (z mod 2 ^ 32)%Z.

(** The condition of the second branch, include/FastSLAM.hpp:745-746. *)
Definition due (c : fcfg) (s : fsl) : bool :=
  (to_uint (minUpd c) <=? Z.of_nat (fupd s))%Z && (to_uint (minMeas c) <=? Z.of_nat (fmeas s))%Z.

(** One pass of the loop that copies the candidates, include/FastSLAM.hpp:759-762. *)
Definition inherit (l : list part) (i : nat) (cs : list (list C)) : outcome (list (list C)) :=
  let* p := of_option OutOfBounds (nth_error l i) in
  if pparent p =? i then Val cs
  else
    let* c := of_option OutOfBounds (nth_error cs (pparent p)) in
    if i <? length cs then Val (upd cs i c) else UB OutOfBounds.

(** The resampling decision and the call, include/FastSLAM.hpp:741-748. *)
Definition try_resample (c : fcfg) (u : Qc) (s : fsl) : outcome (pf Pose Data * bool) :=
  if (nMax c <? Z.of_nat (length (pset (fpf s))))%Z then resample (fpf s) (nInit c) true u
  else if due c s then resample (fpf s) (nInit c) false u
  else Val (fpf s, false).

(** resampleWithMapCopy, include/FastSLAM.hpp:738-766. *)
Definition resampleWithMapCopy (c : fcfg) (u : Qc) (s : fsl) : outcome fsl :=
  let* r := try_resample c u s in
  let '(f, occ) := r in
  if occ then
    let* cs := for_ (length (pset f)) (inherit (pset f)) (fcand s) in
    Val (FL f cs 0 0 (Some true))
  else Val (FL (PF (normalizeWeights (pset f)) (effT f) (effPct f)) (fcand s) (fupd s) (fmeas s) (Some false)).

(** Effect of the calls of updateMap (include/FastSLAM.hpp:416-422, FastModel) on particles and
    candidates. *)
Definition mapupd := option bool -> list part -> list (list C) -> outcome (list part * list (list C)).

(** update with nz measurements, include/FastSLAM.hpp:389-431. *)
Definition update (c : fcfg) (nz : nat) (maps : mapupd) (u : Qc) (s : fsl) : outcome fsl :=
  let n := length (pset (fpf s)) * maxHyp c in
  let cs := fcand s ++ repeat [] (n - length (fcand s)) in
  let s1 := FL (fpf s) cs (S (fupd s)) (fmeas s) (focc s) in
  if nz =? 0 then Val s1
  else
    let* r := maps (focc s) (pset (fpf s)) cs in
    let '(ps, cs') := r in
    resampleWithMapCopy c u (FL (PF ps (effT (fpf s)) (effPct (fpf s))) cs' (S (fupd s)) (fmeas s + nz) (focc s)).

(** One particle in predict, include/FastSLAM.hpp:374-384 and include/ParticleFilter.hpp:333-357:
    [move i] is the propagation of particle i with the trajectory kept, [stat] the static step of
    all landmarks of a map. *)
Definition step_part (move : nat -> Pose -> Pose) (stat : Data -> Data) (ip : nat * part) : outcome part :=
  let '(i, p) := ip in
  let* d := of_option NullDeref (pdata p) in
  Val (PT (pid p) (pparent p) (pw p) (move i (ppose p)) (ppose p :: pprev p) (Some (stat d))).

(** The two loops of predict as one pass over the particles, include/FastSLAM.hpp:374-384. *)
Fixpoint step_all (move : nat -> Pose -> Pose) (stat : Data -> Data) (i : nat) (l : list part) : outcome (list part) :=
  match l with
  | [] => Val []
  | p :: r =>
    let* p' := step_part move stat (i, p) in
    let* r' := step_all move stat (S i) r in
    Val (p' :: r')
  end.

(** predict, include/FastSLAM.hpp:366-387. *)
Definition predict (move : nat -> Pose -> Pose) (stat : Data -> Data) (s : fsl) : outcome fsl :=
  let* l := step_all move stat 0 (pset (fpf s)) in
  Val (FL (PF l (effT (fpf s)) (effPct (fpf s))) (fcand s) (fupd s) (fmeas s) (focc s)).

(** A call of the user, include/FastSLAM.hpp:366-369,389-390 and
    include/ParticleFilter.hpp:394-399. *)
Inductive call :=
| Predict (move : nat -> Pose -> Pose) (stat : Data -> Data)
| Update (nz : nat) (maps : mapupd) (u : Qc)
| SetThreshold (t : Qc).

(** One of these calls; include/FastSLAM.hpp:366-369,389-390. *)
Definition do_call (c : fcfg) (s : fsl) (k : call) : outcome fsl :=
  match k with
  | Predict move stat => predict move stat s
  | Update nz maps u => update c nz maps u s
  | SetThreshold t => Val (FL (setEffectiveParticleCountThreshold (fpf s) t) (fcand s) (fupd s) (fmeas s) (focc s))
  end.

(** The calls one after the other; src/fastslam2dSim.cpp:570-600. *)
Fixpoint run (c : fcfg) (s : fsl) (ks : list call) : outcome fsl :=
  match ks with
  | [] => Val s
  | k :: r => let* s' := do_call c s k in run c s' r
  end.
End FastRun.
Arguments fsl : clear implicits.
Arguments call : clear implicits.
Arguments mapupd : clear implicits.
