(** Model of the life of a Rao-Blackwellised filter around its map update: constructor, predict and
    update of RBPHDFilter (include/RBPHDFilter.hpp:349-398, 417-543), RBLMBFilter
    (include/RBLMBFilter.hpp:276-300, 326-366, 426-512) and RBCBMeMBerFilter
    (include/RBCBMeMBerFilter.hpp:280-303, 329-366, 427-510).

    Simplifications.  One thread, timers left out.  Particles and resampling are those of
    ParticleModel.  What updateMap, importanceWeighting, merge and prune make of the map and the
    weight of one particle are functions of slot, pose, map and weight given with the call, so are
    the births, the motion and the static step; all of them are total.  Counters are unbounded; the
    thresholds of type int are converted to unsigned in the comparisons with the counters. *)
From Coq Require Import ZArith QArith Qcanon List Bool Arith.
From Verif Require Import Base ListUtil QcLra ParticleModel.
Import ListNotations.
Local Open Scope nat_scope.

Section RbRun.
(** Pose and map types; template parameters of include/RBPHDFilter.hpp:66-73. *)
Context {Pose Data : Type}.
Notation part := (particle Pose Data).

(** minUpdatesBeforeResample_ and, in RBPHDFilter only, minMeasurementsBeforeResample_
    (include/RBPHDFilter.hpp:139,142, include/RBLMBFilter.hpp:116,
    include/RBCBMeMBerFilter.hpp:119); whether predict asks propagate to keep trajectories
    (include/RBPHDFilter.hpp:431, include/RBLMBFilter.hpp:285, include/RBCBMeMBerFilter.hpp:289). *)
Record rcfg := RC { rminUpd : Z; rminMeas : option Z; rkeep : bool }.

(** Default configurations, include/RBPHDFilter.hpp:382-383, include/RBLMBFilter.hpp:363 and
    include/RBCBMeMBerFilter.hpp:363. *)
Definition phd_cfg : rcfg := RC 1 (Some 1%Z) true.
(** Part of the above, include/RBLMBFilter.hpp:363, include/RBCBMeMBerFilter.hpp:363. *)
Definition track_cfg : rcfg := RC 1 None false.

(** Base class, nUpdatesSinceResample_, nMeasurementsSinceResample_ and whether the last update
    with measurements resampled (a member of RBPHDFilter, a local variable elsewhere);
    include/RBPHDFilter.hpp:275-277, include/RBLMBFilter.hpp:214,499. *)
Record rbf := RB { rpf : pf Pose Data; rupd : nat; rmeas : nat; rocc : option bool }.

(** Constructor, include/RBPHDFilter.hpp:349-398; [d0] is an empty map, [x0] the zero pose. *)
Definition rb_new (n : nat) (x0 : Pose) (d0 : Data) : rbf :=
  let s := pf_new n x0 in
  RB (PF (map (fun p => setData p (Some d0)) (pset s)) (effT s) (effPct s)) 0 0 None.

(** Conversion of an int to unsigned int in include/RBPHDFilter.hpp:529-530. *)
Definition as_uint (z : Z) : Z := (z mod 2 ^ 32)%Z.

(** The condition for resampling, include/RBPHDFilter.hpp:529-530, include/RBLMBFilter.hpp:500,
    include/RBCBMeMBerFilter.hpp:499. *)
Definition ripe (c : rcfg) (upd meas : nat) : bool :=
  (as_uint (rminUpd c) <=? Z.of_nat upd)%Z &&
  match rminMeas c with None => true | Some m => (as_uint m <=? Z.of_nat meas)%Z end.

(** A loop over all particles that uses getData(), include/RBPHDFilter.hpp:476-517. *)
Fixpoint each (f : nat -> part -> Data -> part) (i : nat) (l : list part) : outcome (list part) :=
  match l with
  | [] => Val []
  | p :: r =>
    let* d := of_option NullDeref (pdata p) in
    let* r' := each f (S i) r in
    Val (f i p d :: r')
  end.

(** updateMap, importanceWeighting, merge and prune for one particle,
    include/RBPHDFilter.hpp:476-517, include/RBLMBFilter.hpp:459-486. *)
Definition upd_part (maps : nat -> Pose -> Data -> Data) (wts : nat -> Pose -> Data -> num -> num) (i : nat) (p : part) (d : Data) : part :=
  PT (pid p) (pparent p) (wts i (ppose p) d (pw p)) (ppose p) (pprev p) (Some (maps i (ppose p) d)).

(** The resampling part of update, include/RBPHDFilter.hpp:526-541, include/RBLMBFilter.hpp:497-510,
    include/RBCBMeMBerFilter.hpp:496-509; [u] is drand48(). *)
Definition finish (c : rcfg) (u : Qc) (s : rbf) : outcome rbf :=
  let* r := if ripe c (rupd s) (rmeas s) then resample (rpf s) 0 false u else Val (rpf s, false) in
  let '(f, occ) := r in
  if occ then Val (RB f 0 0 (Some true))
  else Val (RB (PF (normalizeWeights (pset f)) (effT f) (effPct f)) (rupd s) (rmeas s) (Some false)).

(** update with nz measurements, include/RBPHDFilter.hpp:446-543, include/RBLMBFilter.hpp:428-512,
    include/RBCBMeMBerFilter.hpp:428-511. *)
Definition rupdate (c : rcfg) (nz : nat) (maps : nat -> Pose -> Data -> Data) (wts : nat -> Pose -> Data -> num -> num) (u : Qc) (s : rbf) : outcome rbf :=
  if nz =? 0 then Val (RB (rpf s) (S (rupd s)) (rmeas s) (rocc s))
  else
    let* l := each (upd_part maps wts) 0 (pset (rpf s)) in
    finish c u (RB (PF l (effT (rpf s)) (effPct (rpf s))) (S (rupd s)) (rmeas s + nz) (rocc s)).

(** One particle in predict: births from the pose before the motion, motion, static step of the
    landmarks; include/RBPHDFilter.hpp:417-443, include/ParticleFilter.hpp:330-352. *)
Definition step_part (keep : bool) (birth : nat -> Pose -> Data -> Data) (move : nat -> Pose -> Pose) (stat : Data -> Data) (i : nat) (p : part) (d : Data) : part :=
  PT (pid p) (pparent p) (pw p) (move i (ppose p)) (if keep then ppose p :: pprev p else pprev p) (Some (stat (birth i (ppose p) d))).

(** predict, include/RBPHDFilter.hpp:417-443, include/RBLMBFilter.hpp:276-300,
    include/RBCBMeMBerFilter.hpp:280-303; its loops as one pass over the particles. *)
Definition rpredict (c : rcfg) (birth : nat -> Pose -> Data -> Data) (move : nat -> Pose -> Pose) (stat : Data -> Data) (s : rbf) : outcome rbf :=
  let* l := each (step_part (rkeep c) birth move stat) 0 (pset (rpf s)) in
  Val (RB (PF l (effT (rpf s)) (effPct (rpf s))) (rupd s) (rmeas s) (rocc s)).

(** A call of the user, include/RBPHDFilter.hpp:209-222, include/ParticleFilter.hpp:394-399. *)
Inductive rcall :=
| RPredict (birth : nat -> Pose -> Data -> Data) (move : nat -> Pose -> Pose) (stat : Data -> Data)
| RUpdate (nz : nat) (maps : nat -> Pose -> Data -> Data) (wts : nat -> Pose -> Data -> num -> num) (u : Qc)
| RThreshold (t : Qc).

(** One of these calls; include/RBPHDFilter.hpp:417-543, include/ParticleFilter.hpp:394-399. *)
Definition rdo (c : rcfg) (s : rbf) (k : rcall) : outcome rbf :=
  match k with
  | RPredict birth move stat => rpredict c birth move stat s
  | RUpdate nz maps wts u => rupdate c nz maps wts u s
  | RThreshold t => Val (RB (setEffectiveParticleCountThreshold (rpf s) t) (rupd s) (rmeas s) (rocc s))
  end.

(** The calls one after the other; include/RBPHDSLAM_2D.hpp:784-880. *)
Fixpoint rrun (c : rcfg) (s : rbf) (ks : list rcall) : outcome rbf :=
  match ks with
  | [] => Val s
  | k :: r => let* s' := rdo c s k in rrun c s' r
  end.
End RbRun.
Arguments rbf : clear implicits.
Arguments rcall : clear implicits.
