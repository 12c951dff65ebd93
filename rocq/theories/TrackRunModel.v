(** Model of complete runs of the track-based filters: map update, merging, pruning, weighting,
    resampling, births, motion; update and predict of RBLMBFilter (include/RBLMBFilter.hpp:276-332,
    428-512) and RBCBMeMBerFilter (include/RBCBMeMBerFilter.hpp:280-334, 428-511) with the map
    updates of LmbModel and MemberModel in place of the functions left open in RbRunModel.

    Simplifications.  One thread, timers left out.  Maps are lists of tracks and mixtures lists of
    weighted Gaussians; the memory they live in is the subject of GMModel and TracksModel.  The
    order in which prune leaves Gaussians and pruneTracks leaves tracks is not modelled.  Merging of
    a mixture, Kalman correction, inverse measurement, the components of boost and Murty's
    assignments are functions given from outside. *)
From Coq Require Import ZArith QArith Qcanon List Bool Arith.
From Verif Require Import Base ListUtil QcLra ParticleModel RbRunModel RfsModel LmbModel.
Import ListNotations.
Local Open Scope nat_scope.

Section Run.
(** Poses, measurements, Gaussians; template parameters of include/RBLMBFilter.hpp:57-62. *)
Context {Pose M G : Type}.
Notation tmap := (list (track G)).
Notation part := (particle Pose tmap).

(** What updateMap, mergeGM, pruneTracks and pruneGM make of the map of a particle: the new map, the
    measurements left for births with their probabilities, the factor of the weight;
    include/RBLMBFilter.hpp:459-486, include/RBCBMeMBerFilter.hpp:455-491. *)
Record made := Made { mMap : tmap; mBirths : list (nat * Qc); mFactor : Qc }.

(** The state: particles and counters, unused_measurements_ with birthPe_ of every slot,
    measurements_; include/RBLMBFilter.hpp:206-226, include/ParticleFilter.hpp:203. *)
Record tfilt := TF { tRb : rbf Pose tmap; tSlots : list (list (nat * Qc)); tZ : list M }.

(** Constructor, include/RBLMBFilter.hpp:334-367, include/RBCBMeMBerFilter.hpp:336-366. *)
Definition tf_new (n : nat) (x0 : Pose) : tfilt := TF (rb_new n x0 []) (repeat [] n) [].

(** The loops over the particles in update, include/RBLMBFilter.hpp:459-486. *)
Fixpoint upd_all (one : list M -> Pose -> tmap -> outcome made) (zs : list M) (l : list part) : outcome (list part * list (list (nat * Qc))) :=
  match l with
  | [] => Val ([], [])
  | p :: r =>
    let* d := of_option NullDeref (pdata p) in
    let* o := one zs (ppose p) d in
    let* q := upd_all one zs r in
    Val (PT (pid p) (pparent p) (nmul (Some (mFactor o)) (pw p)) (ppose p) (pprev p) (Some (mMap o)) :: fst q, mBirths o :: snd q)
  end.

(** update, include/RBLMBFilter.hpp:428-512, include/RBCBMeMBerFilter.hpp:428-511. *)
Definition tupdate (one : list M -> Pose -> tmap -> outcome made) (c : rcfg) (zs : list M) (u : Qc) (s : tfilt) : outcome tfilt :=
  let f := rpf (tRb s) in
  match zs with
  | [] => Val (TF (RB f (S (rupd (tRb s))) (rmeas (tRb s)) (rocc (tRb s))) (tSlots s) [])
  | _ =>
    let* r := upd_all one zs (pset f) in
    let* b := finish c u (RB (PF (fst r) (effT f) (effPct f)) (S (rupd (tRb s))) (rmeas (tRb s) + length zs) (rocc (tRb s))) in
    Val (TF b (snd r) zs)
  end.

(** The births of one slot, last one first, include/RBLMBFilter.hpp:307-328,
    include/RBCBMeMBerFilter.hpp:310-330; [us] is given reversed, [inv] is inverseMeasure. *)
Fixpoint born (inv : Pose -> M -> G) (zs : list M) (x : Pose) (us : list (nat * Qc)) : outcome tmap :=
  match us with
  | [] => Val []
  | (k, pe) :: r =>
    let* z := of_option OutOfBounds (nth_error zs k) in
    let* l := born inv zs x r in
    Val (Track pe [(1%Qc, inv x z)] :: l)
  end.

(** staticStep on every Gaussian, include/RBLMBFilter.hpp:288-297. *)
Definition still (stat : G -> G) (t : track G) : track G := Track (tP t) (map (fun g => (fst g, stat (snd g))) (tG t)).

(** addBirthTracks, propagate and the static step, particle by particle,
    include/RBLMBFilter.hpp:276-332, include/RBCBMeMBerFilter.hpp:280-334. *)
Fixpoint pred_all (inv : Pose -> M -> G) (move : nat -> Pose -> Pose) (stat : G -> G) (keep : bool) (zs : list M) (i : nat) (l : list part)
  (us : list (list (nat * Qc))) : outcome (list part) :=
  match l with
  | [] => Val []
  | p :: r =>
    match us with
    | [] => UB OutOfBounds
    | u :: us' =>
      let* b := born inv zs (ppose p) (rev u) in
      let* d := of_option NullDeref (pdata p) in
      let* r' := pred_all inv move stat keep zs (S i) r us' in
      Val (PT (pid p) (pparent p) (pw p) (move i (ppose p)) (if keep then ppose p :: pprev p else pprev p)
             (Some (map (still stat) (d ++ b))) :: r')
    end
  end.
(** predict, include/RBLMBFilter.hpp:276-300, include/RBCBMeMBerFilter.hpp:280-303. *)
Definition tpredict (inv : Pose -> M -> G) (c : rcfg) (move : nat -> Pose -> Pose) (stat : G -> G) (s : tfilt) : outcome tfilt :=
  let f := rpf (tRb s) in
  let* l := pred_all inv move stat (rkeep c) (tZ s) 0 (pset f) (tSlots s) in
  Val (TF (RB (PF l (effT f) (effPct f)) (rupd (tRb s)) (rmeas (tRb s)) (rocc (tRb s))) (map (fun _ => []) (tSlots s)) (tZ s)).

(** Calls of the user: predict, update with measurements and the draw of the resampling,
    setEffectiveParticleCountThreshold; include/RBLMBFilter.hpp:150-175,
    include/ParticleFilter.hpp:394-399. *)
Inductive tcall :=
| TPredict (move : nat -> Pose -> Pose) (stat : G -> G)
| TUpdate (zs : list M) (u : Qc)
| TThreshold (t : Qc).
(** One call; include/RBLMBFilter.hpp:276-300, 428-512, include/ParticleFilter.hpp:394-399. *)
Definition tdo (one : list M -> Pose -> tmap -> outcome made) (inv : Pose -> M -> G) (c : rcfg) (s : tfilt) (k : tcall) : outcome tfilt :=
  match k with
  | TPredict move stat => tpredict inv c move stat s
  | TUpdate zs u => tupdate one c zs u s
  | TThreshold t =>
    Val (TF (RB (setEffectiveParticleCountThreshold (rpf (tRb s)) t) (rupd (tRb s)) (rmeas (tRb s)) (rocc (tRb s))) (tSlots s) (tZ s))
  end.
(** The calls one after the other; src/rblmbslam2dSim.cpp:560-640. *)
Fixpoint trun (one : list M -> Pose -> tmap -> outcome made) (inv : Pose -> M -> G) (c : rcfg) (s : tfilt) (ks : list tcall) : outcome tfilt :=
  match ks with
  | [] => Val s
  | k :: r => let* s' := tdo one inv c s k in trun one inv c s' r
  end.

(** ** Clean-up after a map update *)
(** mergeGM: merge of every mixture, include/GMBernoulliComponent.hpp:274-279. *)
Definition mergeGM (merge : list (Qc * G) -> list (Qc * G)) (ts : tmap) : tmap := map (fun t => Track (tP t) (merge (tG t))) ts.
(** pruneTracks, include/GMBernoulliComponent.hpp:280-291. *)
Definition pruneTracks (t : Qc) (ts : tmap) : tmap := filter (fun x => negb (Qcltb (tP x) t)) ts.
(** pruneGM: prune of every mixture, include/GMBernoulliComponent.hpp:267-272,
    include/GaussianMixture.hpp:530-573. *)
Definition pruneGM (t : Qc) (ts : tmap) : tmap :=
  map (fun x => Track (tP x) (filter (fun g => negb (Qcltb (fst g) t)) (tG x))) ts.
(** The three in the order of update; include/RBLMBFilter.hpp:466-486,
    include/RBCBMeMBerFilter.hpp:465-485. *)
Definition cleanup (merge : list (Qc * G) -> list (Qc * G)) (trackT gaussT : Qc) (ts : tmap) : tmap :=
  pruneGM gaussT (pruneTracks trackT (mergeGM merge ts)).

(** ** The labelled multi-Bernoulli filter *)
(** The sensor as the map update sees it: probability of detection, Kalman correction with its
    likelihood, clutter intensity, inverse measurement; include/RBLMBFilter.hpp:548-590,
    include/MeasurementModel.hpp:60-170. *)
Record sensor := Sensor { sPd : Pose -> G -> Qc; sCor : Pose -> M -> G -> option (G * Qc); sClut : M -> Qc; sInv : Pose -> M -> G }.
(** Config, include/RBLMBFilter.hpp:88-120. *)
Record lconf := Lconf { cThr : Qc; cMax : Qc; cMin : Qc; cExp : Qc; cTrack : Qc; cGauss : Qc }.
(** Outside functions: components of boost, Murty, merging of a mixture;
    include/RBLMBFilter.hpp:640-655, 714-760, include/GaussianMixture.hpp:408-527. *)
Record outside := Outside { oComp : (nat -> nat -> Z) -> nat -> nat -> (nat -> nat) * nat;
  oBest : nat -> nat -> (nat -> nat -> Qc) -> list (list nat); oMerge : list (Qc * G) -> list (Qc * G) }.

(** updateMap, mergeGM, pruneTracks and pruneGM for one particle, include/RBLMBFilter.hpp:459-486,
    516-884.  A measurement number out of range reads no correction (not reachable). *)
Definition lmb_one (sn : sensor) (cf : lconf) (o : outside) (zs : list M) (x : Pose) (ts : tmap) : outcome made :=
  let cor := fun z g => match nth_error zs z with Some y => sCor sn x y g | None => None end in
  let clut := fun z => match nth_error zs z with Some y => sClut sn y | None => 0%Qc end in
  let vs := in_view (sPd sn x) 0 ts in
  let cc := oComp o (sig (lmbL cor clut (cThr cf) vs)) (length vs) (length zs) in
  let* out := lmb_update (sPd sn x) cor clut (cThr cf) (cMax cf) (cMin cf) (cExp cf) (length zs) (oBest o) (fst cc) (snd cc) ts in
  Val (Made (cleanup (oMerge o) (cTrack cf) (cGauss cf) (lTracks out)) (lBirths out) (lFactor out)).
End Run.
Arguments made : clear implicits.
Arguments tfilt : clear implicits.
Arguments tcall : clear implicits.
Arguments sensor : clear implicits.
Arguments outside : clear implicits.
