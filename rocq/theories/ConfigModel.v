(** Model of the configurations that the constructors of the PHD, LMB and CB-MeMBer filters leave
    behind, and of runs with them: a member that was never set is None, and reading it is the
    outcome Uninit.

    Simplifications.  Those of PhdRunModel, ExactModel and MemberRunModel.  The merging thresholds, the
    thresholds of distances and the numbers of updates and measurements before a resampling are set by
    all constructors (include/RBPHDFilter.hpp:374-383, include/RBLMBFilter.hpp:357-363,
    include/RBCBMeMBerFilter.hpp:356-363) and part of the functions from outside. *)
From Coq Require Import ZArith QArith Qcanon List Bool Arith.
From Verif Require Import Base ListUtil QcLra ParticleModel RbRunModel LmbModel TrackRunModel MemberModel MemberRunModel ExactModel PhdModel WeighModel BirthModel PhdRunModel.
Import ListNotations.
Local Open Scope nat_scope.

(** Reading a member, as in include/RBLMBFilter.hpp:535. *)
Definition rd {A : Type} (x : option A) : outcome A := of_option Uninit x.
(** A number a/b; include/RBLMBFilter.hpp:354-361. *)
Definition num_of (a : Z) (b : positive) : Qc := Q2Qc (a # b).

(** ** LMB *)
(** MeasurementLikelihoodThreshold_, birthTrackMaxPE_, birthTrackMinPE_, expectedBirths_,
    trackPruningThreshold_, gaussianPruningThreshold_; include/RBLMBFilter.hpp:82-118. *)
Record lset := Lset { sThr : option Qc; sMax : option Qc; sMin : option Qc; sExp : option Qc; sTrack : option Qc; sGauss : option Qc }.
(** The constructor, include/RBLMBFilter.hpp:354-363. *)
Definition lmb_ctor : lset :=
  Lset (Some (num_of 1 10000)) (Some (num_of 1 2)) (Some (num_of 1 100)) None (Some (num_of 1 1000)) (Some (num_of 1 5)).
(** Then config.expectedBirths_ = e, src/rblmbslam2dSim.cpp:473. *)
Definition set_births (e : Qc) (c : lset) : lset := Lset (sThr c) (sMax c) (sMin c) (Some e) (sTrack c) (sGauss c).
Section Lmb.
Context {Pose M G : Type}.
(** One particle: without tracks expectedBirths_ is read (include/RBLMBFilter.hpp:532-538), with
    tracks the other two (642, 858-860); then the thresholds for pruning (486-487). *)
Definition lmb_cfg (sn : sensor Pose M G) (c : lset) (o : outside G) (zs : list M) (x : Pose) (ts : list (track G)) : outcome (made G) :=
  let* mx := rd (sMax c) in
  let* q := match ts with
            | [] => let* e := rd (sExp c) in Val (0%Qc, 0%Qc, e)
            | _ => let* thr := rd (sThr c) in let* mn := rd (sMin c) in Val (thr, mn, 0%Qc)
            end in
  let* tr := rd (sTrack c) in
  let* ga := rd (sGauss c) in
  lmb_exact sn (Lconf (fst (fst q)) mx (snd (fst q)) (snd q) tr ga) o zs x ts.
End Lmb.

(** ** CB-MeMBer *)
(** birthTrackPE_, importanceWeightingMeasurementLikelihoodThreshold_, trackPruningThreshold_,
    gaussianPruningThreshold_, and importanceWeightingEvalPointTrackPE_, useClusterProcess_;
    include/RBCBMeMBerFilter.hpp:84-127. *)
Record cset := Cset { uBirth : option Qc; uThr : option Qc; uTrack : option Qc; uGauss : option Qc; uPoint : option Qc; uCluster : option bool }.
(** The constructor, include/RBCBMeMBerFilter.hpp:355-363. *)
Definition cb_ctor : cset := Cset (Some (num_of 1 2)) (Some (num_of 1 10000)) (Some (num_of 1 1000)) (Some (num_of 1 5)) None None.
Section Member.
Context {Pose M G : Type}.
(** One particle: the threshold of likelihoods (include/RBCBMeMBerFilter.hpp:612) is read with
    tracks only; births (328) are counted here as read with the update. *)
Definition cb_cfg (sn : sensor Pose M G) (integral : nat -> Qc) (c : cset) (o : outside G) (zs : list M) (x : Pose) (ts : list (track G)) : outcome (made G) :=
  let* thr := match ts with [] => Val 0%Qc | _ => rd (uThr c) end in
  let* tr := rd (uTrack c) in
  let* ga := rd (uGauss c) in
  let* b := rd (uBirth c) in
  cb_one sn integral (Cconf b thr tr ga) o zs x ts.
End Member.

(** ** PHD *)
(** What the constructor sets (include/RBPHDFilter.hpp:371-383) is in [hconf]; useClusterProcess_ and
    importanceWeightingEvalPointGuassianWeight_ (122, 145) are not set by it. *)
Record hset := Hset { vSet : hconf; vCluster : option bool; vWeight : option Qc }.
(** The constructor, include/RBPHDFilter.hpp:371-383: gate 0.2 squared, birth weight 0.25, 8 points,
    gate 3 squared, thresholds 1, pruning threshold 0.2. *)
Definition phd_ctor : hset :=
  Hset (Hconf (num_of 4 100) (num_of 1 4) (Settings 8 0%Qc (num_of 9 1) false) 1 1 1 (num_of 1 5)) None None.
(** The configuration with the two members filled in; include/RBPHDFilter.hpp:86-151. *)
Definition fill (c : hset) (cl : bool) (we : Qc) : hconf :=
  Hconf (hGate (vSet c)) (hBirthW (vSet c)) (Settings (c_points (hSet (vSet c))) we (c_gate2 (hSet (vSet c))) cl)
    (hCnt (vSet c)) (hChk (vSet c)) (hCur (vSet c)) (hPrune (vSet c)).
(** Both set by the user, include/RBPHDSLAM_2D.hpp:688-692. *)
Definition set_weighting (cl : bool) (we : Qc) (c : hset) : hset := Hset (vSet c) (Some cl) (Some we).
Section Phd.
Context {Pose M T : Type}.
(** All maps are empty: no evaluation point is looked at, include/RBPHDFilter.hpp:739-748. *)
Definition blank (s : hfilt Pose M T) : bool := forallb (fun p => match pdata p with Some (_ :: _) => false | _ => true end) (pset (rpf (hRb s))).
(** One call: update with measurements reads useClusterProcess_ (include/RBPHDFilter.hpp:485) and, if
    it is false, the weight of evaluation points (754); predict reads neither (417-443). *)
Definition hdo_cfg (sn : hsensor Pose M T) (v : hset) (o : houtside T) (g0 : bool) (c : rcfg) (s : hfilt Pose M T) (k : hcall Pose M T) : outcome (hfilt Pose M T) :=
  match k with
  | HUpdate (_ :: _) _ =>
    let* cl := rd (vCluster v) in
    let* we := if cl || blank s then Val 0%Qc else rd (vWeight v) in
    hdo sn (fill v cl we) o g0 c s k
  | _ => hdo sn (fill v false 0%Qc) o g0 c s k
  end.
(** The calls one after the other; include/RBPHDSLAM_2D.hpp:784-880. *)
Fixpoint hrun_cfg (sn : hsensor Pose M T) (v : hset) (o : houtside T) (g0 : bool) (c : rcfg) (s : hfilt Pose M T) (ks : list (hcall Pose M T)) : outcome (hfilt Pose M T) :=
  match ks with
  | [] => Val s
  | k :: r => let* s' := hdo_cfg sn v o g0 c s k in hrun_cfg sn v o g0 c s' r
  end.
End Phd.
