(** Model of complete runs of the PHD filter: predict and update of RBPHDFilter
    (include/RBPHDFilter.hpp:417-543) with the map update of PhdModel, the particle weighting of
    WeighModel and the births of BirthModel in place of the functions left open in RbRunModel.

    Simplifications.  One thread, timers left out.  Maps are lists of landmarks with weights; the
    memory they live in is the subject of GMModel.  Every map update starts with new weighting
    tables instead of the ones left by the last (the result does not depend on them, C40).  Merging
    of a mixture, Kalman correction, the sensor, the sort, the components of boost and Murty's
    assignments are functions given from outside. *)
From Coq Require Import ZArith QArith Qcanon List Bool Arith.
From Verif Require Import Base ListUtil QcLra ParticleModel RbRunModel PhdModel WeighModel BirthModel.
Import ListNotations.
Local Open Scope nat_scope.

Section Run.
(** Poses, measurements, landmarks; template parameters of include/RBPHDFilter.hpp:66-73. *)
Context {Pose M T : Type}.
Notation hmap := (list (T * Qc)).
Notation part := (particle Pose hmap).

(** The sensor as the filter sees it: probability of detection with the close-to-limit flag, Kalman
    correction with likelihood and squared Mahalanobis distance, likelihood and distance for the
    expected measurement alone, clutter intensity and its integral, inverse measurement, whether a
    measurement supports a birth candidate and the correction of that;
    include/RBPHDFilter.hpp:600-640, 792, 852-860, 646, 998, 1031-1050. *)
Record hsensor := Hsensor { hPd : Pose -> T -> Qc * bool; hCor : Pose -> T -> M -> Qc * Qc * T; hMeas : Pose -> T -> M -> Qc * Qc;
  hLik : T -> T -> Qc; hClut : M -> nat -> Qc; hInt : nat -> Qc; hInv : Pose -> M -> T; hNear : Pose -> T -> M -> bool; hSup : Pose -> T -> M -> T }.
(** Config, include/RBPHDFilter.hpp:86-151: gate of the map update, birth weight, weighting, birth
    thresholds, pruning threshold. *)
Record hconf := Hconf { hGate : Qc; hBirthW : Qc; hSet : settings; hCnt : nat; hChk : nat; hCur : nat; hPrune : Qc }.
(** Outside functions: denorm_min, exp, components of boost, Murty, std::sort by weight, merging;
    include/RBPHDFilter.hpp:568, 670, 745, 812, 870-890, include/GaussianMixture.hpp:408-527. *)
Record houtside := Houtside { xTiny : Qc; xExp : Qc -> Qc; xComp : (nat -> nat -> Z) -> nat -> nat -> (nat -> nat) * nat;
  xBest : nat -> nat -> (nat -> nat -> Qc) -> list (list nat); xSort : list (gauss T) -> list (gauss T); xMerge : hmap -> hmap }.

Variable sn : hsensor.
Variable cf : hconf.
Variable o : houtside.

(** What the map update, the weighting, merge and prune make of one particle: map, weight,
    unused_measurements_ and nLandmarksInFOV_; include/RBPHDFilter.hpp:476-517. *)
Record hmade := Hmade { nMap : hmap; nW : num; nUnused : list nat; nFov : nat }.

(** prune, include/GaussianMixture.hpp:530-573; the order in which it leaves the Gaussians is not
    modelled. *)
Definition hprune (t : Qc) (mix : hmap) : hmap := filter (fun g => negb (Qcltb (snd g) t)) mix.

(** One particle in update, include/RBPHDFilter.hpp:476-517; a weight that is not a number stays so
    unless importanceWeighting overwrites it (736-739).  A measurement number out of range reads
    nothing (not reachable). *)
Definition phd_one (zs : list M) (x : Pose) (mix : hmap) (w : num) : outcome hmade :=
  let nZ := length zs in
  let cor := fun lm z => match nth_error zs z with Some y => hCor sn x lm y | None => (0%Qc, 0%Qc, lm) end in
  let mea := fun lm z => match nth_error zs z with Some y => hMeas sn x lm y | None => (0%Qc, 0%Qc) end in
  let clut := fun z => match nth_error zs z with Some y => hClut sn y nZ | None => 0%Qc end in
  let* r := updateMap T (hPd sn x) cor clut (hGate cf) (hBirthW cf) (xTiny o) (xExp o) (c_cluster (hSet cf)) (tables_new T) mix nZ in
  let done := fun m w' => Val (Hmade (hprune (hPrune cf) (xMerge o m)) w' (runused T r) (rfov T r)) in
  if c_cluster (hSet cf) then done (rmix T r) (nmul (Some (rweight T r)) w)
  else
    let l := with_prev T (rmix T r) mix in
    let* s := importance T (hPd sn x) mea (hLik sn) clut (hInt sn nZ) (xTiny o) (xExp o) (xBest o) (xComp o) (xSort o) (hSet cf) nZ l
                (match w with Some q => q | None => 0%Qc end) in
    done (map (fun g => (g_lm g, g_w g)) (fst s))
      (match w with Some _ => Some (snd s) | None => if (eval_count (c_points (hSet cf)) (length l) =? 0)%Z then Some (snd s) else None end).

(** unused_measurements_, birthGaussians_ and nLandmarksInFOV_ of a slot,
    include/RBPHDFilter.hpp:256-273. *)
Record hslot := Hslot { lUnused : list nat; lCands : list (cand (option T)); lFov : nat }.
(** The state: particles and counters, slots, measurements_; include/RBPHDFilter.hpp:250-277,
    include/ParticleFilter.hpp:203. *)
Record hfilt := HF { hRb : rbf Pose hmap; hSlots : list hslot; hZ : list M }.
(** Constructor, include/RBPHDFilter.hpp:349-398. *)
Definition hf_new (n : nat) (x0 : Pose) : hfilt := HF (rb_new n x0 []) (repeat (Hslot [] [] 0) n) [].

(** The loops over the particles in update, include/RBPHDFilter.hpp:476-517. *)
Fixpoint hupd_all (zs : list M) (l : list part) (ss : list hslot) : outcome (list part * list hslot) :=
  match l with
  | [] => Val ([], [])
  | p :: r =>
    match ss with
    | [] => UB OutOfBounds
    | s :: ss' =>
      let* d := of_option NullDeref (pdata p) in
      let* m := phd_one zs (ppose p) d (pw p) in
      let* q := hupd_all zs r ss' in
      Val (PT (pid p) (pparent p) (nW m) (ppose p) (pprev p) (Some (nMap m)) :: fst q, Hslot (nUnused m) (lCands s) (nFov m) :: snd q)
    end
  end.

(** update, include/RBPHDFilter.hpp:446-543. *)
Definition hupdate (c : rcfg) (zs : list M) (u : Qc) (s : hfilt) : outcome hfilt :=
  let f := rpf (hRb s) in
  match zs with
  | [] => Val (HF (RB f (S (rupd (hRb s))) (rmeas (hRb s)) (rocc (hRb s))) (hSlots s) [])
  | _ =>
    let* r := hupd_all zs (pset f) (hSlots s) in
    let* b := finish c u (RB (PF (fst r) (effT f) (effPct f)) (S (rupd (hRb s))) (rmeas (hRb s) + length zs) (rocc (hRb s))) in
    Val (HF b (snd r) zs)
  end.

(** A slot as BirthModel has it, include/RBPHDFilter.hpp:256-273, 1009; candidates are of type
    option T, None for a landmark made from nothing (not reachable). *)
Definition as_slot (s : hslot) (p : part) : slot (option T) := SL (option T) (lUnused s) (lCands s) (lFov s) [] (pparent p).
(** addBirthGaussians, include/RBPHDFilter.hpp:1004-1088; [g0] is what the uninitialised
    resampleOccured_ (277) holds before the first update with measurements. *)
Definition hbirths (g0 : bool) (s : hfilt) : outcome (list (slot (option T))) :=
  let l := pset (rpf (hRb s)) in
  let zs := hZ s in
  let near := fun i lm z => match nth_error l i, lm, nth_error zs z with Some p, Some m, Some y => hNear sn (ppose p) m y | _, _, _ => false end in
  let corr := fun i lm z => match nth_error l i, lm, nth_error zs z with Some p, Some m, Some y => Some (hSup sn (ppose p) m y) | _, _, _ => lm end in
  let inv := fun i z => match nth_error l i, nth_error zs z with Some p, Some y => Some (hInv sn (ppose p) y) | _, _ => None end in
  addBirthGaussians (option T) near corr inv (hCnt cf) (hChk cf) (hCur cf) (match rocc (hRb s) with Some b => b | None => g0 end)
    (length zs) (zip as_slot (hSlots s) l).
(** The Gaussians added to a map, include/RBPHDFilter.hpp:1055, 1073-1075. *)
Fixpoint newborns (l : list (option T)) : outcome hmap :=
  match l with
  | [] => Val []
  | b :: r => let* lm := of_option OutOfBounds b in let* r' := newborns r in Val ((lm, hBirthW cf) :: r')
  end.
(** Births of every particle, motion and static step, include/RBPHDFilter.hpp:426-440,
    include/ParticleFilter.hpp:330-352. *)
Fixpoint hpred_all (move : nat -> Pose -> Pose) (stat : T -> T) (keep : bool) (i : nat) (l : list part) (bs : list (list (option T))) : outcome (list part) :=
  match l with
  | [] => Val []
  | p :: r =>
    match bs with
    | [] => UB OutOfBounds
    | b :: bs' =>
      let* d := of_option NullDeref (pdata p) in
      let* nb := newborns b in
      let* r' := hpred_all move stat keep (S i) r bs' in
      Val (PT (pid p) (pparent p) (pw p) (move i (ppose p)) (if keep then ppose p :: pprev p else pprev p)
             (Some (map (fun g => (stat (fst g), snd g)) (d ++ nb))) :: r')
    end
  end.
(** predict, include/RBPHDFilter.hpp:417-443; [check] is birthGaussianCheck. *)
Definition hpredict (g0 : bool) (c : rcfg) (check : bool) (move : nat -> Pose -> Pose) (stat : T -> T) (s : hfilt) : outcome hfilt :=
  let f := rpf (hRb s) in
  let* bs := if check then hbirths g0 s else Val (zip as_slot (hSlots s) (pset f)) in
  let* l := hpred_all move stat (rkeep c) 0 (pset f) (map (fun b => sadded (option T) b) bs) in
  Val (HF (RB (PF l (effT f) (effPct f)) (rupd (hRb s)) (rmeas (hRb s)) (rocc (hRb s)))
          (map (fun b => Hslot (sunused (option T) b) (scands (option T) b) (sfov (option T) b)) bs) (hZ s)).

(** Calls of the user: predict, update with measurements and the draw of the resampling,
    setEffectiveParticleCountThreshold; include/RBPHDFilter.hpp:209-222,
    include/ParticleFilter.hpp:394-399. *)
Inductive hcall :=
| HPredict (check : bool) (move : nat -> Pose -> Pose) (stat : T -> T)
| HUpdate (zs : list M) (u : Qc)
| HThreshold (t : Qc).
(** One call; include/RBPHDFilter.hpp:417-543, include/ParticleFilter.hpp:394-399. *)
Definition hdo (g0 : bool) (c : rcfg) (s : hfilt) (k : hcall) : outcome hfilt :=
  match k with
  | HPredict check move stat => hpredict g0 c check move stat s
  | HUpdate zs u => hupdate c zs u s
  | HThreshold t =>
    Val (HF (RB (setEffectiveParticleCountThreshold (rpf (hRb s)) t) (rupd (hRb s)) (rmeas (hRb s)) (rocc (hRb s))) (hSlots s) (hZ s))
  end.
(** The calls one after the other; include/RBPHDSLAM_2D.hpp:784-880. *)
Fixpoint hrun (g0 : bool) (c : rcfg) (s : hfilt) (ks : list hcall) : outcome hfilt :=
  match ks with
  | [] => Val s
  | k :: r => let* s' := hdo g0 c s k in hrun g0 c s' r
  end.
End Run.
Arguments hsensor : clear implicits.
Arguments houtside : clear implicits.
Arguments hmade : clear implicits.
Arguments hslot : clear implicits.
Arguments hfilt : clear implicits.
Arguments hcall : clear implicits.
