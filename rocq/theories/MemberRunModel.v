(** Model of complete runs of the CB-MeMBer filter: update and predict of RBCBMeMBerFilter
    (include/RBCBMeMBerFilter.hpp:280-334, 428-641) with the map update of MemberModel, the
    measurement likelihood of RfsModel, and the moves of tracks within the vector of tracks.

    Simplifications.  Those of TrackRunModel, but the order of the tracks and what happens to a track
    that is copied onto itself are modelled (TracksModel has the memory; the two are compared in
    C198).  A map that would hold a Gaussian with a weight that is infinite or not a number is the
    outcome DivByZero. *)
From Coq Require Import ZArith QArith Qcanon List Bool Arith.
From Verif Require Import Base ListUtil QcLra ParticleModel RbRunModel RfsModel LmbModel MemberModel TrackRunModel.
Import ListNotations.
Local Open Scope nat_scope.

Section Moves.
(** Tracks; which of them hold a Gaussian, have probability zero, are below the pruning threshold;
    include/GMBernoulliComponent.hpp:102-103. *)
Context {A : Type}.
Variables holds zero low : A -> bool.

(** tracks_[s].copyTo(&tracks_[d]), include/GMBernoulliComponent.hpp:123-128.  Onto itself: the
    Gaussians are deleted before they are read, include/GaussianMixture.hpp:279-295 (C08). *)
Definition move (ts : list A) (s d : nat) : outcome (list A) :=
  let* a := of_option OutOfBounds (nth_error ts s) in
  let* b := of_option OutOfBounds (nth_error ts d) in
  if (s =? d) && holds a then UB UseAfterFree else Val (upd ts d a).

(** The loop over the measurements, include/RBCBMeMBerFilter.hpp:631-639; [unused] is
    unused_measurements_[i], its length num_unused. *)
Fixpoint squeeze_loop (ts : list A) (nM nZ : nat) (zs unused : list nat) : outcome (list A * list nat) :=
  match zs with
  | [] => Val (ts, unused)
  | z :: r =>
    let* x := of_option OutOfBounds (nth_error ts (nM + z)) in
    if zero x then
      let* ts' := move ts (nM + nZ - 1 - length unused) (nM + z) in
      squeeze_loop ts' nM nZ r (unused ++ [z])
    else squeeze_loop ts nM nZ r unused
  end.
(** With the final resize, include/RBCBMeMBerFilter.hpp:629-640. *)
Definition squeeze (ts : list A) (nM nZ : nat) : outcome (list A * list nat) :=
  let* r := squeeze_loop ts nM nZ (seq 0 nZ) [] in
  Val (firstn (nM + nZ - length (snd r)) (fst r), snd r).

(** Loop of pruneTracks, include/GMBernoulliComponent.hpp:283-288: the body for i-1, i-2, ... *)
Fixpoint drop_loop (ts : list A) (i pruned : nat) : outcome (list A * nat) :=
  match i with
  | O => Val (ts, pruned)
  | S i' =>
    let* x := of_option OutOfBounds (nth_error ts i') in
    if low x then
      let* ts' := move ts (length ts - 1 - pruned) i' in
      drop_loop ts' i' (S pruned)
    else drop_loop ts i' pruned
  end.
(** pruneTracks, include/GMBernoulliComponent.hpp:280-291. *)
Definition drop (ts : list A) : outcome (list A) :=
  let* r := drop_loop ts (length ts) 0 in
  Val (firstn (length (fst r) - snd r) (fst r)).
End Moves.

Section Run.
Context {Pose M G : Type}.
Notation tmap := (list (track G)).

(** Config, include/RBCBMeMBerFilter.hpp:88-125: probability of births, threshold of likelihoods,
    thresholds for tracks and Gaussians. *)
Record cconf := Cconf { bBirth : Qc; bThr : Qc; bTrack : Qc; bGauss : Qc }.

(** A legacy track among the new ones; include/RBCBMeMBerFilter.hpp:549. *)
Definition as_new (t : track G) : @new_track G := New (tP t) (Some (tG t)).
(** Whether a track holds a Gaussian, include/GaussianMixture.hpp:279-295. *)
Definition new_holds (t : @new_track G) : bool := match n_G t with Some [] => false | _ => true end.
(** getP() == 0, include/RBCBMeMBerFilter.hpp:634. *)
Definition new_zero (t : @new_track G) : bool := if Qc_eq_dec (n_P t) 0%Qc then true else false.
(** Back to tracks whose weights are numbers; include/RBCBMeMBerFilter.hpp:640. *)
Fixpoint numbers (l : list (@new_track G)) : outcome tmap :=
  match l with
  | [] => Val []
  | t :: r =>
    let* g := of_option DivByZero (n_G t) in
    let* r' := numbers r in
    Val (Track (n_P t) g :: r')
  end.

(** L[m][z], include/RBCBMeMBerFilter.hpp:595-615. *)
Definition cb_L (cor : nat -> G -> option (G * Qc)) (thr : Qc) (vs : list (@seen_track G)) (m z : nat) : Qc :=
  match nth_error vs m with
  | Some s => let rho := fst (fold_left (one_gauss cor s z) (s_g s) (0%Qc, [])) in if Qcltb thr rho then rho else 0%Qc
  | None => 0%Qc
  end.
(** tracksInFovPd[m], include/RBCBMeMBerFilter.hpp:571-575. *)
Definition cb_pds (vs : list (@seen_track G)) (m : nat) : Qc := match nth_error vs m with Some s => s_pd s | None => 0%Qc end.

(** updateMap with the importance weight, include/RBCBMeMBerFilter.hpp:514-648: the map, the unused
    measurements and the factor of the weight.  A measurement number out of range reads no correction
    (not reachable). *)
Definition cb_update (sn : sensor Pose M G) (integral : nat -> Qc) (cf : cconf) (o : outside G) (zs : list M) (x : Pose) (ts : tmap)
  : outcome (tmap * list nat * Qc) :=
  let nZ := length zs in
  let cor := fun z g => match nth_error zs z with Some y => sCor sn x y g | None => None end in
  let clut := fun z => match nth_error zs z with Some y => sClut sn y | None => 0%Qc end in
  match ts with
  | [] => Val ([], seq 0 nZ, 1%Qc)
  | _ =>
    let* q := legacies (sPd sn x) ts in
    let* l := all_meas cor clut (snd q) (seq 0 nZ) in
    let* r := squeeze new_holds new_zero (map as_new (fst q) ++ l) (length ts) nZ in
    let L := cb_L cor (bThr cf) (snd q) in
    let cc := oComp o (sig L) (length (snd q)) nZ in
    let* w := rfs_likelihood L (cb_pds (snd q)) clut 8 (oBest o) (fst cc) (snd cc) (integral nZ) (length (snd q)) nZ in
    let* m := numbers (fst r) in
    Val (m, snd r, w)
  end.

(** One particle in update, include/RBCBMeMBerFilter.hpp:455-491: updateMap, mergeGM, pruneTracks,
    pruneGM; births get birthTrackPE_ (327). *)
Definition cb_one (sn : sensor Pose M G) (integral : nat -> Qc) (cf : cconf) (o : outside G) (zs : list M) (x : Pose) (ts : tmap)
  : outcome (made G) :=
  let* u := cb_update sn integral cf o zs x ts in
  let* l := drop (fun t => negb (Nat.eqb (length (tG t)) 0)) (fun t => Qcltb (tP t) (bTrack cf)) (mergeGM (oMerge o) (fst (fst u))) in
  Val (Made (pruneGM (bGauss cf) l) (map (fun z => (z, bBirth cf)) (snd (fst u))) (snd u)).
End Run.
