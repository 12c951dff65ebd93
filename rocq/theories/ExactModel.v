(** Model of the update of one particle of the labelled multi-Bernoulli filter with the tracks in the
    order in which pruneTracks leaves them, and with what happens to a track that is copied onto
    itself (include/RBLMBFilter.hpp:459-486).

    Simplifications.  Those of TrackRunModel, except for the order of the tracks. *)
From Coq Require Import ZArith QArith Qcanon List Bool Arith.
From Verif Require Import Base ListUtil QcLra ParticleModel RbRunModel RfsModel LmbModel TrackRunModel MemberRunModel.
Import ListNotations.
Local Open Scope nat_scope.

Section Exact.
Context {Pose M G : Type}.
Notation tmap := (list (track G)).
(** Whether the mixture of a track holds a Gaussian, include/GaussianMixture.hpp:279-295. *)
Definition filled (t : track G) : bool := negb (Nat.eqb (length (tG t)) 0).
(** getP() < t, include/GMBernoulliComponent.hpp:284. *)
Definition below (t : Qc) (x : track G) : bool := Qcltb (tP x) t.
(** updateMap for one particle, include/RBLMBFilter.hpp:516-884.  A measurement number out of range
    reads no correction (not reachable). *)
Definition lmb_raw (sn : sensor Pose M G) (cf : lconf) (o : outside G) (zs : list M) (x : Pose) (ts : tmap) :=
  let cor := fun z g => match nth_error zs z with Some y => sCor sn x y g | None => None end in
  let clut := fun z => match nth_error zs z with Some y => sClut sn y | None => 0%Qc end in
  let vs := in_view (sPd sn x) 0 ts in
  let cc := oComp o (sig (lmbL cor clut (cThr cf) vs)) (length vs) (length zs) in
  lmb_update (sPd sn x) cor clut (cThr cf) (cMax cf) (cMin cf) (cExp cf) (length zs) (oBest o) (fst cc) (snd cc) ts.
(** Then mergeGM, pruneTracks and pruneGM, include/RBLMBFilter.hpp:459-486,
    include/GMBernoulliComponent.hpp:267-291. *)
Definition lmb_exact (sn : sensor Pose M G) (cf : lconf) (o : outside G) (zs : list M) (x : Pose) (ts : tmap) : outcome (made G) :=
  let* out := lmb_raw sn cf o zs x ts in
  let* l := drop filled (below (cTrack cf)) (mergeGM (oMerge o) (lTracks out)) in
  Val (Made (pruneGM (cGauss cf) l) (lBirths out) (lFactor out)).
End Exact.
