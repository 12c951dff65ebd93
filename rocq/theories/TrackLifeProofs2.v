(** Lives of the particles of the labelled multi-Bernoulli filter. *)
From Coq Require Import ZArith QArith Qcanon List Bool Arith Lia.
From Verif Require Import Base QcLra ParticleModel RbRunModel LmbModel LmbSpec TrackRunModel TrackRunSpec TrackRunProofs TrackRunProofs2 TrackLifeSpec TrackLifeProofs.
Import ListNotations.
Local Open Scope Qc_scope.

Theorem lmb_lived : forall {Pose M G : Type} (sn : sensor Pose M G) cf o, sensor_sound sn -> conf_sound cf -> outside_sound o ->
  forall c n x0 t ks, (0 < n)%nat -> draws_ok ks -> calm false ks ->
  exists s, trun (lmb_one sn cf o) (sInv sn) c (tf_new n x0) (TThreshold t :: ks) = Val s /\
  lived (lmb_one sn cf o) (sInv sn) c n x0 (tlog (lmb_one sn cf o) (sInv sn) c (tf_new n x0) (TThreshold t :: ks)) s.
Proof.
  intros Pose M G sn cf o Hsn Hcf Ho c n x0 t ks.
  apply run_lived with (Mp := Forall (kept_track (cGauss cf))) (B := fun pe => 0 <= pe <= 1); [now apply lmb_one_ok|apply next_kept|constructor].
Qed.
