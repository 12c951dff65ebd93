(** C194: particles of the labelled multi-Bernoulli filter, one by one. *)
From Coq Require Import ZArith QArith Qcanon List Bool Arith Lia.
From Verif Require Import Base QcLra ParticleModel RbRunModel RfsSpec LmbModel LmbSpec TrackRunModel TrackRunSpec TrackRunProofs2 TrackRunProperties TrackLifeSpec TrackLifeProofs TrackLifeProofs2.
Import ListNotations.
Local Open Scope Qc_scope.

(** C194.  After any calls every particle is the result of a life of its own: updates with measurements replace its
    tracks by what the map update makes of its own pose and tracks and multiply its weight by the likelihood factor;
    predict adds the births waiting in its slot, as seen from its own pose before the motion, then moves the particle and
    its tracks; a resampling puts a copy of it, with weight one, into another slot, where the births of the particle that
    was there before are waiting.  The weights are those of the lives up to one common factor. *)
Theorem C194_life : forall {Pose M G : Type} (sn : sensor Pose M G) cf o, sensor_sound sn -> conf_sound cf -> outside_sound o ->
  forall c n x0 t ks, (0 < n)%nat -> draws_ok ks -> calm false ks ->
  exists s, trun (lmb_one sn cf o) (sInv sn) c (tf_new n x0) (TThreshold t :: ks) = Val s /\
  lived (lmb_one sn cf o) (sInv sn) c n x0 (tlog (lmb_one sn cf o) (sInv sn) c (tf_new n x0) (TThreshold t :: ks)) s.
Proof. exact @lmb_lived. Qed.
Print Assumptions C194_life.

(** Every run, with any map update, is a run of the filters of RbRunModel, so that C188 to C191 hold for it. *)
Theorem C194_refines : forall {Pose M G : Type} (one : list M -> Pose -> list (track G) -> outcome (made G)) inv c ks s s',
  trun one inv c s ks = Val s' -> exists rs, Forall2 same_call ks rs /\ rrun c (tRb s) rs = Val (tRb s').
Proof. exact @run_rrun. Qed.
Print Assumptions C194_refines.

(** Two particles, a threshold that makes every update resample: a birth for each slot, a motion, an update with two
    measurements, a motion. *)
Definition ex_calls : list (tcall nat nat nat) := [look [1]; go; look [2; 3]; go]%nat.
Definition ex_always := trun (lmb_one (ex_sn (frac 1 2)) (ex_cf 0) ex_o) (sInv (ex_sn (frac 1 2))) (RC 1 None true) (tf_new 2 100%nat) (TThreshold (frac 3 1) :: ex_calls).
Example C194_ex : draws_ok ex_calls /\ calm false ex_calls /\
  map snd (tlog (lmb_one (ex_sn (frac 1 2)) (ex_cf 0) ex_o) (sInv (ex_sn (frac 1 2))) (RC 1 None true) (tf_new 2 100%nat) (TThreshold (frac 3 1) :: ex_calls)) =
    [false; true; false; true; false] /\
  omap (fun s => (shown s, map (fun p => (ppose p, pprev p)) (pset (rpf (tRb s))))) ex_always =
  Val ([([(5 # 7, [(1 # 5, 101%nat); (2 # 5, 213%nat); (2 # 5, 214%nat)]); (1 # 2, [(1, 113%nat)]); (1 # 2, [(1, 112%nat)])], Some 1);
        ([(5 # 7, [(1 # 5, 101%nat); (2 # 5, 223%nat); (2 # 5, 224%nat)]); (1 # 2, [(1, 123%nat)]); (1 # 2, [(1, 122%nat)])], Some 1)]%Q,
    [(120, [110; 100]); (140, [120; 100])]%nat).
Proof.
  split; [|split; [cbn; tauto|split; vm_compute; reflexivity]].
  intros zs u [E|[E|[E|[E|[]]]]]; inversion E; subst; (split; [discriminate|reflexivity]).
Qed.
