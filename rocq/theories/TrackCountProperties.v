(** Numbers of tracks of the LMB and CB-MeMBer filters. *)
From Coq Require Import ZArith QArith Qcanon List Bool Arith Lia.
From Verif Require Import Base QcLra ParticleModel RbRunModel LmbModel MemberModel TrackRunModel TrackLifeSpec TrackRunProperties MemberRunModel MemberRunProperties ExactModel ExactProperties
  TrackOriginProperties TrackCountSpec TrackCountProofs.
Import ListNotations.
Local Open Scope Qc_scope.

(** ** C205: no particle has more tracks than measurements were received.  True of the LMB filter, in every run. *)
Theorem C205_lmb_partial : forall {Pose M G} (sn : sensor Pose M G) cf o c n x0 ks s,
  trun (lmb_exact sn cf o) (sInv sn) c (tf_new n x0) ks = Val s ->
  forall p ts, In p (pset (rpf (tRb s))) -> pdata p = Some ts -> (length ts <= told ks)%nat.
Proof.
  intros Pose M G sn cf o c n x0 ks s H p ts Hp Ep. assert (Q := track_count 0 _ (exact_few sn cf o) (sInv sn) c n x0 ks s H p ts Hp Ep). rewrite Nat.mul_1_l in Q. exact Q.
Qed.
Print Assumptions C205_lmb_partial.
(** CB-MeMBer: in every run twice as many at most, and as claimed if no update resamples. *)
Theorem C205_member_partial : forall {Pose M G} (sn : sensor Pose M G) integral cf o c n x0 ks s,
  trun (cb_one sn integral cf o) (sInv sn) c (tf_new n x0) ks = Val s ->
  forall p ts, In p (pset (rpf (tRb s))) -> pdata p = Some ts -> (length ts <= 2 * told ks)%nat.
Proof. intros Pose M G sn integral cf o c n x0 ks s. exact (track_count 1 _ (cb_few1 sn integral cf o) (sInv sn) c n x0 ks s). Qed.
Print Assumptions C205_member_partial.
Theorem C205_calm_partial : forall {Pose M G} (sn : sensor Pose M G) integral cf o c n x0 ks s,
  trun (cb_one sn integral cf o) (sInv sn) c (tf_new n x0) ks = Val s ->
  Forall (fun e => snd e = false) (tlog (cb_one sn integral cf o) (sInv sn) c (tf_new n x0) ks) ->
  forall p ts, In p (pset (rpf (tRb s))) -> pdata p = Some ts -> (length ts <= told ks)%nat.
Proof. exact @cb_count. Qed.
Print Assumptions C205_calm_partial.

(** Both bounds are met with equality. *)
Definition tracks_of (s : tfilt nat nat nat) : list nat := map (fun p => match pdata p with Some ts => length ts | None => 0%nat end) (pset (rpf (tRb s))).
Example C205_ex : told ox_calls = 3%nat /\
  omap tracks_of (trun (lmb_exact cx_sn (TrackRunProperties.ex_cf 0) TrackRunProperties.ex_o) (sInv cx_sn) (RC 1 None true) (tf_new 2 0%nat) ox_calls) = Val [3; 3]%nat /\
  omap tracks_of (trun (cb_one cx_sn cx_int (cx_cf (cfrac 1 1000)) cx_o) (sInv cx_sn) (RC 1 None true) (tf_new 2 0%nat) ox_calls) = Val [3; 3]%nat /\
  map snd (tlog (cb_one cx_sn cx_int (cx_cf (cfrac 1 1000)) cx_o) (sInv cx_sn) (RC 1 None true) (tf_new 2 0%nat) ox_calls) = [false; false; false; false; false].
Proof. repeat split; vm_compute; reflexivity. Qed.

(** A measurement that fits the map of particle 0 only becomes a track there and waits for a birth in slot 1; after a resampling
    slot 1 has the map of particle 0, with that track, and the birth of its own: two measurements, three tracks. *)
Definition split_sn : sensor nat nat nat :=
  Sensor (fun _ _ => cfrac 9 10) (fun x z g => if Nat.eqb z g && Nat.eqb x 0 then Some (g, cfrac 50 1) else None) (fun _ => 1) (fun _ z => z).
Definition split_calls : list (tcall nat nat nat) :=
  [TThreshold (cfrac 3 1); TUpdate [5%nat] (cfrac 1 3); TPredict (fun i x => (x + i)%nat) (fun g => g); TUpdate [5%nat] (cfrac 1 3); TPredict (fun i x => x) (fun g => g)].
Theorem C205_refuted : exists s, trun (cb_one split_sn cx_int (cx_cf (cfrac 1 1000)) cx_o) (sInv split_sn) (RC 1 None true) (tf_new 2 0%nat) split_calls = Val s /\
  told split_calls = 2%nat /\ tracks_of s = [2; 3]%nat.
Proof.
  destruct (trun (cb_one split_sn cx_int (cx_cf (cfrac 1 1000)) cx_o) (sInv split_sn) (RC 1 None true) (tf_new 2 0%nat) split_calls) as [s| |] eqn:E; [|vm_compute in E; discriminate E|vm_compute in E; discriminate E].
  exists s. split; [reflexivity|]. split; [reflexivity|].
  assert (Q : omap tracks_of (trun (cb_one split_sn cx_int (cx_cf (cfrac 1 1000)) cx_o) (sInv split_sn) (RC 1 None true) (tf_new 2 0%nat) split_calls) = Val [2; 3]%nat) by (vm_compute; reflexivity).
  rewrite E in Q. cbn [omap] in Q. injection Q as Q. exact Q.
Qed.
Print Assumptions C205_refuted.
