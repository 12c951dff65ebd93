(** Tracks in order: C200; lives of the particles of the CB-MeMBer filter: C201. *)
From Coq Require Import ZArith QArith Qcanon List Bool Arith Lia Permutation.
From Verif Require Import Base QcLra ParticleModel RbRunModel PermanentSpec PartitionSpec PartitionRef RfsSpec RfsKbest LmbModel LmbSpec TrackRunModel TrackRunSpec TrackRunProofs2 TrackRunProperties
  TrackLifeSpec MemberModel MemberSpec MemberRunModel MemberRunSpec MemberRunProperties ExactModel ExactSpec ExactProofs ExactProofs2.
Import ListNotations.
Local Open Scope Qc_scope.

(** C200.  Pruning in place, for lists of anything: it is undefined exactly if some track that holds a Gaussian and all tracks
    behind it are to be removed; otherwise exactly the other tracks are left, in some order. *)
Theorem C200_drop_partial : forall {A : Type} (holds low : A -> bool) ts,
  (exists r, drop holds low ts = Val r /\ Permutation r (filter (fun x => negb (low x)) ts) /\ ~ doomed holds low ts) \/
  (drop holds low ts = UB UseAfterFree /\ doomed holds low ts).
Proof. exact @drop_perm. Qed.
Print Assumptions C200_drop_partial.
(** The update of one particle: undefined exactly if the merged map is of that kind, otherwise the result of C192 in another order. *)
Theorem C200_update_partial : forall {Pose M G : Type} (sn : sensor Pose M G) cf o, sensor_sound sn -> conf_sound cf -> outside_sound o ->
  forall zs x ts, zs <> [] -> Forall (kept_track (cGauss cf)) ts -> exists out m,
  lmb_raw sn cf o zs x ts = Val out /\ lmb_one sn cf o zs x ts = Val m /\
  (lmb_exact sn cf o zs x ts = UB UseAfterFree <-> doomed filled (below (cTrack cf)) (mergeGM (oMerge o) (lTracks out))) /\
  (lmb_exact sn cf o zs x ts = UB UseAfterFree \/
   exists m', lmb_exact sn cf o zs x ts = Val m' /\ Permutation (mMap m') (mMap m) /\ mBirths m' = mBirths m /\ mFactor m' = mFactor m).
Proof. exact @exact_update. Qed.
Print Assumptions C200_update_partial.
(** Runs: undefined in this way, which needs a positive threshold for tracks, or defined, with valid maps and a life of its own
    for every particle.
    Missing: the first case (C200_refuted). *)
Theorem C200_run_partial : forall {Pose M G : Type} (sn : sensor Pose M G) cf o, sensor_sound sn -> conf_sound cf -> outside_sound o ->
  forall c n x0 t ks, (0 < n)%nat -> draws_ok ks -> calm false ks ->
  (exists s, trun (lmb_exact sn cf o) (sInv sn) c (tf_new n x0) (TThreshold t :: ks) = Val s /\ length (pset (rpf (tRb s))) = n /\ all_maps (Forall fair) s /\
     lived (lmb_exact sn cf o) (sInv sn) c n x0 (tlog (lmb_exact sn cf o) (sInv sn) c (tf_new n x0) (TThreshold t :: ks)) s) \/
  (0 < cTrack cf /\ trun (lmb_exact sn cf o) (sInv sn) c (tf_new n x0) (TThreshold t :: ks) = UB UseAfterFree).
Proof. exact @exact_run. Qed.
Print Assumptions C200_run_partial.

(** C201.  After any calls that are defined every particle of the CB-MeMBer filter is the result of a life of its own (C194). *)
Theorem C201_life : forall {Pose M G : Type} (sn : sensor Pose M G) integral cf o,
  csensor_sound sn integral -> coutside_sound o -> 0 < bBirth cf < 1 ->
  forall c n x0 t ks s, (0 < n)%nat -> draws_ok ks -> calm false ks ->
  trun (cb_one sn integral cf o) (sInv sn) c (tf_new n x0) (TThreshold t :: ks) = Val s ->
  lived (cb_one sn integral cf o) (sInv sn) c n x0 (tlog (cb_one sn integral cf o) (sInv sn) c (tf_new n x0) (TThreshold t :: ks)) s.
Proof. exact @cb_lived. Qed.
Print Assumptions C201_life.

(** ** Examples *)
(** Odd numbers are removed; numbers from 100 hold nothing. *)
Example C200_drop_ex : drop (fun x => Nat.ltb x 100) Nat.odd [1; 2; 3; 4; 6; 101]%nat = Val [4; 2; 6]%nat /\
  drop (fun x => Nat.ltb x 100) Nat.odd [1; 2; 3; 4; 5; 101]%nat = UB UseAfterFree.
Proof. split; vm_compute; reflexivity. Qed.
Lemma cx_sound : sensor_sound cx_sn.
Proof.
  split; [intros x g; split; [discriminate|reflexivity]|]. split; [|intros z; reflexivity].
  intros x z g g' l. cbn. destruct (Nat.eqb z g); [|discriminate]. intros E. injection E as _ <-. discriminate.
Qed.
Definition lx_map : list (track nat) := [Track (cfrac 1 2000) [(1, 1%nat)]; Track (cfrac 1 2) [(1, 2%nat)]; Track (cfrac 1 2) [(1, 3%nat)]].
Example C200_update_ex : Forall (kept_track (cGauss (ex_cf 0))) lx_map /\
  omap (fun m => map (fun t => (this (tP t), map snd (tG t))) (mMap m)) (lmb_exact cx_sn (ex_cf 0) ex_o [2%nat] 0%nat lx_map) =
    Val [(1 # 11, [3%nat]); (19 # 29, [2; 2]%nat)]%Q /\
  omap (fun m => map (fun t => (this (tP t), map snd (tG t))) (mMap m)) (lmb_one cx_sn (ex_cf 0) ex_o [2%nat] 0%nat lx_map) =
    Val [(19 # 29, [2; 2]%nat); (1 # 11, [3%nat])]%Q /\
  lmb_exact cx_sn (ex_cf 0) ex_o [2%nat] 0%nat (rev lx_map) = UB UseAfterFree.
Proof.
  split; [|split; [|split]]; try (vm_compute; reflexivity).
  assert (K : forall p g, 0 <= p <= 1 -> kept_track (cGauss (ex_cf 0)) (Track p [(1, g)] : track nat)) by (intros p g H; now apply born_kept).
  constructor; [|constructor; [|constructor; [|constructor]]]; apply K; split; discriminate.
Qed.
Definition lx_run (n : nat) (ks : list (tcall nat nat nat)) :=
  trun (lmb_exact cx_sn (ex_cf 0) ex_o) (sInv cx_sn) (RC 1 None true) (tf_new n 0%nat) (TThreshold 1 :: ks).
Example C200_run_ex : draws_ok [clook [1]; cgo; clook [1; 2]; cgo]%nat /\ calm false [clook [1]; cgo; clook [1; 2]; cgo]%nat /\
  omap (fun s => map (fun p => (option_map (map (fun t => (this (tP t), map snd (tG t)))) (pdata p), ppose p)) (pset (rpf (tRb s)))) (lx_run 2 [clook [1]; cgo; clook [1; 2]; cgo]%nat) =
  Val [(Some [(19 # 29, [1; 1]%nat); (1 # 2, [2%nat]); (1 # 10, [1%nat])], 2%nat); (Some [(19 # 29, [1; 1]%nat); (1 # 2, [2%nat]); (1 # 10, [1%nat])], 4%nat)]%Q.
Proof.
  split; [|split; [cbn; tauto|vm_compute; reflexivity]]. apply cx_draws. intros zs u [E|[E|[E|[E|[]]]]]; inversion E; reflexivity.
Qed.
(** With the default thresholds, a track is born, three updates miss it, and pruning it reads deleted Gaussians. *)
Theorem C200_refuted : exists ks, sensor_sound cx_sn /\ conf_sound (ex_cf 0) /\ outside_sound ex_o /\ draws_ok ks /\ calm false ks /\
  lx_run 1 ks = UB UseAfterFree.
Proof.
  exists [clook [1]; cgo; clook [2]; clook [3]; clook [4]]%nat. split; [apply cx_sound|]. split; [apply ex_cf_sound|]. split; [apply ex_o_sound|]. split; [|split].
  - apply cx_draws. intros zs u [E|[E|[E|[E|[E|[]]]]]]; inversion E; reflexivity.
  - cbn. tauto.
  - vm_compute. reflexivity.
Qed.
Print Assumptions C200_refuted.
(** Two particles that resample with every update. *)
Definition cl_calls : list (tcall nat nat nat) := [clook [1]; cgo; clook [1; 2]; cgo]%nat.
Example C201_ex : csensor_sound cx_sn cx_int /\ coutside_sound cx_o /\ draws_ok cl_calls /\ calm false cl_calls /\
  map snd (tlog (cb_one cx_sn cx_int (cx_cf (cfrac 1 1000)) cx_o) (sInv cx_sn) (RC 1 None true) (tf_new 2 0%nat) (TThreshold (cfrac 3 1) :: cl_calls)) = [false; true; false; true; false] /\
  omap (fun s => map (fun p => (option_map (map (fun t => (this (tP t), map snd (tG t)))) (pdata p), ppose p, pprev p)) (pset (rpf (tRb s))))
    (trun (cb_one cx_sn cx_int (cx_cf (cfrac 1 1000)) cx_o) (sInv cx_sn) (RC 1 None true) (tf_new 2 0%nat) (TThreshold (cfrac 3 1) :: cl_calls)) =
  Val [(Some [(1 # 11, [1%nat]); (180 # 319, [1%nat]); (1 # 2, [2%nat])], 2%nat, [1; 0]%nat); (Some [(1 # 11, [1%nat]); (180 # 319, [1%nat]); (1 # 2, [2%nat])], 4%nat, [2; 0]%nat)]%Q.
Proof.
  split; [apply cx_sn_sound|]. split; [apply cx_o_sound|]. split; [|split; [cbn; tauto|split; vm_compute; reflexivity]].
  apply cx_draws. intros zs u [E|[E|[E|[E|[]]]]]; inversion E; reflexivity.
Qed.
