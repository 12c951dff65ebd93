(** Runs of the labelled multi-Bernoulli filter: C192, C193. *)
From Coq Require Import ZArith QArith Qcanon List Bool Arith Lia.
From Verif Require Import Base QcLra ParticleModel RbRunModel PermanentSpec PartitionSpec PartitionRef RfsSpec RfsKbest LmbModel LmbSpec TrackRunModel TrackRunSpec TrackRunProofs2.
Import ListNotations.
Local Open Scope Qc_scope.

(** C192.  If the sensor never detects with certainty and clutter is possible everywhere, then every run in which no
    update without measurements comes between an update and the next predict is defined: no division by zero, no
    access out of range.  At every point the filter holds n particles with positive weights, and every track of every
    map has an existence probability in [0, 1] and Gaussians of weights at least 0 and of sum at most 1.
    Missing: pruneTracks copying a track onto itself, which is undefined (C200); [calm] cannot be dropped (C192_refuted), nor
    pd < 1 (C192_certain_refuted). *)
Theorem C192_defined_partial : forall {Pose M G : Type} (sn : sensor Pose M G) cf o, sensor_sound sn -> conf_sound cf -> outside_sound o ->
  forall c n x0 t ks, (0 < n)%nat -> draws_ok ks -> calm false ks ->
  exists s, trun (lmb_one sn cf o) (sInv sn) c (tf_new n x0) (TThreshold t :: ks) = Val s /\ length (pset (rpf (tRb s))) = n /\ all_maps (Forall fair) s.
Proof. exact @lmb_run_fair. Qed.
Print Assumptions C192_defined_partial.

(** C193.  If the threshold for Gaussians is 0 or less, the weights of the Gaussians of every track sum to one. *)
Theorem C193_sum_partial : forall {Pose M G : Type} (sn : sensor Pose M G) cf o, sensor_sound sn -> conf_sound cf -> outside_sound o ->
  forall c n x0 t ks, cGauss cf <= 0 -> (0 < n)%nat -> draws_ok ks -> calm false ks ->
  exists s, trun (lmb_one sn cf o) (sInv sn) c (tf_new n x0) (TThreshold t :: ks) = Val s /\ all_maps (Forall good) s.
Proof. exact @lmb_run_good. Qed.
Print Assumptions C193_sum_partial.

(** C193 with any threshold: a track that has lost all its Gaussians is never seen again, so no measurement and no miss
    changes its existence probability; pruning keeps it if that probability is large enough. *)
Theorem C193_ghost_partial : forall {Pose M G : Type} (sn : sensor Pose M G) cf o, sensor_sound sn -> conf_sound cf -> outside_sound o ->
  forall p, cTrack cf <= p -> forall c n x0 t ks1 ks2, (0 < n)%nat -> draws_ok (ks1 ++ ks2) -> calm false (ks1 ++ ks2) ->
  exists s1 s2, trun (lmb_one sn cf o) (sInv sn) c (tf_new n x0) (TThreshold t :: ks1) = Val s1 /\
  trun (lmb_one sn cf o) (sInv sn) c s1 ks2 = Val s2 /\
  (all_maps (fun ts => In (Track p []) ts) s1 -> all_maps (fun ts => In (Track p []) ts) s2).
Proof. exact @ghost_run. Qed.
Print Assumptions C193_ghost_partial.

(** ** Examples *)
(** Poses, measurements, Gaussians are numbers.  Every landmark is detected with probability pd, a measurement
    fits every landmark with likelihood 2, clutter has intensity 1. *)
Definition frac (a : Z) (b : positive) : Qc := Q2Qc (a # b).
Definition ex_sn (pd : Qc) : sensor nat nat nat := Sensor (fun _ _ => pd) (fun x z g => Some ((x + z + g)%nat, frac 2 1)) (fun _ => 1) (fun x z => (x + z)%nat).
(** The defaults of the constructor, include/RBLMBFilter.hpp:354-362; one expected birth. *)
Definition ex_cf (gaussT : Qc) : lconf := Lconf (frac 1 10000) (frac 1 2) (frac 1 100) 1 (frac 1 1000) gaussT.
Definition ex_o : outside nat := Outside (fun C nR nC => (ref_cc C 0%Z nR nC, ref_ncc C 0%Z nR nC)) kbest_ref (fun gs => gs).
Definition ex_run (pd gaussT : Qc) (n : nat) (ks : list (tcall nat nat nat)) :=
  trun (lmb_one (ex_sn pd) (ex_cf gaussT) ex_o) (sInv (ex_sn pd)) (RC 1 None true) (tf_new n 100%nat) (TThreshold 1 :: ks).
Lemma ex_run_eq : forall pd gaussT n ks, ex_run pd gaussT n ks =
  trun (lmb_one (ex_sn pd) (ex_cf gaussT) ex_o) (sInv (ex_sn pd)) (RC 1 None true) (tf_new n 100%nat) (TThreshold 1 :: ks).
Proof. reflexivity. Qed.
Definition go : tcall nat nat nat := TPredict (fun i x => (x + 10 * (i + 1))%nat) (fun g => g).
Definition look (zs : list nat) : tcall nat nat nat := TUpdate zs (frac 1 3).
Definition five : list (tcall nat nat nat) := [look [1]; go; look [1; 2; 3; 4; 5]]%nat.

Lemma ex_sn_sound : forall pd, 0 <= pd < 1 -> sensor_sound (ex_sn pd).
Proof. intros pd H. split; [intros; exact H|]. split; [|intros z; reflexivity]. intros x z g g' l E. injection E as _ <-. discriminate. Qed.
Lemma ex_cf_sound : forall g, conf_sound (ex_cf g).
Proof. intros g. split; [discriminate|]. split; [split; discriminate|]. split; discriminate. Qed.
Lemma ex_o_sound : outside_sound ex_o.
Proof. split; [intros; apply ref_ok|]. split; [apply kbest_ref_ok|]. intros gs H. split; [exact H|]. split; [reflexivity|apply Nat.le_refl]. Qed.
Lemma half_ok : 0 <= frac 1 2 < 1.
Proof. split; [discriminate|reflexivity]. Qed.

Definition shown (s : tfilt nat nat nat) : list (list (Q * list (Q * nat)) * option Q) :=
  map (fun p => (match pdata p with Some ts => map (fun t => (this (tP t), map (fun g => (this (fst g), snd g)) (tG t))) ts | None => [] end, option_map this (pw p)))
    (pset (rpf (tRb s))).
(** Two particles; one landmark is born, then two measurements. *)
Example C192_ex : sensor_sound (ex_sn (frac 1 2)) /\ conf_sound (ex_cf 0) /\ outside_sound ex_o /\
  draws_ok [look [1]; go; look [2; 3]; go]%nat /\ calm false [look [1]; go; look [2; 3]; go]%nat /\
  omap shown (ex_run (frac 1 2) 0 2 [look [1]; go; look [2; 3]]%nat) =
  Val [([(5 # 7, [(1 # 5, 101%nat); (2 # 5, 213%nat); (2 # 5, 214%nat)])], Some (1 # 2)); ([(5 # 7, [(1 # 5, 101%nat); (2 # 5, 223%nat); (2 # 5, 224%nat)])], Some (1 # 2))]%Q.
Proof.
  split; [apply ex_sn_sound, half_ok|]. split; [apply ex_cf_sound|]. split; [apply ex_o_sound|]. split; [|split].
  - intros zs u [E|[E|[E|[E|[]]]]]; inversion E; subst; split; [discriminate|reflexivity|discriminate|reflexivity].
  - cbn. tauto.
  - vm_compute. reflexivity.
Qed.

(** C192 for every run is false: after an update without measurements the births of the update before are read from an
    empty list. *)
Theorem C192_refuted : exists ks, sensor_sound (ex_sn (frac 1 2)) /\ conf_sound (ex_cf 0) /\ outside_sound ex_o /\ draws_ok ks /\
  ex_run (frac 1 2) 0 1 ks = UB OutOfBounds.
Proof.
  exists [look [1]; look []; go]%nat. split; [apply ex_sn_sound, half_ok|]. split; [apply ex_cf_sound|]. split; [apply ex_o_sound|]. split.
  - intros zs u [E|[E|[E|[]]]]; inversion E; subst; split; [discriminate|reflexivity|discriminate|reflexivity].
  - vm_compute. reflexivity.
Qed.
Print Assumptions C192_refuted.

(** A sensor that detects with certainty, births with probability one and a measurement that fits nothing: the second
    update divides by zero. *)
Theorem C192_certain_refuted : exists (sn : sensor nat nat nat) cf ks, (forall x g, sPd sn x g = 1) /\ (forall z, 0 < sClut sn z) /\ conf_sound cf /\ outside_sound ex_o /\
  draws_ok ks /\ calm false ks /\
  trun (lmb_one sn cf ex_o) (sInv sn) (RC 1 None true) (tf_new 1 0%nat) (TThreshold 1 :: ks) = UB DivByZero.
Proof.
  exists (Sensor (fun _ _ => 1) (fun _ _ _ => None) (fun _ => 1) (fun x z => (x + z)%nat)), (Lconf 0 1 0 1 0 0), [look [1]; go; look [2]]%nat.
  split; [reflexivity|]. split; [reflexivity|]. split; [|split; [apply ex_o_sound|split; [|split]]].
  - split; [discriminate|]. split; [split; discriminate|]. split; discriminate.
  - intros zs u [E|[E|[E|[]]]]; inversion E; subst; split; [discriminate|reflexivity|discriminate|reflexivity].
  - cbn. tauto.
  - vm_compute. reflexivity.
Qed.
Print Assumptions C192_certain_refuted.

(** C193 with the default threshold of 1/5 for Gaussians is false.  One landmark and five measurements that fit it equally
    well: the five corrected Gaussians of the track have weight 2/11 each, the old one 1/11, and all are removed.  What is
    left is a track with existence probability 11/13 and without a position, and whatever happens later, it stays in the
    map of the particle. *)
Theorem C193_refuted : sensor_sound (ex_sn (frac 1 2)) /\ conf_sound (ex_cf (frac 1 5)) /\ outside_sound ex_o /\
  exists p s1, this p = (11 # 13)%Q /\ ex_run (frac 1 2) (frac 1 5) 1 five = Val s1 /\ all_maps (fun ts => In (Track p []) ts) s1 /\
  forall ks2, draws_ok (five ++ ks2) -> calm false (five ++ ks2) -> exists s2,
    trun (lmb_one (ex_sn (frac 1 2)) (ex_cf (frac 1 5)) ex_o) (sInv (ex_sn (frac 1 2))) (RC 1 None true) s1 ks2 = Val s2 /\
    all_maps (fun ts => In (Track p []) ts) s2.
Proof.
  split; [apply ex_sn_sound, half_ok|]. split; [apply ex_cf_sound|]. split; [apply ex_o_sound|].
  assert (K : exists s, ex_run (frac 1 2) (frac 1 5) 1 five = Val s /\ all_maps (fun ts => In (Track (frac 11 13) []) ts) s).
  { assert (V : omap shown (ex_run (frac 1 2) (frac 1 5) 1 five) = Val [([(11 # 13, [])], Some 1)]%Q) by (vm_compute; reflexivity).
    destruct (ex_run (frac 1 2) (frac 1 5) 1 five) as [s|e|]; try discriminate. exists s. split; [reflexivity|]. cbn [omap] in V. apply VpProofs4.val_inj in V.
    unfold shown in V. intros p Hp. destruct (pset (rpf (tRb s))) as [|q [|q2 l]]; [discriminate| |discriminate]. destruct Hp as [<-|[]].
    cbn [map] in V. destruct (pdata q) as [ts|]; [|discriminate]. destruct (pw q) as [w|]; [|discriminate]. cbn [option_map] in V. exists ts, w. split; [reflexivity|].
    destruct ts as [|t [|t2 ts]]; [discriminate| |discriminate]. cbn [map] in V. injection V as V1 V2 V3. destruct t as [pt gt]. cbn [tP tG] in *.
    destruct gt as [|? ?]; [|discriminate]. split; [left; f_equal; apply Qc_is_canon; rewrite V1; reflexivity|]. split; [reflexivity|].
    unfold Qclt. rewrite V3. reflexivity. }
  destruct K as (s1 & E1 & A1). exists (frac 11 13), s1. split; [reflexivity|]. split; [exact E1|]. split; [exact A1|].
  intros ks2 Hd Hc. destruct (C193_ghost_partial _ _ _ (ex_sn_sound _ half_ok) (ex_cf_sound (frac 1 5)) ex_o_sound (frac 11 13) ltac:(discriminate)
    (RC 1 None true) 1%nat 100%nat 1 five ks2 Nat.lt_0_1 Hd Hc) as (s1' & s2 & E1' & E2 & K).
  rewrite ex_run_eq in E1. rewrite E1 in E1'. assert (s1 = s1') by congruence. subst s1'. exists s2. split; [exact E2|]. now apply K.
Qed.
Print Assumptions C193_refuted.

(** The run above goes on: a miss and a new landmark leave the track as it is. *)
Example C193_ghost_ex : draws_ok (five ++ [look [7]; go]%nat) /\ calm false (five ++ [look [7]; go]%nat) /\
  omap (fun s => map (fun p => option_map (fun ts => map (fun t => (this (tP t), length (tG t))) ts) (pdata p)) (pset (rpf (tRb s))))
    (ex_run (frac 1 2) (frac 1 5) 1 (five ++ [look [7]; go]%nat)) =
  Val [Some [(11 # 13, 0%nat); (1 # 2, 1%nat)]]%Q.
Proof.
  split; [|split; [cbn; tauto|vm_compute; reflexivity]].
  intros zs u [E|[E|[E|[E|[E|[]]]]]]; inversion E; subst; (split; [discriminate|reflexivity]).
Qed.
(** With threshold 0 the six Gaussians stay and sum to one. *)
Example C193_sum_ex : cGauss (ex_cf 0) <= 0 /\ omap shown (ex_run (frac 1 2) 0 1 five) =
  Val [([(11 # 13, [(1 # 11, 101%nat); (2 # 11, 212%nat); (2 # 11, 213%nat); (2 # 11, 214%nat); (2 # 11, 215%nat); (2 # 11, 216%nat)])], Some 1)]%Q.
Proof. split; [discriminate|]. vm_compute. reflexivity. Qed.
