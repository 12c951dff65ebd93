(** New filters without configuration: C202. *)
From Coq Require Import ZArith QArith Qcanon List Bool Arith Lia.
From Verif Require Import Base QcLra ParticleModel RbRunModel LmbModel TrackRunModel TrackRunSpec MemberModel MemberRunModel MemberRunSpec ExactModel
  PhdModel WeighModel BirthModel PhdRunModel PhdRunSpec ConfigModel ConfigProofs.
From Verif Require TrackRunProperties MemberRunProperties ExactProperties PhdRunProperties.
Import ListNotations.
Local Open Scope Qc_scope.

(** C202.  The CB-MeMBer filter reads nothing its constructor leaves unset: its runs are those with the defaults, for any
    functions from outside ... *)
Theorem C202_member_partial : forall {Pose M G : Type} (sn : sensor Pose M G) integral o inv c s ks,
  trun (cb_cfg sn integral cb_ctor o) inv c s ks = trun (cb_one sn integral (Cconf (num_of 1 2) (num_of 1 10000) (num_of 1 1000) (num_of 1 5)) o) inv c s ks.
Proof. exact @cb_ctor_run. Qed.
Print Assumptions C202_member_partial.
(** ... and under the conditions of C198 a run ends or reads a deleted track (C198, C200). *)
Theorem C202_member_run_partial : forall {Pose M G : Type} (sn : sensor Pose M G) integral o, csensor_sound sn integral -> coutside_sound o ->
  forall c n x0 t ks, (0 < n)%nat -> draws_ok ks -> calm false ks ->
  (exists s, trun (cb_cfg sn integral cb_ctor o) (sInv sn) c (tf_new n x0) (TThreshold t :: ks) = Val s) \/
  trun (cb_cfg sn integral cb_ctor o) (sInv sn) c (tf_new n x0) (TThreshold t :: ks) = UB UseAfterFree.
Proof. exact @cb_ctor_defined. Qed.
Print Assumptions C202_member_run_partial.

(** The LMB filter, used as constructed, has no defined run with a measurement in it, whatever the sensor and whatever was
    called before ... *)
Theorem C202_lmb_refuted : forall {Pose M G : Type} (sn : sensor Pose M G) o inv c n x0 ks s, (0 < n)%nat ->
  trun (lmb_cfg sn lmb_ctor o) inv c (tf_new n x0) ks = Val s -> forall zs u, In (TUpdate zs u) ks -> zs = [].
Proof. exact @lmb_ctor_run. Qed.
Print Assumptions C202_lmb_refuted.
(** ... because expectedBirths_ is read before it is set; ... *)
Theorem C202_lmb_unset_refuted : forall {Pose M G : Type} (sn : sensor Pose M G) o inv c n x0 z zs u ks, (0 < n)%nat ->
  trun (lmb_cfg sn lmb_ctor o) inv c (tf_new n x0) (TUpdate (z :: zs) u :: ks) = UB Uninit.
Proof. exact @lmb_ctor_first. Qed.
Print Assumptions C202_lmb_unset_refuted.
(** ... to set it is enough: the runs are then those with the defaults, for any functions from outside, ... *)
Theorem C202_lmb_partial : forall {Pose M G : Type} (sn : sensor Pose M G) o inv c e s ks, trun (lmb_cfg sn (set_births e lmb_ctor) o) inv c s ks
  = trun (lmb_exact sn (Lconf (num_of 1 10000) (num_of 1 2) (num_of 1 100) e (num_of 1 1000) (num_of 1 5)) o) inv c s ks.
Proof. exact @lmb_set_run. Qed.
Print Assumptions C202_lmb_partial.
(** ... and under the conditions of C200 a run ends or reads a deleted track. *)
Theorem C202_lmb_run_partial : forall {Pose M G : Type} (sn : sensor Pose M G) o, sensor_sound sn -> outside_sound o ->
  forall e c n x0 t ks, 0 <= e -> (0 < n)%nat -> draws_ok ks -> calm false ks ->
  (exists s, trun (lmb_cfg sn (set_births e lmb_ctor) o) (sInv sn) c (tf_new n x0) (TThreshold t :: ks) = Val s) \/
  trun (lmb_cfg sn (set_births e lmb_ctor) o) (sInv sn) c (tf_new n x0) (TThreshold t :: ks) = UB UseAfterFree.
Proof. exact @lmb_set_defined. Qed.
Print Assumptions C202_lmb_run_partial.

(** The PHD filter, used as constructed, has no defined run with a measurement in it, from any state ... *)
Theorem C202_phd_refuted : forall {Pose M T : Type} (sn : hsensor Pose M T) o g0 c ks s s', hrun_cfg sn phd_ctor o g0 c s ks = Val s' ->
  forall zs u, In (HUpdate zs u) ks -> zs = [].
Proof. exact @phd_ctor_run. Qed.
Print Assumptions C202_phd_refuted.
(** ... because useClusterProcess_ is read before it is set; ... *)
Theorem C202_phd_unset_refuted : forall {Pose M T : Type} (sn : hsensor Pose M T) o g0 c s z zs u ks,
  hrun_cfg sn phd_ctor o g0 c s (HUpdate (z :: zs) u :: ks) = UB Uninit.
Proof. exact @phd_ctor_first. Qed.
Print Assumptions C202_phd_unset_refuted.
(** ... with it and the weight of evaluation points set, all runs from a new filter under the conditions of C195 are defined, ... *)
Theorem C202_phd_run_partial : forall {Pose M T : Type} (sn : hsensor Pose M T) o, hsensor_sound sn -> houtside_sound o ->
  forall cl we g0 c n x0 t ks, (0 < n)%nat -> hdraws_ok ks -> hcalm false ks ->
  exists s, hrun_cfg sn (set_weighting cl we phd_ctor) o g0 c (hf_new n x0) (HThreshold t :: ks) = Val s.
Proof. exact @phd_set_defined. Qed.
Print Assumptions C202_phd_run_partial.
(** ... and they are those with the defaults. *)
Theorem C202_phd_partial : forall {Pose M T : Type} (sn : hsensor Pose M T) o g0 c cl we ks s,
  hrun_cfg sn (set_weighting cl we phd_ctor) o g0 c s ks = hrun sn (fill phd_ctor cl we) o g0 c s ks.
Proof. exact @phd_set_run. Qed.
Print Assumptions C202_phd_partial.

(** ** Examples *)
Import MemberRunProperties.
(** The same calls to the CB-MeMBer filter as constructed, and to the LMB filter as constructed and with one expected birth. *)
Definition calls : list (tcall nat nat nat) := [clook [1]; cgo; clook [1; 2]; cgo]%nat.
Definition maps (s : tfilt nat nat nat) : list (option (list (Q * list nat))) :=
  map (fun p => option_map (map (fun t => (this (tP t), map snd (tG t)))) (pdata p)) (pset (rpf (tRb s))).
Example C202_member_ex : csensor_sound cx_sn cx_int /\ coutside_sound cx_o /\ draws_ok calls /\ calm false calls /\
  omap maps (trun (cb_cfg cx_sn cx_int cb_ctor cx_o) (sInv cx_sn) (RC 1 None true) (tf_new 2 0%nat) (TThreshold 1 :: calls)) =
  omap maps (cx_run (cfrac 1 1000) 2 calls) /\
  exists s, cx_run (cfrac 1 1000) 2 calls = Val s.
Proof.
  split; [apply cx_sn_sound|]. split; [apply cx_o_sound|]. split; [|split; [cbn; tauto|split]].
  - apply cx_draws. intros zs u [E|[E|[E|[E|[]]]]]; inversion E; reflexivity.
  - vm_compute. reflexivity.
  - destruct (cx_run (cfrac 1 1000) 2 calls) as [s|u|] eqn:E; [exists s; reflexivity| |];
      apply (f_equal (omap maps)) in E; vm_compute in E; discriminate.
Qed.
Example C202_lmb_ex : sensor_sound cx_sn /\ outside_sound TrackRunProperties.ex_o /\ draws_ok calls /\ calm false calls /\
  omap maps (trun (lmb_cfg cx_sn lmb_ctor TrackRunProperties.ex_o) (sInv cx_sn) (RC 1 None true) (tf_new 2 0%nat) [TThreshold 1; cgo; clook []; cgo]) =
    Val [Some []; Some []] /\
  trun (lmb_cfg cx_sn lmb_ctor TrackRunProperties.ex_o) (sInv cx_sn) (RC 1 None true) (tf_new 2 0%nat) [TThreshold 1; cgo; clook [1%nat]] = UB Uninit /\
  omap maps (trun (lmb_cfg cx_sn (set_births 1 lmb_ctor) TrackRunProperties.ex_o) (sInv cx_sn) (RC 1 None true) (tf_new 2 0%nat) (TThreshold 1 :: calls)) =
    Val [Some [(19 # 29, [1]%nat); (1 # 2, [2%nat]); (1 # 10, [1%nat])]; Some [(19 # 29, [1]%nat); (1 # 2, [2%nat]); (1 # 10, [1%nat])]]%Q.
Proof.
  split; [apply ExactProperties.cx_sound|]. split; [apply TrackRunProperties.ex_o_sound|]. split; [|split; [cbn; tauto|split; [|split]]].
  - apply cx_draws. intros zs u [E|[E|[E|[E|[]]]]]; inversion E; reflexivity.
  - vm_compute. reflexivity.
  - vm_compute. reflexivity.
  - vm_compute. reflexivity.
Qed.
Example C202_phd_ex : let ks := [PhdRunProperties.look [1]; PhdRunProperties.go; PhdRunProperties.look [1; 2]; PhdRunProperties.go]%nat in
  let sn := PhdRunProperties.ex_sn (PhdRunProperties.frac 1 2) in
  hsensor_sound sn /\ houtside_sound PhdRunProperties.ex_o /\ hdraws_ok ks /\ hcalm false ks /\
  hrun_cfg sn phd_ctor PhdRunProperties.ex_o false (RC 1 None true) (hf_new 2 100%nat) [HThreshold 0; PhdRunProperties.go; PhdRunProperties.look [1%nat]] = UB Uninit /\
  omap PhdRunProperties.shown (hrun_cfg sn (set_weighting false (num_of 3 4) phd_ctor) PhdRunProperties.ex_o false (RC 1 None true) (hf_new 2 100%nat) (HThreshold 0 :: ks)) =
    Val [([(1%nat, 1 # 5); (2%nat, 1 # 4)], Some (1 # 2)); ([(1%nat, 1 # 5); (2%nat, 1 # 4)], Some (1 # 2))]%Q.
Proof.
  cbv zeta. split; [apply PhdRunProperties.ex_sn_sound, PhdRunProperties.half_ok|]. split; [apply PhdRunProperties.ex_o_sound|]. split; [|split; [cbn; tauto|split]].
  - apply PhdRunProperties.draws. intros k [<-|[<-|[<-|[<-|[]]]]]; cbn; auto.
  - vm_compute. reflexivity.
  - vm_compute. reflexivity.
Qed.
