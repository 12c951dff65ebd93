(** Proofs about runs with the configurations of the constructors. *)
From Coq Require Import ZArith QArith Qcanon List Bool Arith Lia.
From Verif Require Import Base ListUtil QcLra ParticleModel RbRunModel LmbModel TrackRunModel MemberModel MemberRunModel ExactModel PhdModel WeighModel BirthModel PhdRunModel TrackRunSpec TrackRunProofs TrackRunProofs2 MemberRunSpec MemberRunProofs MemberRunProofs2 MemberRunProofs3 ExactSpec ExactProofs ExactProofs2 PhdRunSpec PhdRunProofs PhdRunProofs2 PhdRunProofs3 PhdRunProofs4 PhdRunProofs5 PhdRunProofs6 ConfigModel.
Import ListNotations.
Local Open Scope nat_scope.

Lemma bind_val {A B} (a : outcome A) (f : A -> outcome B) (b : B) : obind a f = Val b -> exists x, a = Val x /\ f x = Val b.
Proof. destruct a; cbn; intros H; try discriminate. eauto. Qed.

Section Ext.
Context {Pose M G : Type}.
Lemma upd_all_ext (one one' : list M -> Pose -> list (track G) -> outcome (made G)) zs l :
  (forall x ts, one zs x ts = one' zs x ts) -> upd_all one zs l = upd_all one' zs l.
Proof.
  intros H. induction l as [|p l IH]; cbn [upd_all]; [reflexivity|]. destruct (pdata p) as [d|]; cbn [of_option obind]; [|reflexivity].
  rewrite H, IH. reflexivity.
Qed.
Lemma trun_ext (one one' : list M -> Pose -> list (track G) -> outcome (made G)) inv c ks :
  (forall zs x ts, one zs x ts = one' zs x ts) -> forall s, trun one inv c s ks = trun one' inv c s ks.
Proof.
  intros H. induction ks as [|k ks IH]; intros s; cbn [trun]; [reflexivity|].
  replace (tdo one' inv c s k) with (tdo one inv c s k).
  - destruct (tdo one inv c s k); cbn [obind]; [apply IH|reflexivity..].
  - destruct k; cbn [tdo]; [reflexivity| |reflexivity]. unfold tupdate. destruct zs; [reflexivity|].
    rewrite (upd_all_ext one one') by (intros; apply H). reflexivity.
Qed.

Lemma lmb_cfg_set (sn : sensor Pose M G) o e zs x ts :
  lmb_cfg sn (set_births e lmb_ctor) o zs x ts
  = lmb_exact sn (Lconf (num_of 1 10000) (num_of 1 2) (num_of 1 100) e (num_of 1 1000) (num_of 1 5)) o zs x ts.
Proof. destruct ts; reflexivity. Qed.

Lemma cb_cfg_ctor (sn : sensor Pose M G) integral o zs x ts :
  cb_cfg sn integral cb_ctor o zs x ts = cb_one sn integral (Cconf (num_of 1 2) (num_of 1 10000) (num_of 1 1000) (num_of 1 5)) o zs x ts.
Proof. destruct ts; reflexivity. Qed.

(** No particle has a track and none waits for a birth. *)
Definition bare (s : tfilt Pose M G) : Prop :=
  pset (rpf (tRb s)) <> [] /\ (forall p, In p (pset (rpf (tRb s))) -> pdata p = Some []) /\ (forall u, In u (tSlots s) -> u = []).

Lemma bare_new n x0 : 0 < n -> bare (tf_new n x0).
Proof.
  intros Hn. unfold bare, tf_new, rb_new, pf_new; cbn. split; [|split].
  - destruct n; [lia|]. cbn. discriminate.
  - intros p Hp. apply in_map_iff in Hp. destruct Hp as (i & <- & _). reflexivity.
  - intros u Hu. apply repeat_spec in Hu. exact Hu.
Qed.

Lemma pred_bare (inv : Pose -> M -> G) mv stat keep zs : forall l us i l', pred_all inv mv stat keep zs i l us = Val l' ->
  (forall p, In p l -> pdata p = Some ([] : list (track G))) -> (forall u, In u us -> u = []) ->
  length l' = length l /\ forall p : particle Pose (list (track G)), In p l' -> pdata p = Some [].
Proof.
  induction l as [|p l IH]; intros us i l' H Hl Hu; cbn [pred_all] in H.
  - injection H as <-. split; [reflexivity|]. intros ? [].
  - destruct us as [|u us]; [discriminate|]. rewrite (Hu u) in H by (left; reflexivity). rewrite (Hl p) in H by (left; reflexivity).
    cbn [rev born of_option obind] in H. apply bind_val in H. destruct H as (r' & Hr & H). injection H as <-.
    destruct (IH _ _ _ Hr) as (E1 & E2); [intros; apply Hl; right; assumption|intros; apply Hu; right; assumption|].
    split; [cbn; lia|]. intros q [<-|Hq]; [reflexivity|exact (E2 q Hq)].
Qed.

Lemma lmb_bare_step (sn : sensor Pose M G) o inv c s k s' : bare s -> tdo (lmb_cfg sn lmb_ctor o) inv c s k = Val s' ->
  bare s' /\ (forall zs u, k = TUpdate zs u -> zs = []).
Proof.
  intros (H1 & H2 & H3) H. destruct k as [mv stat|zs u|t]; cbn [tdo] in H.
  - split; [|discriminate]. unfold tpredict in H. apply bind_val in H. destruct H as (l & Hl & H). injection H as <-.
    destruct (pred_bare _ _ _ _ _ _ _ _ _ Hl H2 H3) as (E1 & E2). split; [|split]; cbn.
    + intros ->. apply H1. destruct (pset (rpf (tRb s))); [reflexivity|discriminate].
    + exact E2.
    + intros v Hv. apply in_map_iff in Hv. destruct Hv as (? & <- & _). reflexivity.
  - destruct zs as [|z zs]; cbn [tupdate] in H.
    + injection H as <-. split; [split; [|split]; assumption|]. intros ? ? [= <- _]. reflexivity.
    + exfalso. destruct (pset (rpf (tRb s))) as [|p l] eqn:El; [congruence|]. cbn [upd_all] in H. rewrite (H2 p) in H by (left; reflexivity).
      cbn in H. discriminate.
  - injection H as <-. split; [|discriminate]. split; [|split]; assumption.
Qed.

Lemma lmb_bare_run (sn : sensor Pose M G) o inv c ks : forall s s', bare s -> trun (lmb_cfg sn lmb_ctor o) inv c s ks = Val s' ->
  forall zs u, In (TUpdate zs u) ks -> zs = [].
Proof.
  induction ks as [|k ks IH]; intros s s' Hs H zs u Hin; [destruct Hin|]. cbn [trun] in H. apply bind_val in H. destruct H as (s1 & Hk & H).
  destruct (lmb_bare_step _ _ _ _ _ _ _ Hs Hk) as (E1 & E2). destruct Hin as [E|Hin]; [exact (E2 _ _ E)|exact (IH _ _ E1 H _ _ Hin)].
Qed.

Lemma lmb_ctor_run (sn : sensor Pose M G) o inv c n x0 ks s : 0 < n -> trun (lmb_cfg sn lmb_ctor o) inv c (tf_new n x0) ks = Val s ->
  forall zs u, In (TUpdate zs u) ks -> zs = [].
Proof. intros Hn. apply lmb_bare_run, bare_new, Hn. Qed.

Lemma lmb_ctor_first (sn : sensor Pose M G) o inv c n x0 z zs u ks : 0 < n ->
  trun (lmb_cfg sn lmb_ctor o) inv c (tf_new n x0) (TUpdate (z :: zs) u :: ks) = UB Uninit.
Proof. destruct n; [lia|]. reflexivity. Qed.

Lemma lmb_set_run (sn : sensor Pose M G) o inv c e s ks : trun (lmb_cfg sn (set_births e lmb_ctor) o) inv c s ks
  = trun (lmb_exact sn (Lconf (num_of 1 10000) (num_of 1 2) (num_of 1 100) e (num_of 1 1000) (num_of 1 5)) o) inv c s ks.
Proof. apply trun_ext. intros. apply lmb_cfg_set. Qed.

Lemma cb_ctor_run (sn : sensor Pose M G) integral o inv c s ks : trun (cb_cfg sn integral cb_ctor o) inv c s ks
  = trun (cb_one sn integral (Cconf (num_of 1 2) (num_of 1 10000) (num_of 1 1000) (num_of 1 5)) o) inv c s ks.
Proof. apply trun_ext. intros. apply cb_cfg_ctor. Qed.
End Ext.

Section Phd.
Context {Pose M T : Type}.
Lemma phd_ctor_run (sn : hsensor Pose M T) o g0 c ks : forall s s', hrun_cfg sn phd_ctor o g0 c s ks = Val s' ->
  forall zs u, In (HUpdate zs u) ks -> zs = [].
Proof.
  induction ks as [|k ks IH]; intros s s' H zs u Hin; [destruct Hin|]. cbn [hrun_cfg] in H. apply bind_val in H. destruct H as (s1 & Hk & H).
  destruct Hin as [->|Hin]; [|exact (IH _ _ H _ _ Hin)]. destruct zs; [reflexivity|]. cbn in Hk. discriminate.
Qed.

Lemma phd_ctor_first (sn : hsensor Pose M T) o g0 c s z zs u ks : hrun_cfg sn phd_ctor o g0 c s (HUpdate (z :: zs) u :: ks) = UB Uninit.
Proof. reflexivity. Qed.

Lemma one_blank (sn : hsensor Pose M T) o cl we we' zs x w : phd_one sn (fill phd_ctor cl we) o zs x [] w = phd_one sn (fill phd_ctor cl we') o zs x [] w.
Proof. destruct cl; reflexivity. Qed.

Lemma upd_cluster (sn : hsensor Pose M T) v o we we' zs : forall l ss, hupd_all sn (fill v true we) o zs l ss = hupd_all sn (fill v true we') o zs l ss.
Proof.
  reflexivity.
Qed.
Lemma upd_blank (sn : hsensor Pose M T) o cl we we' zs : forall l ss,
  forallb (fun p : particle Pose (list (T * Qc)) => match pdata p with Some (_ :: _) => false | _ => true end) l = true ->
  hupd_all sn (fill phd_ctor cl we) o zs l ss = hupd_all sn (fill phd_ctor cl we') o zs l ss.
Proof.
  induction l as [|p l IH]; intros [|s ss] H; cbn [hupd_all]; try reflexivity. cbn [forallb] in H. apply andb_prop in H. destruct H as (Hp & Hl).
  destruct (pdata p) as [[|g d]|]; cbn [of_option obind]; [|discriminate|reflexivity]. rewrite (one_blank sn o cl we we'), (IH ss Hl). reflexivity.
Qed.

Lemma phd_set_step (sn : hsensor Pose M T) o g0 c cl we s k : hdo_cfg sn (set_weighting cl we phd_ctor) o g0 c s k = hdo sn (fill phd_ctor cl we) o g0 c s k.
Proof.
  destruct k as [check mv stat|[|z zs] u|t]; cbn [hdo_cfg]; try reflexivity.
  cbn [set_weighting vCluster vWeight rd of_option obind]. change (fill (set_weighting cl we phd_ctor)) with (fill phd_ctor).
  destruct cl; cbn [orb].
  - cbn [obind hdo hupdate]. rewrite (upd_cluster sn phd_ctor o 0%Qc we). reflexivity.
  - destruct (blank s) eqn:Eb; cbn [obind]; [|reflexivity]. cbn [hdo hupdate]. rewrite (upd_blank sn o false 0%Qc we _ _ _ Eb). reflexivity.
Qed.
Lemma phd_set_run (sn : hsensor Pose M T) o g0 c cl we ks : forall s, hrun_cfg sn (set_weighting cl we phd_ctor) o g0 c s ks = hrun sn (fill phd_ctor cl we) o g0 c s ks.
Proof.
  induction ks as [|k ks IH]; intros s; cbn [hrun_cfg hrun]; [reflexivity|]. rewrite phd_set_step.
  destruct (hdo sn (fill phd_ctor cl we) o g0 c s k); cbn [obind]; [apply IH|reflexivity..].
Qed.
End Phd.

Lemma q_le (a : Z) (b : positive) : (0 <= a)%Z -> (0 <= num_of a b)%Qc.
Proof. intros H. unfold num_of, Qcle. cbn [Q2Qc this]. rewrite !Qred_correct. unfold Qle. cbn [Qnum Qden]. lia. Qed.
Lemma half_lt : (0 < num_of 1 2 < 1)%Qc.
Proof. split; vm_compute; reflexivity. Qed.

Lemma lmb_set_defined {Pose M G : Type} (sn : sensor Pose M G) o : sensor_sound sn -> outside_sound o ->
  forall e c n x0 t ks, (0 <= e)%Qc -> 0 < n -> draws_ok ks -> calm false ks ->
  (exists s, trun (lmb_cfg sn (set_births e lmb_ctor) o) (sInv sn) c (tf_new n x0) (TThreshold t :: ks) = Val s) \/
  trun (lmb_cfg sn (set_births e lmb_ctor) o) (sInv sn) c (tf_new n x0) (TThreshold t :: ks) = UB UseAfterFree.
Proof.
  intros Hs Ho e c n x0 t ks He Hn Hd Hc. rewrite lmb_set_run.
  destruct (exact_run sn (Lconf (num_of 1 10000) (num_of 1 2) (num_of 1 100) e (num_of 1 1000) (num_of 1 5)) o Hs) with (c := c) (n := n) (x0 := x0) (t := t) (ks := ks) as [(s & E & _)|(_ & E)]; eauto.
  repeat split; cbn; try (apply q_le; lia); [|exact He]. apply Qclt_le_weak, half_lt.
Qed.

Lemma cb_ctor_defined {Pose M G : Type} (sn : sensor Pose M G) integral o : csensor_sound sn integral -> coutside_sound o ->
  forall c n x0 t ks, 0 < n -> draws_ok ks -> calm false ks ->
  (exists s, trun (cb_cfg sn integral cb_ctor o) (sInv sn) c (tf_new n x0) (TThreshold t :: ks) = Val s) \/
  trun (cb_cfg sn integral cb_ctor o) (sInv sn) c (tf_new n x0) (TThreshold t :: ks) = UB UseAfterFree.
Proof.
  intros Hs Ho c n x0 t ks Hn Hd Hc. rewrite cb_ctor_run.
  destruct (cb_run sn integral (Cconf (num_of 1 2) (num_of 1 10000) (num_of 1 1000) (num_of 1 5)) o Hs Ho half_lt) with (c := c) (n := n) (x0 := x0) (t := t) (ks := ks) as [(s & E & _)|(_ & E)]; eauto.
Qed.

Lemma phd_set_defined {Pose M T : Type} (sn : hsensor Pose M T) o : hsensor_sound sn -> houtside_sound o ->
  forall cl we g0 c n x0 t ks, 0 < n -> hdraws_ok ks -> hcalm false ks ->
  exists s, hrun_cfg sn (set_weighting cl we phd_ctor) o g0 c (hf_new n x0) (HThreshold t :: ks) = Val s.
Proof.
  intros Hs Ho cl we g0 c n x0 t ks Hn Hd Hc. rewrite phd_set_run.
  destruct (phd_run sn (fill phd_ctor cl we) o Hs) with (g0 := g0) (c := c) (n := n) (x0 := x0) (t := t) (ks := ks) as (s & E & _); eauto.
  split; [apply q_le; lia|reflexivity].
Qed.
