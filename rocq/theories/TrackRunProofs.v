(** Runs of the track-based filters: a property of maps kept by every step is kept by every run. *)
From Coq Require Import ZArith QArith Qcanon List Bool Arith Lia.
From Verif Require Import Base ListUtil QcLra ParticleModel ParticleSpec ParticleProofs ParticleProofs3 FastRunProofs FastRunProofs3 RbRunModel RbRunSpec RbRunProofs RbRunProofs2
  PermanentSpec LmbModel LmbSpec TrackRunModel TrackRunSpec.
Import ListNotations.
Local Open Scope nat_scope.

Section Generic.
Context {Pose M G : Type}.
Notation tmap := (list (track G)).
Notation part := (particle Pose tmap).
Variable one : list M -> Pose -> tmap -> outcome (made G).
Variable inv : Pose -> M -> G.
Variable Mp : tmap -> Prop.
Variable B : Qc -> Prop.
Hypothesis Hone : forall zs x ts, zs <> [] -> Mp ts -> exists m, one zs x ts = Val m /\ Mp (mMap m) /\ (0 < mFactor m)%Qc /\
  forall k pe, In (k, pe) (mBirths m) -> k < length zs /\ B pe.
Definition newborn (t : track G) : Prop := exists pe g, B pe /\ t = Track pe [(1%Qc, g)].
Hypothesis Hnext : forall stat ts b, Mp ts -> Forall newborn b -> Mp (map (still stat) (ts ++ b)).

Definition okp (p : part) : Prop := exists ts w, pdata p = Some ts /\ Mp ts /\ pw p = Some w /\ (0 < w)%Qc.
Definition oks (zs : list M) (us : list (nat * Qc)) : Prop := forall k pe, In (k, pe) us -> k < length zs /\ B pe.
Definition inv_ (n : nat) (pending : bool) (s : tfilt Pose M G) : Prop :=
  length (pset (rpf (tRb s))) = n /\ length (tSlots s) = n /\ Forall okp (pset (rpf (tRb s))) /\ Forall (oks (tZ s)) (tSlots s) /\
  (pending = false -> Forall (fun us => us = []) (tSlots s)) /\ effT (rpf (tRb s)) <> None /\ effPct (rpf (tRb s)) <> None.

Lemma upd_ok : forall zs l, zs <> [] -> Forall okp l -> exists l' us, upd_all one zs l = Val (l', us) /\ length l' = length l /\ length us = length l /\
  Forall okp l' /\ Forall (oks zs) us.
Proof.
  intros zs l Hz. induction 1 as [|p l (ts & w & E1 & E2 & E3 & E4) _ (l' & us & E & L1 & L2 & F1 & F2)]; cbn [upd_all].
  { exists [], []. repeat split; constructor. }
  rewrite E1. cbn [of_option obind]. destruct (Hone zs (ppose p) ts Hz E2) as (m & Em & Fm & Pm & Bm). rewrite Em. cbn [obind]. rewrite E. cbn [obind fst snd].
  eexists _, _. split; [reflexivity|]. split; [cbn; congruence|]. split; [cbn; congruence|]. split.
  - constructor; [|exact F1]. exists (mMap m), (mFactor m * w)%Qc. cbn [pdata pw]. rewrite E3. cbn [nmul]. split; [reflexivity|]. split; [exact Fm|]. split; [reflexivity|].
    revert Pm E4. generalize (mFactor m). intros a Ha Hw. clear - Ha Hw. qcnra.
  - constructor; [exact Bm|exact F2].
Qed.

(** Weights stay positive through the normalisation. *)
Lemma norm_okp : forall l : list part, Forall okp l -> Forall okp (normalizeWeights l).
Proof.
  intros l H. destruct (norm_scale l (fun i => match nth_error l i with Some p => match pw p with Some w => w | None => 1%Qc end | None => 1%Qc end) 1%Qc) as (k & Hk & N).
  { now vm_compute. }
  { intros i p Hp. rewrite Hp. rewrite Forall_forall in H. destruct (H p (nth_error_In _ _ Hp)) as (ts & w & _ & _ & -> & Hw). split; [f_equal; ring|exact Hw]. }
  apply Forall_forall. intros q Hq. apply In_nth_error in Hq as [i Hi]. destruct (norm_same _ _ _ Hi) as (p & Hp & _ & _ & Hd).
  specialize (N i q Hi). cbn beta in N. rewrite Hp in N. rewrite Forall_forall in H. destruct (H p (nth_error_In _ _ Hp)) as (ts & w & E1 & E2 & E3 & E4).
  rewrite E3 in N. exists ts, (k * w)%Qc. split; [congruence|]. split; [exact E2|]. split; [exact N|]. clear - Hk E4. qcnra.
Qed.
Lemma okp_fine : forall l : list part, Forall okp l -> all_data l /\ forall p, In p l -> fine p.
Proof.
  intros l H. rewrite Forall_forall in H. split; intros p Hp; destruct (H p Hp) as (ts & w & E1 & _ & E3 & E4); [congruence|].
  intros q Hq. rewrite E3 in Hq. injection Hq as <-. now apply Qclt_le_weak.
Qed.

Lemma finish_ok : forall c u n (s : rbf Pose tmap), 0 < n -> length (pset (rpf s)) = n -> Forall okp (pset (rpf s)) ->
  effT (rpf s) <> None -> effPct (rpf s) <> None -> (0 <= u < 1)%Qc ->
  exists s', finish c u s = Val s' /\ length (pset (rpf s')) = n /\ Forall okp (pset (rpf s')) /\ effT (rpf s') <> None /\ effPct (rpf s') <> None.
Proof.
  intros c u n s Hn L Hok Ht Hp Hu. unfold finish. destruct (okp_fine _ Hok) as [Hd Hf]. destruct (ripe c (rupd s) (rmeas s)); cbn [obind].
  - destruct (effT (rpf s)) as [t1|] eqn:Et; [|congruence]. destruct (effPct (rpf s)) as [p1|] eqn:Ep; [|congruence].
    destruct (resample_defined (rpf s) u t1 p1) as (f & o & Er & Ef1 & Ef2); auto.
    { destruct (pset (rpf s)); [cbn in L; lia|discriminate]. }
    rewrite Er. cbn [obind]. destruct o.
    + eexists. split; [reflexivity|]. cbn [rpf]. split; [rewrite (resample_length _ _ _ _ _ Er); exact L|]. rewrite Ef1, Ef2, Et, Ep.
      split; [|split; discriminate]. apply Forall_forall. intros q Hq. apply In_nth_error in Hq as [i Hi].
      destruct (resample_src _ _ _ _ _ Er i q Hi) as (Hw & j & p & H1 & _ & _ & Hdq). rewrite Forall_forall in Hok.
      destruct (Hok p (nth_error_In _ _ H1)) as (ts & w & E1 & E2 & _). exists ts, 1%Qc. split; [congruence|]. split; [exact E2|]. split; [exact Hw|reflexivity].
    + apply resample_refused in Er as (_ & -> & _). eexists. split; [reflexivity|]. cbn [rpf pset effT effPct]. rewrite !norm_length.
      split; [exact L|]. split; [now apply norm_okp, norm_okp|]. rewrite Et, Ep. split; discriminate.
  - eexists. split; [reflexivity|]. cbn [rpf pset effT effPct]. rewrite norm_length. split; [exact L|]. split; [now apply norm_okp|auto].
Qed.

Lemma born_ok : forall zs x us, oks zs us -> exists l, born inv zs x us = Val l /\ Forall newborn l.
Proof.
  intros zs x. induction us as [|[k pe] us IH]; intros H; cbn [born]; [exists []; auto|].
  destruct (H k pe (or_introl eq_refl)) as [Hk Hb]. destruct (nth_error zs k) as [z|] eqn:E; [|apply nth_error_None in E; lia].
  cbn [of_option obind]. destruct IH as (l & -> & F). { intros k' pe' Hin. apply H. now right. }
  cbn [obind]. eexists. split; [reflexivity|]. constructor; [now exists pe, (inv x z)|exact F].
Qed.
Lemma pred_ok : forall move stat keep zs l us i, Forall okp l -> Forall (oks zs) us -> length us = length l ->
  exists l', pred_all inv move stat keep zs i l us = Val l' /\ length l' = length l /\ Forall okp l'.
Proof.
  intros move stat keep zs l. induction l as [|p l IH]; intros us i H Hu L; cbn [pred_all]; [exists []; auto|].
  destruct us as [|u us]; [discriminate|]. inversion H as [|? ? (ts & w & E1 & E2 & E3 & E4) Hl]; subst. inversion Hu as [|? ? Hu1 Hu2]; subst.
  destruct (born_ok zs (ppose p) (rev u)) as (b & -> & Fb). { intros k pe Hin. apply Hu1. now apply in_rev. }
  cbn [obind]. rewrite E1. cbn [of_option obind]. destruct (IH us (S i) Hl Hu2) as (l' & -> & L' & F'); [cbn in L; lia|].
  cbn [obind]. eexists. split; [reflexivity|]. split; [cbn; congruence|]. constructor; [|exact F'].
  exists (map (still stat) (ts ++ b)), w. cbn [pdata pw]. split; [reflexivity|]. split; [now apply Hnext|auto].
Qed.

Lemma call_ok : forall c n pending s k, 0 < n -> inv_ n pending s -> calm pending [k] -> (forall zs u, k = TUpdate zs u -> (0 <= u < 1)%Qc) ->
  exists s', tdo one inv c s k = Val s' /\
  inv_ n (match k with TPredict _ _ => false | TUpdate [] _ => false | TUpdate _ _ => true | TThreshold _ => pending end) s'.
Proof.
  intros c n pending s k Hn (L1 & L2 & Hok & Hus & Hp & He1 & He2) Hc Hu. destruct k as [move stat|zs u|t]; cbn [tdo].
  - unfold tpredict. destruct (pred_ok move stat (rkeep c) (tZ s) (pset (rpf (tRb s))) (tSlots s) 0 Hok Hus) as (l & -> & Ll & Fl); [congruence|]. cbn [obind].
    eexists. split; [reflexivity|]. unfold inv_. cbn [tRb tSlots tZ rpf pset effT effPct]. split; [congruence|]. split; [rewrite map_length; exact L2|]. split; [exact Fl|].
    split; [apply Forall_map, Forall_forall; intros us _ k0 pe []|]. split; [|auto]. intros _. apply Forall_map, Forall_forall. auto.
  - unfold tupdate. destruct zs as [|z zs].
    + cbn in Hc. destruct Hc as [-> _]. eexists. split; [reflexivity|]. unfold inv_. cbn [tRb tSlots tZ rpf]. split; [exact L1|]. split; [exact L2|].
      split; [exact Hok|]. split; [|auto]. specialize (Hp eq_refl). eapply Forall_impl; [|exact Hp]. cbn. intros us -> k pe [].
    + destruct (upd_ok (z :: zs) (pset (rpf (tRb s))) ltac:(discriminate) Hok) as (l & us & -> & La & Lb & Fa & Fb). cbn [obind fst snd].
      destruct (finish_ok c u n (RB (PF l (effT (rpf (tRb s))) (effPct (rpf (tRb s)))) (S (rupd (tRb s))) (rmeas (tRb s) + length (z :: zs)) (rocc (tRb s))))
        as (b & Eb & Lc & Fc & Hb1 & Hb2); cbn [rpf pset effT effPct]; auto; [congruence|eapply Hu; reflexivity|].
      rewrite Eb. cbn [obind]. eexists. split; [reflexivity|]. unfold inv_. cbn [tRb tSlots tZ]. split; [exact Lc|]. split; [congruence|]. split; [exact Fc|].
      split; [exact Fb|]. split; [discriminate|auto].
  - eexists. split; [reflexivity|]. unfold inv_. cbn [tRb tSlots tZ rpf setEffectiveParticleCountThreshold pset effT effPct].
    split; [exact L1|]. split; [exact L2|]. split; [exact Hok|]. split; [exact Hus|]. split; [exact Hp|]. split; discriminate.
Qed.

Theorem trun_from : forall c n ks ks2 pend s0, 0 < n -> draws_ok ks -> calm pend (ks ++ ks2) -> inv_ n pend s0 ->
  exists s pend', trun one inv c s0 ks = Val s /\ inv_ n pend' s /\ calm pend' ks2.
Proof.
  intros c n ks ks2. induction ks as [|k ks IH]; intros pend s0 Hn Hd Hc S0; cbn [trun]; [eauto|].
  destruct (call_ok c n pend s0 k Hn S0) as (s1 & -> & S1).
  - destruct k as [mv st|[|z zs] u|t]; cbn in Hc |- *; tauto.
  - intros zs u ->. apply (Hd zs u). now left.
  - cbn [obind]. apply (IH _ s1 Hn) in S1; [exact S1| |].
    + intros zs u Hin. apply (Hd zs u). now right.
    + destruct k as [mv st|[|z zs] u|t]; cbn in Hc |- *; tauto.
Qed.

Hypothesis Hnil : Mp [].
Lemma start_ok : forall n x0 t, exists s0 : tfilt Pose M G, inv_ n false s0 /\
  forall c ks, trun one inv c (tf_new n x0) (TThreshold t :: ks) = trun one inv c s0 ks.
Proof.
  intros n x0 t. eexists. split; [|intros c ks; cbn [trun tdo obind]; reflexivity].
  unfold inv_. cbn. rewrite repeat_length, !map_length, seq_length. split; [reflexivity|]. split; [reflexivity|].
  split; [|split; [|split; [|split; discriminate]]].
  - apply Forall_forall. intros p Hp. apply in_map_iff in Hp as (q & <- & Hq). apply in_map_iff in Hq as (i & <- & _).
    exists [], 1%Qc. cbn. split; [reflexivity|]. split; [exact Hnil|]. destruct (Qclt_le_dec 1 0) as [H|_]; [now vm_compute in H|]. split; reflexivity.
  - apply Forall_forall. intros us Hin. apply repeat_spec in Hin. subst. intros k pe [].
  - intros _. apply Forall_forall. intros us Hin. now apply repeat_spec in Hin.
Qed.
Lemma inv_all : forall n pend s, inv_ n pend s -> length (pset (rpf (tRb s))) = n /\ all_maps Mp s.
Proof. intros n pend s S. split; [apply S|]. intros p Hp. destruct S as (_ & _ & Hok & _). rewrite Forall_forall in Hok. exact (Hok p Hp). Qed.

Theorem trun_ok : forall c n x0 t ks, 0 < n -> draws_ok ks -> calm false ks ->
  exists s, trun one inv c (tf_new n x0) (TThreshold t :: ks) = Val s /\ length (pset (rpf (tRb s))) = n /\ all_maps Mp s.
Proof.
  intros c n x0 t ks Hn Hd Hc. destruct (start_ok n x0 t) as (s0 & S0 & ->).
  destruct (trun_from c n ks [] false s0 Hn Hd) as (s & pend' & E & S & _); [now rewrite app_nil_r|exact S0|].
  exists s. split; [exact E|]. exact (inv_all _ _ _ S).
Qed.
End Generic.
