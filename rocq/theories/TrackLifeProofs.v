(** Runs of the track-based filters: every particle is the result of a life of its own. *)
From Coq Require Import ZArith QArith Qcanon List Bool Arith Lia.
From Verif Require Import Base ListUtil QcLra ParticleModel ParticleSpec ParticleProofs ParticleProofs3 FastRunProofs FastRunProofs3 RbRunModel RbRunSpec RbRunProofs RbRunProofs2
  PermanentSpec LmbModel LmbSpec TrackRunModel TrackRunSpec TrackRunProofs TrackLifeSpec.
Import ListNotations.
Local Open Scope nat_scope.

Section Life.
Context {Pose M G : Type}.
Notation tmap := (list (track G)).
Notation part := (particle Pose tmap).
Variable one : list M -> Pose -> tmap -> outcome (made G).
Variable inv : Pose -> M -> G.

Lemma upd_nth : forall zs l l' us, upd_all one zs l = Val (l', us) -> length l' = length l /\ length us = length l /\
  forall i q, nth_error l' i = Some q -> exists p ts m, nth_error l i = Some p /\ pdata p = Some ts /\ one zs (ppose p) ts = Val m /\
    q = PT (pid p) (pparent p) (nmul (Some (mFactor m)) (pw p)) (ppose p) (pprev p) (Some (mMap m)) /\ nth_error us i = Some (mBirths m).
Proof.
  intros zs. induction l as [|p l IH]; intros l' us H; cbn [upd_all] in H.
  { injection H as <- <-. do 2 (split; [reflexivity|]). intros [|i] q Hq; discriminate. }
  destruct (pdata p) as [ts|] eqn:Ed; [|discriminate]. cbn [of_option obind] in H. destruct (one zs (ppose p) ts) as [m| |] eqn:Em; try discriminate.
  cbn [obind] in H. destruct (upd_all one zs l) as [[l1 us1]| |] eqn:El; try discriminate. cbn [obind fst snd] in H. injection H as <- <-.
  destruct (IH _ _ eq_refl) as (A & B & N). split; [cbn; congruence|]. split; [cbn; congruence|]. intros [|i] q Hq; cbn in Hq.
  - injection Hq as <-. exists p, ts, m. auto.
  - exact (N i q Hq).
Qed.

Lemma born_spec : forall zs x us bs, born inv zs x us = Val bs -> Forall2 (newborn_at inv x zs) us bs.
Proof.
  intros zs x. induction us as [|[k pe] us IH]; intros bs H; cbn [born] in H; [injection H as <-; constructor|].
  destruct (nth_error zs k) as [z|] eqn:Ez; [|discriminate]. cbn [of_option obind] in H. destruct (born inv zs x us) as [l| |] eqn:El; try discriminate.
  cbn [obind] in H. injection H as <-. constructor; [now exists z|now apply IH].
Qed.
Lemma still_spec : forall stat (ts : tmap), Forall2 (moved stat) ts (map (still stat) ts).
Proof. intros stat. induction ts as [|t ts IH]; cbn [map]; constructor; [split; reflexivity|exact IH]. Qed.

Lemma pred_nth : forall move stat keep zs l us i0 l', pred_all inv move stat keep zs i0 l us = Val l' -> length l' = length l /\
  forall i q, nth_error l' i = Some q -> exists p ts u bs, nth_error l i = Some p /\ pdata p = Some ts /\ nth_error us i = Some u /\ born inv zs (ppose p) (rev u) = Val bs /\
    q = PT (pid p) (pparent p) (pw p) (move (i0 + i) (ppose p)) (if keep then ppose p :: pprev p else pprev p) (Some (map (still stat) (ts ++ bs))).
Proof.
  intros move stat keep zs. induction l as [|p l IH]; intros us i0 l' H; cbn [pred_all] in H.
  { injection H as <-. split; [reflexivity|]. intros [|i] q Hq; discriminate. }
  destruct us as [|u us]; [discriminate|]. destruct (born inv zs (ppose p) (rev u)) as [bs| |] eqn:Eb; try discriminate. cbn [obind] in H.
  destruct (pdata p) as [ts|] eqn:Ed; [|discriminate]. cbn [of_option obind] in H.
  destruct (pred_all inv move stat keep zs (S i0) l us) as [r| |] eqn:Er; try discriminate. cbn [obind] in H. injection H as <-.
  destruct (IH _ _ _ Er) as (A & N). split; [cbn; congruence|]. intros [|i] q Hq; cbn in Hq.
  - injection Hq as <-. exists p, ts, u, bs. rewrite Nat.add_0_r. auto.
  - rewrite Nat.add_succ_r. exact (N i q Hq).
Qed.

Variable Mp : tmap -> Prop.
Variable B : Qc -> Prop.

Section Run.
Variables (c : rcfg) (n : nat) (x0 : Pose).
Notation lived := (lived one inv c n x0).
Notation life := (life one inv c n x0).

Lemma seen_snoc : forall (h : list (tcall Pose M G * bool)) k b,
  last_seen (h ++ [(k, b)]) = match k with TUpdate zs _ => zs | _ => last_seen h end.
Proof. intros h k b. unfold last_seen. rewrite fold_left_app. reflexivity. Qed.

Lemma call_lived : (forall zs x ts m, zs <> [] -> Mp ts -> one zs x ts = Val m -> (0 < mFactor m)%Qc) ->
  forall h s k s', lived h s -> Forall (okp Mp) (pset (rpf (tRb s))) -> tdo one inv c s k = Val s' ->
  lived (h ++ [(k, tresampled k s')]) s'.
Proof.
  intros Hval h s k s' (L1 & L2 & Z & k0 & v & Hk & T) Hok H. unfold TrackLifeSpec.lived. rewrite seen_snoc. destruct k as [move stat|zs u|t]; cbn [tdo tresampled] in *.
  - unfold tpredict in H. destruct (pred_all inv move stat (rkeep c) (tZ s) 0 (pset (rpf (tRb s))) (tSlots s)) as [l| |] eqn:E; try discriminate. cbn [obind] in H.
    injection H as <-. destruct (pred_nth _ _ _ _ _ _ _ _ E) as (L & N). cbn [tRb tSlots tZ rpf pset]. split; [congruence|]. split; [rewrite map_length; exact L2|].
    split; [exact Z|]. exists k0, v. split; [exact Hk|]. intros i q Hq. destruct (N i q Hq) as (p & ts & us & bs & H1 & H2 & H3 & H4 & ->).
    destruct (T i p H1) as (ts' & us' & A1 & A2 & A3 & A4 & A5). assert (ts' = ts) by congruence. assert (us' = us) by congruence. subst ts' us'.
    exists (map (still stat) (ts ++ bs)), []. cbn [ppose pprev pdata pw Nat.add]. split.
    { eapply l_predict; [exact A1| |apply still_spec]. rewrite <- Z. now apply born_spec. }
    split; [reflexivity|]. split; [rewrite nth_error_map, H3; reflexivity|auto].
  - unfold tupdate in H. destruct zs as [|z zs].
    { injection H as <-. cbn [tRb tSlots tZ rpf]. split; [exact L1|]. split; [exact L2|]. split; [reflexivity|]. exists k0, v. split; [exact Hk|].
      intros i p Hp. destruct (T i p Hp) as (ts & us & A1 & A2). exists ts, us. split; [now apply l_nothing|exact A2]. }
    set (zz := z :: zs) in *. assert (Hz : zz <> []) by discriminate. clearbody zz.
    destruct (upd_all one zz (pset (rpf (tRb s)))) as [[l us]| |] eqn:E; try discriminate. cbn [obind fst snd] in H.
    destruct (upd_nth _ _ _ _ E) as (L & Lu & N).
    match type of H with obind ?e _ = _ => destruct e as [b| |] eqn:Ef; try discriminate end. cbn [obind] in H. injection H as <-. cbn [tRb tSlots tZ].
    set (v' := fun i => match nth_error (pset (rpf (tRb s))) i with
                        | Some p => match pdata p with Some d => match one zz (ppose p) d with Val m => (mFactor m * v i)%Qc | _ => 0%Qc end | None => 0%Qc end
                        | None => 0%Qc end).
    assert (Tl : forall i q, nth_error l i = Some q -> pw q = Some (k0 * v' i)%Qc /\ (0 < v' i)%Qc /\
      exists ts0 us0 m, life h i (ppose q, pprev q, ts0) us0 (v i) /\ one zz (ppose q) ts0 = Val m /\ pdata q = Some (mMap m) /\ nth_error us i = Some (mBirths m) /\ v' i = (mFactor m * v i)%Qc).
    { intros i q Hq. destruct (N i q Hq) as (p & ts & m & H1 & H2 & H3 & -> & H5). destruct (T i p H1) as (ts' & us' & A1 & A2 & A3 & A4 & A5).
      assert (ts' = ts) by congruence. subst ts'. assert (Ev : v' i = (mFactor m * v i)%Qc) by (unfold v'; rewrite H1, H2, H3; reflexivity).
      cbn [ppose pprev pdata pw]. rewrite A5, Ev. cbn [nmul]. split; [f_equal; ring|]. split.
      - rewrite Forall_forall in Hok. destruct (Hok p (nth_error_In _ _ H1)) as (ts2 & w2 & B1 & B2 & _). assert (ts2 = ts) by congruence. subst ts2.
        assert (C2 := Hval zz (ppose p) ts m Hz B2 H3).
        revert C2 A4. generalize (mFactor m) (v i). intros a b0 Ha Hb. clear - Ha Hb. qcnra.
      - exists ts, us', m. auto 6. }
    assert (Lb : length (pset (rpf b)) = n).
    { destruct (finish_cases _ _ _ _ Ef) as [(_ & _ & _ & _ & Er)|(_ & _ & _ & _ & mm & Hm & Eq)]; cbn [rpf pset effT effPct] in *.
      - rewrite (resample_length _ _ _ _ _ Er). cbn. congruence.
      - rewrite Eq. cbn [pset]. rewrite norm_length. destruct Hm as [->| ->]; [|rewrite norm_length]; congruence. }
    split; [exact Lb|]. split; [congruence|]. split; [reflexivity|].
    destruct (finish_cases _ _ _ _ Ef) as [(Ho & _ & _ & _ & Er)|(Ho & _ & _ & _ & mm & Hm & Eq)]; cbn [rpf pset effT effPct] in *.
    + exists 1%Qc, (fun _ => 1%Qc). split; [now vm_compute|]. intros i q Hq.
      assert (Hi : i < length l). { rewrite L, L1, <- Lb. apply nth_error_Some. congruence. }
      destruct (nth_error l i) as [qi|] eqn:Ei; [|apply nth_error_None in Ei; lia]. destruct (Tl i qi Ei) as (_ & _ & tsi & usi & mi & I1 & I2 & _ & I4 & _).
      destruct (resample_src _ _ _ _ _ Er i q Hq) as (-> & j & p & H1 & -> & -> & ->). cbn [pset] in H1.
      destruct (Tl j p H1) as (_ & _ & ts0 & us0 & m & J1 & J2 & J3 & _). exists (mMap m), (mBirths mi).
      destruct zz as [|z1 zz1]; [congruence|]. cbn [tresampled tRb]. rewrite Ho. split; [|split; [exact J3|split; [exact I4|split; [now vm_compute|f_equal; ring]]]].
      eapply l_copy; [exact Hz|exact J1|exact J2|exact I1|exact I2].
    + assert (exists k1, (0 < k1)%Qc /\ forall i p, nth_error mm i = Some p -> pw p = Some (k1 * v' i)%Qc /\ (0 < v' i)%Qc) as (k1 & Hk1 & Hm1).
      { destruct Hm as [->| ->].
        - exists k0. split; [exact Hk|]. intros i p Hp. destruct (Tl i p Hp) as (A & C & _). auto.
        - destruct (norm_scale l v' k0 Hk) as (k1 & A & C). { intros i p Hp. destruct (Tl i p Hp) as (A & C & _). auto. }
          exists k1. split; [exact A|]. intros i p Hp. split; [now apply C|]. destruct (norm_same _ _ _ Hp) as (p' & Hp' & _).
          destruct (Tl i p' Hp') as (_ & C' & _). exact C'. }
      destruct (norm_scale mm v' k1 Hk1 Hm1) as (k2 & Hk2 & Hm2). exists k2, v'. split; [exact Hk2|]. rewrite Eq. cbn [pset]. intros i q Hq.
      assert (Hw := Hm2 i q Hq). destruct (norm_same _ _ _ Hq) as (q1 & Hq1 & -> & -> & ->).
      assert (exists p, nth_error l i = Some p /\ ppose q1 = ppose p /\ pprev q1 = pprev p /\ pdata q1 = pdata p) as (p & H1 & -> & -> & ->).
      { destruct Hm as [->| ->]; [eauto 6|]. exact (norm_same _ _ _ Hq1). }
      destruct (Tl i p H1) as (_ & C & ts0 & us0 & m & J1 & J2 & J3 & J4 & Ev). exists (mMap m), (mBirths m).
      destruct zz as [|z1 zz1]; [congruence|]. cbn [tresampled tRb]. rewrite Ho. split; [|auto]. rewrite Ev. eapply l_stay; [exact Hz|exact J1|exact J2].
  - injection H as <-. cbn [tRb tSlots tZ rpf setEffectiveParticleCountThreshold pset]. split; [exact L1|]. split; [exact L2|]. split; [exact Z|].
    exists k0, v. split; [exact Hk|]. intros i p Hp. destruct (T i p Hp) as (ts & us & A1 & A2). exists ts, us. split; [now apply l_threshold|exact A2].
Qed.

Lemma new_lived : lived [] (tf_new n x0).
Proof.
  split; [cbn; now rewrite !map_length, seq_length|]. split; [cbn; apply repeat_length|]. split; [reflexivity|]. exists 1%Qc, (fun _ => 1%Qc). split; [now vm_compute|].
  intros i p Hp. cbn in Hp. rewrite !nth_error_map in Hp. destruct (nth_error (seq 0 n) i) as [j|] eqn:Ej; [|discriminate].
  assert (Hi : i < n). { rewrite <- (seq_length n 0). apply nth_error_Some. congruence. }
  cbn in Hp. injection Hp as <-. cbn [ppose pprev pdata pw setData]. exists [], []. split; [now apply l_start|]. split; [reflexivity|].
  split; [cbn [tf_new tSlots]; rewrite nth_error_repeat; [reflexivity|exact Hi]|]. split; [now vm_compute|].
  destruct (Qclt_le_dec 1 0) as [Hc|_]; [now vm_compute in Hc|]. f_equal.
Qed.

Hypothesis Hone : forall zs x ts, zs <> [] -> Mp ts -> exists m, one zs x ts = Val m /\ Mp (mMap m) /\ (0 < mFactor m)%Qc /\
  forall k pe, In (k, pe) (mBirths m) -> k < length zs /\ B pe.
Hypothesis Hnext : forall stat ts b, Mp ts -> Forall (newborn B) b -> Mp (map (still stat) (ts ++ b)).
Lemma one_pos : forall zs x ts m, zs <> [] -> Mp ts -> one zs x ts = Val m -> (0 < mFactor m)%Qc.
Proof using Hone. intros zs x ts m Hz Hm E. destruct (Hone zs x ts Hz Hm) as (m2 & C1 & _ & C2 & _). assert (m2 = m) by congruence. now subst. Qed.
Hypothesis Hnil : Mp [].
Theorem run_lived : forall t ks, 0 < n -> draws_ok ks -> calm false ks ->
  exists s, trun one inv c (tf_new n x0) (TThreshold t :: ks) = Val s /\ lived (tlog one inv c (tf_new n x0) (TThreshold t :: ks)) s.
Proof.
  intros t ks Hn Hd Hc.
  assert (K : forall ks h pend s0, draws_ok ks -> calm pend ks -> inv_ Mp B n pend s0 -> lived h s0 ->
    exists s, trun one inv c s0 ks = Val s /\ lived (h ++ tlog one inv c s0 ks) s).
  { clear ks t Hd Hc. induction ks as [|k ks IH]; intros h pend s0 Hd Hc S0 T0; cbn [trun tlog]; [rewrite app_nil_r; eauto|].
    destruct (call_ok one inv Mp B Hone Hnext c n pend s0 k Hn S0) as (s1 & E1 & S1).
    - destruct k as [mv st|[|z zs] u|t]; cbn in Hc |- *; tauto.
    - intros zs u ->. apply (Hd zs u). now left.
    - rewrite E1. cbn [obind]. match type of S1 with inv_ _ _ _ ?b _ => destruct (IH (h ++ [(k, tresampled k s1)]) b s1) as (s & E & T); [| |exact S1| |] end.
      + intros zs u Hin. apply (Hd zs u). now right.
      + destruct k as [mv st|[|z zs] u|t]; cbn in Hc |- *; tauto.
      + eapply call_lived; [exact one_pos|exact T0|apply S0|exact E1].
      + exists s. split; [exact E|]. rewrite <- app_assoc in T. exact T. }
  destruct (start_ok one inv Mp B Hnil n x0 t) as (s0 & S0 & E0). specialize (E0 c []). cbn [trun obind] in E0.
  assert (E1 : tdo one inv c (tf_new n x0) (TThreshold t) = Val s0) by (cbn [tdo obind] in *; exact E0).
  destruct (K ks [(TThreshold t, false)] false s0 Hd Hc S0) as (s & E & T).
  { apply (call_lived one_pos [] (tf_new n x0) (TThreshold t) s0 new_lived); [|exact E1]. apply Forall_forall. intros p Hp. cbn in Hp.
    apply in_map_iff in Hp as (q & <- & Hq). apply in_map_iff in Hq as (i & <- & _).
    exists [], 1%Qc. cbn. split; [reflexivity|]. split; [exact Hnil|]. destruct (Qclt_le_dec 1 0) as [H|_]; [now vm_compute in H|]. split; reflexivity. }
  exists s. cbn [trun tlog]. rewrite E1. cbn [obind tresampled]. split; [exact E|exact T].
Qed.
End Run.

(** Every run is one of the filters with maps of any kind. *)
Lemma upd_each : forall zs l l' us i0, upd_all one zs l = Val (l', us) ->
  each (upd_part (fun _ x d => match one zs x d with Val m => mMap m | _ => d end)
                 (fun _ x d w => match one zs x d with Val m => nmul (Some (mFactor m)) w | _ => w end)) i0 l = Val l'.
Proof.
  intros zs. induction l as [|p l IH]; intros l' us i0 H; cbn [upd_all each] in *; [injection H as <- <-; reflexivity|].
  destruct (pdata p) as [ts|]; [|discriminate]. cbn [of_option obind] in *. destruct (one zs (ppose p) ts) as [m| |] eqn:Em; try discriminate.
  cbn [obind] in H. destruct (upd_all one zs l) as [[l1 us1]| |] eqn:El; try discriminate. cbn [obind fst snd] in H. injection H as <- <-.
  rewrite (IH _ _ (S i0) eq_refl). cbn [obind]. unfold upd_part. rewrite Em. reflexivity.
Qed.
Lemma pred_each : forall move stat keep zs l us us0 i0 l', (forall i u, nth_error us i = Some u -> nth_error us0 (i0 + i) = Some u) ->
  pred_all inv move stat keep zs i0 l us = Val l' ->
  each (step_part keep (fun i x d => match nth_error us0 i with Some u => match born inv zs x (rev u) with Val b => d ++ b | _ => d end | None => d end)
          move (map (still stat))) i0 l = Val l'.
Proof.
  intros move stat keep zs. induction l as [|p l IH]; intros us us0 i0 l' Hu H; cbn [pred_all each] in *; [injection H as <-; reflexivity|].
  destruct us as [|u us]; [discriminate|]. destruct (born inv zs (ppose p) (rev u)) as [b| |] eqn:Eb; try discriminate. cbn [obind] in H.
  destruct (pdata p) as [ts|]; [|discriminate]. cbn [of_option obind] in *.
  destruct (pred_all inv move stat keep zs (S i0) l us) as [r| |] eqn:Er; try discriminate. cbn [obind] in H. injection H as <-.
  rewrite (IH us us0 (S i0) r); [|intros i u' Hi; rewrite Nat.add_succ_l, <- Nat.add_succ_r; now apply Hu|exact Er]. cbn [obind]. unfold step_part.
  assert (E0 := Hu 0 u eq_refl). rewrite Nat.add_0_r in E0. rewrite E0, Eb. reflexivity.
Qed.
Theorem run_rrun : forall c ks s s', trun one inv c s ks = Val s' -> exists rs, Forall2 same_call ks rs /\ rrun c (tRb s) rs = Val (tRb s').
Proof.
  intros c. induction ks as [|k ks IH]; intros s s' H; cbn [trun] in H; [injection H as <-; exists []; split; [constructor|reflexivity]|].
  destruct (tdo one inv c s k) as [s1| |] eqn:E; try discriminate. cbn [obind] in H. destruct (IH s1 s' H) as (rs & F & R).
  assert (exists r, same_call k r /\ rdo c (tRb s) r = Val (tRb s1)) as (r & S1 & S2).
  { clear - E. destruct k as [move stat|zs u|t]; cbn [tdo] in E.
    - unfold tpredict in E. destruct (pred_all inv move stat (rkeep c) (tZ s) 0 (pset (rpf (tRb s))) (tSlots s)) as [l| |] eqn:El; try discriminate. cbn [obind] in E. injection E as <-.
      eexists (RPredict _ move _). split; [reflexivity|]. cbn [rdo tRb]. unfold rpredict. erewrite pred_each; [reflexivity| |exact El]. intros i u Hi. exact Hi.
    - unfold tupdate in E. destruct zs as [|z zs].
      + injection E as <-. exists (RUpdate 0 (fun _ _ d => d) (fun _ _ _ w => w) u). split; [split; reflexivity|reflexivity].
      + destruct (upd_all one (z :: zs) (pset (rpf (tRb s)))) as [[l us]| |] eqn:El; try discriminate. cbn [obind fst snd] in E.
        match type of E with obind ?e _ = _ => destruct e as [b| |] eqn:Ef; try discriminate end. cbn [obind] in E. injection E as <-.
        eexists (RUpdate (length (z :: zs)) _ _ u). split; [split; reflexivity|]. cbn [rdo tRb]. unfold rupdate. cbn [length Nat.eqb].
        erewrite upd_each; [|exact El]. cbn [obind]. exact Ef.
    - injection E as <-. exists (RThreshold t). split; reflexivity. }
  exists (r :: rs). split; [constructor; assumption|]. cbn [rrun]. rewrite S2. exact R.
Qed.
End Life.
