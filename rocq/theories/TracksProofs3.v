From Coq Require Import QArith ZArith List Bool Arith Permutation Lia.
From Verif Require Import Base ListUtil GMModel GMSpec GMProofs GMProofs2 TracksModel TracksSpec TracksProofs.
Import ListNotations.
Local Open Scope nat_scope.

Lemma copy_tracks_ok : forall src0 src dst done h F, length src = length dst ->
  incl src src0 -> (forall t, In t src0 -> gn (tg t) = live_count (tg t)) ->
  tgood h (src0 ++ done ++ dst) F ->
  exists h' dst', copy_tracks h src dst = Val (h', dst') /\ tgood h' (src0 ++ done ++ dst') F /\
    intact h h' (flat_map tptrs (src0 ++ done) ++ F) /\ tviews h' dst' = tviews h src.
Proof.
  induction src as [|a src IH]; intros dst done h F HL Hinc Hn Hg; destruct dst as [|b dst]; try discriminate.
  - exists h, []. simpl. repeat split; auto; apply Hg.
  - simpl. simpl in HL.
    destruct (track_copy_ok h (src0 ++ done) a dst b F) as (h1 & b1 & H1 & H2 & H3 & H4).
    { rewrite <- app_assoc. exact Hg. }
    { apply in_or_app. left. apply in_or_app. left. apply Hinc. now left. }
    rewrite H1. cbn [obind fst snd].
    (* frame on the other tracks: from the views equality is not enough, redo *)
    destruct (copyTo_ok h (tg a) (tg b) (flat_map tptrs ((src0 ++ done) ++ dst) ++ F)) as (h' & g' & K1 & Kg & Kf & _).
    { eapply owned_perm; [apply tgood_perm_mid|]. rewrite <- app_assoc. apply Hg. }
    { intros p Hp. apply in_or_app. left. apply in_flat_map. exists a. split; auto.
      apply in_or_app. left. apply in_or_app. left. apply Hinc. now left. }
    { apply Hn. apply Hinc. now left. }
    assert (h' = h1) as ->.
    { unfold track_copyTo in H1. rewrite K1 in H1. simpl in H1. congruence. }
    destruct (IH dst (done ++ [b1]) h1 F) as (h2 & dst2 & J1 & J2 & J3 & J4); auto.
    { intros x Hx. apply Hinc. now right. }
    { rewrite <- !app_assoc in *. simpl in *. exact H2. }
    rewrite J1. cbn [obind fst snd]. exists h2, (b1 :: dst2). split; [reflexivity|].
    split; [rewrite <- !app_assoc in *; simpl in *; exact J2|].
    assert (Hsrc : tviews h1 src = tviews h src).
    { apply tviews_intact. intros p Hp. apply Kf. apply in_or_app. left.
      apply in_flat_map in Hp as (x & Hx & Hp). apply in_flat_map. exists x. split; auto.
      apply in_or_app. left. apply in_or_app. left. apply Hinc. now right. }
    split.
    + intros p Hp. rewrite J3.
      * apply Kf. rewrite flat_map_app. apply in_app_or in Hp as [Hp|Hp]; apply in_or_app; auto.
        left. apply in_or_app. now left.
      * rewrite app_assoc, flat_map_app. apply in_app_or in Hp as [Hp|Hp]; apply in_or_app; auto.
        left. apply in_or_app. now left.
    + simpl. rewrite J4, Hsrc. f_equal.
      assert (Hb : tview_of h1 b1 = tview_of h a).
      { unfold tviews in H4. rewrite !map_app in H4. simpl in H4.
        assert (H5 : nth_error (map (tview_of h1) src0 ++ map (tview_of h1) done ++ tview_of h1 b1 :: map (tview_of h1) dst) (length src0 + length done) = Some (tview_of h1 b1)).
        { rewrite nth_error_app2; rewrite map_length; [|lia]. rewrite nth_error_app2; rewrite map_length; [|lia].
          replace (length src0 + length done - length src0 - length done) with 0 by lia. reflexivity. }
        rewrite <- app_assoc in H4. rewrite H4 in H5. rewrite <- app_assoc in H5.
        rewrite nth_error_app2 in H5; rewrite map_length in *; [|lia].
        rewrite nth_error_app2 in H5; rewrite map_length in *; [|lia].
        replace (length src0 + length done - length src0 - length done) with 0 in H5 by lia. simpl in H5. congruence. }
      rewrite <- Hb. unfold tview_of. f_equal. f_equal. f_equal. unfold view. apply viewl_frame.
      intros p Hp. apply J3. rewrite app_assoc, flat_map_app. apply in_or_app. left. apply in_or_app. right.
      simpl. rewrite app_nil_r. exact Hp.
Qed.

Lemma flat_map_repeat_new : forall n, flat_map tptrs (repeat track_new n) = [].
Proof. induction n; simpl; auto. Qed.

Lemma mb_copy_ok : forall h src dst F, tgood h (src ++ dst) F ->
  exists h' dst', mb_copyTo h src dst = Val (h', dst') /\ tgood h' (src ++ dst') F /\
    intact h h' (flat_map tptrs src ++ F) /\ tviews h' dst' = tviews h src /\ tviews h' src = tviews h src.
Proof.
  intros h src dst F [Ho Hn]. unfold mb_copyTo, resize.
  set (n := length src).
  assert (Ho' : owned h (flat_map tptrs (skipn n dst) ++ flat_map tptrs (src ++ firstn n dst) ++ F)).
  { eapply owned_perm; [|exact Ho]. rewrite <- (firstn_skipn n dst) at 1.
    rewrite app_assoc, flat_map_app. rewrite <- app_assoc. apply app_comm_tail. }
  destruct (destroy_tracks_ok _ _ _ Ho') as (h1 & H1 & Ho1 & Hf1). rewrite H1. cbn [obind fst snd].
  destruct (copy_tracks_ok src src (firstn n dst ++ repeat track_new (n - length dst)) [] h1 F)
    as (h2 & d2 & J1 & J2 & J3 & J4).
  - rewrite app_length, firstn_length, repeat_length. unfold n. lia.
  - apply incl_refl.
  - intros t Ht. apply Hn. apply in_or_app. now left.
  - split.
    + simpl. rewrite !flat_map_app in *. rewrite flat_map_repeat_new, app_nil_r. exact Ho1.
    + intros t Ht. simpl in Ht. apply in_app_or in Ht as [Ht|Ht]; [apply Hn; apply in_or_app; now left|].
      apply in_app_or in Ht as [Ht|Ht].
      * apply Hn. apply in_or_app. right. rewrite <- (firstn_skipn n dst). apply in_or_app. now left.
      * apply repeat_spec in Ht. subst t. reflexivity.
  - simpl in *. rewrite app_nil_r in J3. exists h2, d2. split; [exact J1|]. split; [exact J2|].
    assert (HI : intact h h2 (flat_map tptrs src ++ F)).
    { intros p Hp. rewrite J3 by auto. apply Hf1. rewrite flat_map_app.
      apply in_app_or in Hp as [Hp|Hp]; apply in_or_app; auto. left. apply in_or_app. now left. }
    split; [exact HI|].
    assert (E1 : tviews h1 src = tviews h src).
    { apply tviews_intact. intros p Hp. apply Hf1. rewrite flat_map_app.
      apply in_or_app. left. apply in_or_app. now left. }
    split; [congruence|].
    apply tviews_intact. intros p Hp. apply HI. apply in_or_app. now left.
Qed.

(** getMaxGaussian *)
Lemma max_scan_ok : forall g is mW mI, (forall s, In s (gl g) -> sp s <> None) ->
  (forall i, In i is -> i < length (gl g)) ->
  exists i, max_scan g is mW mI = Val i /\ (i = mI \/ In i is) /\
    (forall j s, In j is -> nth_error (gl g) j = Some s ->
       (sw s <= mW)%Q \/ exists si, nth_error (gl g) i = Some si /\ (sw s <= sw si)%Q /\ (mW < sw si)%Q) /\
    (i = mI \/ exists si, nth_error (gl g) i = Some si /\ (mW < sw si)%Q) /\
    ((forall j s, In j is -> nth_error (gl g) j = Some s -> (sw s <= mW)%Q) -> i = mI).
Proof.
  induction is as [|i is IH]; intros mW mI Hh Hb.
  - exists mI. simpl. repeat split; auto. intros j s [].
  - simpl. unfold slot_at. destruct (nth_error_ex _ (gl g) i (Hb i (or_introl eq_refl))) as (s & Hs).
    rewrite Hs. cbn [obind of_option].
    destruct (sp s) as [p|] eqn:Ep; [|exfalso; apply (Hh s); auto; eapply nth_error_In; eauto].
    destruct (Qltb mW (sw s)) eqn:E.
    + apply Qltb_true in E. destruct (IH (sw s) i Hh) as (r & H1 & H2 & H3 & H4 & H5).
      { intros; apply Hb; now right. }
      exists r. split; [exact H1|]. split; [destruct H2 as [->|H2]; auto|].
      assert (Hr : exists si, nth_error (gl g) r = Some si /\ (sw s <= sw si)%Q).
      { destruct H4 as [->|(si & Hsi & Hlt)].
        - exists s. split; auto. apply Qle_refl.
        - exists si. split; auto. now apply Qlt_le_weak. }
      destruct Hr as (si & Hsi & Hle).
      split; [|split].
      * intros j s' [<-|Hj] Hs'.
        -- right. exists si. assert (s' = s) by congruence. subst. repeat split; auto.
           eapply Qlt_le_trans; eauto.
        -- right. destruct (H3 j s' Hj Hs') as [Hl|(sj & Hsj & Hl1 & Hl2)].
           ++ exists si. repeat split; auto. eapply Qle_trans; eauto. eapply Qlt_le_trans; eauto.
           ++ exists sj. repeat split; auto. eapply Qlt_trans; eauto.
      * right. exists si. split; auto. eapply Qlt_le_trans; eauto.
      * intro Ha. exfalso. apply (Qlt_not_le _ _ E). apply (Ha i s); auto.
    + apply Qltb_false in E. destruct (IH mW mI Hh) as (r & H1 & H2 & H3 & H4 & H5).
      { intros; apply Hb; now right. }
      exists r. split; [exact H1|]. split; [destruct H2 as [->|H2]; auto|]. split; [|split].
      * intros j s' [<-|Hj] Hs'; [left; congruence|]. apply (H3 j s' Hj Hs').
      * exact H4.
      * intro Ha. apply H5. intros j s' Hj Hs'. apply (Ha j s'); auto.
Qed.

Lemma no_holes_len : forall l, (forall s, In s l -> sp s <> None) -> length (ptrsl l) = length l.
Proof.
  induction l as [|a l IH]; intros H; simpl; auto. rewrite app_length, IH.
  - unfold slot_ptr. destruct (sp a) eqn:E; simpl; auto. elim (H a); auto. now left.
  - intros; apply H; now right.
Qed.

Lemma getMax_ok : forall g, gn g = live_count g -> no_holes g -> gl g <> [] ->
  exists i s p, getMaxGaussian g = Val (Some p) /\ nth_error (gl g) i = Some s /\ sp s = Some p /\
   ((exists j sj, nth_error (gl g) j = Some sj /\ (0 < sw sj)%Q) -> forall j sj, nth_error (gl g) j = Some sj -> (sw sj <= sw s)%Q) /\
   ((forall j sj, nth_error (gl g) j = Some sj -> (sw sj <= 0)%Q) -> i = 0).
Proof.
  intros g Hn Hh Hne. unfold getMaxGaussian.
  assert (HL : Z.to_nat (gn g) = length (gl g)).
  { rewrite Hn, live_count_ptrs. unfold ptrs. rewrite no_holes_len by exact Hh. lia. }
  rewrite HL.
  destruct (max_scan_ok g (seq 0 (length (gl g))) 0%Q 0 Hh) as (i & H1 & H2 & H3 & H4 & H5).
  { intros i Hi. apply in_seq in Hi. lia. }
  rewrite H1. cbn [obind].
  assert (Hi : i < length (gl g)).
  { destruct H2 as [->|H2]; [destruct (gl g); [congruence|simpl; lia]|]. apply in_seq in H2. lia. }
  destruct (nth_error_ex _ _ _ Hi) as (s & Hs). unfold slot_at. rewrite Hs. cbn [obind of_option].
  destruct (sp s) as [p|] eqn:Ep; [|exfalso; apply (Hh s); auto; eapply nth_error_In; eauto].
  exists i, s, p. repeat split; auto.
  - intros (j0 & s0 & Hj0 & Hp0) j sj Hj.
    assert (Hin : forall k sk, nth_error (gl g) k = Some sk -> In k (seq 0 (length (gl g)))).
    { intros k sk Hk. apply in_seq. apply nth_error_lt in Hk. lia. }
    destruct (H3 j sj (Hin _ _ Hj) Hj) as [Hl|(si & Hsi & Hl & _)]; [|congruence].
    destruct (H3 j0 s0 (Hin _ _ Hj0) Hj0) as [Hl0|(si & Hsi & Hl0 & Hl1)].
    + exfalso. apply (Qlt_not_le _ _ Hp0 Hl0).
    + assert (si = s) by congruence. subst. eapply Qle_trans; eauto. now apply Qlt_le_weak.
  - intro Ha. apply H5. intros j sj _ Hj. apply (Ha j sj Hj).
Qed.

Lemma getMax_empty : forall g, gn g = live_count g -> gl g = [] -> getMaxGaussian g = UB OutOfBounds.
Proof.
  intros [n l sf] Hn E. simpl in *. subst l. rewrite live_count_ptrs in Hn. simpl in Hn. subst n. reflexivity.
Qed.
