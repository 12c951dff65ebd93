From Coq Require Import QArith ZArith List Bool Arith Permutation Lia.
From Verif Require Import Base ListUtil GMModel GMSpec GMProofs GMProofs2 TracksModel TracksSpec.
Import ListNotations.
Local Open Scope nat_scope.

Lemma flat_split : forall (A : list track) x B, flat_map tptrs (A ++ x :: B) =
  flat_map tptrs A ++ tptrs x ++ flat_map tptrs B.
Proof. intros. rewrite flat_map_app. reflexivity. Qed.

Lemma tviews_intact : forall h h' ts, intact h h' (flat_map tptrs ts) -> tviews h' ts = tviews h ts.
Proof.
  induction ts as [|a ts IH]; intros H; simpl; auto. f_equal.
  - unfold tview_of. unfold view. rewrite (viewl_frame h h'); auto.
    intros p Hp. apply H. simpl. apply in_or_app. left. exact Hp.
  - apply IH. intros p Hp. apply H. simpl. apply in_or_app. now right.
Qed.

Lemma tgood_perm_mid : forall (A : list track) x B F,
  Permutation (flat_map tptrs (A ++ x :: B) ++ F) (tptrs x ++ flat_map tptrs (A ++ B) ++ F).
Proof.
  intros. rewrite flat_split, flat_map_app. rewrite <- !app_assoc.
  apply app_comm_tail.
Qed.

Lemma live_gn : forall g, gn g = live_count g -> (ptrs g = [] <-> gn g = 0%Z).
Proof.
  intros g H. rewrite H, live_count_ptrs. destruct (ptrs g); simpl; split; intro E; auto; try discriminate; lia.
Qed.

Lemma track_copy_ok : forall h A a B b F,
  tgood h (A ++ b :: B) F -> In a (A ++ B) ->
  exists h' b', track_copyTo h a b = Val (h', b') /\ tgood h' (A ++ b' :: B) F /\
    intact h h' F /\ tviews h' (A ++ b' :: B) = tviews h A ++ tview_of h a :: tviews h B.
Proof.
  intros h A a B b F [Ho Hn] Hin.
  assert (Ho' := owned_perm _ _ _ (tgood_perm_mid A b B F) Ho).
  assert (Ha : In a (A ++ b :: B)).
  { apply in_app_or in Hin as [?|?]; apply in_or_app; simpl; auto. }
  destruct (copyTo_ok h (tg a) (tg b) (flat_map tptrs (A ++ B) ++ F)) as (h' & g' & H1 & Hg & Hf & H2 & H3 & H4).
  - exact Ho'.
  - intros p Hp. apply in_or_app. left. apply in_flat_map. exists a. auto.
  - now apply Hn.
  - unfold track_copyTo. rewrite H1. simpl. exists h', (Trk (tp a) (tprev a) g').
    destruct Hg as [Hg1 Hg2].
    assert (Hfr : intact h h' (flat_map tptrs (A ++ B) ++ F)) by exact Hf.
    split; [reflexivity|]. split; [split|split].
    + eapply owned_perm; [symmetry; apply tgood_perm_mid|]. exact Hg1.
    + intros t Ht. apply in_app_or in Ht as [Ht|[<-|Ht]]; simpl; auto; apply Hn; apply in_or_app; simpl; auto.
    + intros p Hp. apply Hfr. apply in_or_app. now right.
    + unfold tviews. rewrite map_app. simpl. f_equal.
      * apply tviews_intact. intros p Hp. apply Hfr. rewrite flat_map_app.
        apply in_or_app. left. apply in_or_app. now left.
      * f_equal.
        -- unfold tview_of. simpl. now rewrite H2, H3, H4.
        -- apply tviews_intact. intros p Hp. apply Hfr. rewrite flat_map_app.
           apply in_or_app. left. apply in_or_app. now right.
Qed.

Lemma copy_at_ok : forall h ts s d a b F,
  tgood h ts F -> s <> d -> nth_error ts s = Some a -> nth_error ts d = Some b ->
  exists h' ts', copy_at h ts s d = Val (h', ts') /\ tgood h' ts' F /\ intact h h' F /\
    tviews h' ts' = upd (tviews h ts) d (tview_of h a).
Proof.
  intros h ts s d a b F Hg Hsd Hs Hd. unfold copy_at. rewrite Hs, Hd. simpl.
  destruct (upd_split _ ts d b b Hd) as (A & B & -> & HA & _). subst d.
  assert (Hin : In a (A ++ B)).
  { destruct (lt_dec s (length A)).
    - rewrite nth_error_app1 in Hs by lia. apply nth_error_In in Hs. apply in_or_app. auto.
    - rewrite nth_error_app2 in Hs by lia. destruct (s - length A) eqn:E; [lia|].
      simpl in Hs. apply nth_error_In in Hs. apply in_or_app. auto. }
  destruct (track_copy_ok h A a B b F Hg Hin) as (h' & b' & H1 & H2 & H3 & H4).
  rewrite H1. simpl. exists h', (upd (A ++ b :: B) (length A) b').
  assert (HU : forall x, upd (A ++ b :: B) (length A) x = A ++ x :: B).
  { intro. rewrite upd_app2, Nat.sub_diag by lia. reflexivity. }
  rewrite HU. split; [reflexivity|]. split; [exact H2|]. split; [exact H3|].
  - rewrite H4. unfold tviews at 3. rewrite map_app. simpl.
    rewrite upd_app2; rewrite map_length; [|lia]. rewrite Nat.sub_diag. reflexivity.
Qed.

Lemma copy_at_self : forall h ts d a F,
  tgood h ts F -> nth_error ts d = Some a ->
  (~ holds_gaussian (tview_of h a) -> copy_at h ts d d = Val (h, ts)) /\
  (holds_gaussian (tview_of h a) -> copy_at h ts d d = UB UseAfterFree).
Proof.
  intros h ts d a F [Ho Hn] Hd.
  assert (Hna := Hn a (nth_error_In _ _ Hd)).
  destruct (upd_split _ ts d a a Hd) as (A & B & E & HA & HU).
  assert (Ho' : owned h (tptrs a ++ flat_map tptrs (A ++ B) ++ F)).
  { eapply owned_perm; [apply tgood_perm_mid|]. rewrite <- E. exact Ho. }
  destruct (self_copy_iff h (tg a) _ Ho') as [H1 H2].
  unfold holds_gaussian, tview_of. simpl. unfold copy_at. rewrite Hd. simpl. unfold track_copyTo.
  split; intro Hz.
  - destruct (H2 (proj2 (live_gn _ Hna) ltac:(lia))) as (h' & H3 & ->). rewrite H3. simpl.
    destruct a as [p pp g]. simpl. rewrite HU, E. reflexivity.
  - rewrite (proj2 H1); auto. intro Hc. apply Hz. now apply live_gn.
Qed.

Lemma destroy_tracks_ok : forall ts h F, owned h (flat_map tptrs ts ++ F) ->
  exists h', destroy_tracks h ts = Val h' /\ owned h' F /\ intact h h' F.
Proof.
  induction ts as [|a ts IH]; intros h F Ho; simpl.
  - exists h. repeat split; auto; apply Ho.
  - simpl in Ho. rewrite <- app_assoc in Ho.
    destruct (destroy_ok h (tg a) _ Ho) as (h1 & H1 & Ho1 & Hf1). rewrite H1. simpl.
    destruct (IH h1 F Ho1) as (h2 & H2 & Ho2 & Hf2). exists h2. repeat split; auto; try apply Ho2.
    intros p Hp. rewrite Hf2 by auto. apply Hf1. apply in_or_app. now right.
Qed.

Lemma resize_down : forall h ts n F, tgood h ts F -> n <= length ts ->
  exists h' , resize h ts n = Val (h', firstn n ts) /\ tgood h' (firstn n ts) F /\
    intact h h' F /\ tviews h' (firstn n ts) = firstn n (tviews h ts).
Proof.
  intros h ts n F [Ho Hn] Hl. unfold resize.
  assert (Ho' : owned h (flat_map tptrs (skipn n ts) ++ flat_map tptrs (firstn n ts) ++ F)).
  { rewrite <- (firstn_skipn n ts) in Ho. rewrite flat_map_app, <- app_assoc in Ho.
    eapply owned_perm; [apply app_comm_tail|]. exact Ho. }
  destruct (destroy_tracks_ok _ _ _ Ho') as (h' & H1 & Ho1 & Hf). rewrite H1. simpl.
  replace (n - length ts) with 0 by lia. simpl. rewrite app_nil_r.
  exists h'. split; [reflexivity|]. repeat split; auto; try apply Ho1.
  - intros t Ht. apply Hn. rewrite <- (firstn_skipn n ts). apply in_or_app. now left.
  - intros p Hp. apply Hf. apply in_or_app. now right.
  - rewrite (tviews_intact h h').
    + unfold tviews. now rewrite firstn_map.
    + intros p Hp. apply Hf. apply in_or_app. now left.
Qed.

(** Prune *)
Definition keep (t : Q) (v : tview) : bool := negb (Qltb (tvP v) t).

Lemma keep_true : forall t v, keep t v = true <-> (t <= tvP v)%Q.
Proof. intros. unfold keep. rewrite negb_true_iff. apply Qltb_false. Qed.
Lemma keep_false : forall t v, keep t v = false <-> (tvP v < t)%Q.
Proof. intros. unfold keep. rewrite negb_false_iff. apply Qltb_true. Qed.

Lemma filter_all_false : forall A (f : A -> bool) l, (forall x, In x l -> f x = false) -> filter f l = [].
Proof. induction l; simpl; intros; auto. rewrite H by auto. apply IHl. auto. Qed.

Lemma tviews_len : forall h ts, length (tviews h ts) = length ts.
Proof. intros. apply map_length. Qed.

Lemma tviews_nth : forall h ts i x, nth_error ts i = Some x -> nth_error (tviews h ts) i = Some (tview_of h x).
Proof. intros. unfold tviews. now apply map_nth_error. Qed.

Lemma tviews_nth_inv : forall h ts i v, nth_error (tviews h ts) i = Some v ->
  exists x, nth_error ts i = Some x /\ v = tview_of h x.
Proof.
  intros h ts i v H. unfold tviews in H. rewrite nth_error_map in H.
  destruct (nth_error ts i); simpl in H; inversion H; eauto.
Qed.

Lemma prune_loop_ok : forall t F i h ts k (A K G : list tview),
  tgood h ts F -> tviews h ts = A ++ K ++ G -> length A = i -> length G = k ->
  (forall v, In v K -> keep t v = true) ->
  (K = [] -> ~ doomed_tail t A) ->
  exists h' ts' k' (K' G' : list tview), prune_loop h ts t i k = Val (h', ts', k') /\
    tgood h' ts' F /\ intact h h' F /\ tviews h' ts' = K' ++ G' /\ length G' = k' /\
    Permutation K' (filter (keep t) A ++ K).
Proof.
  induction i as [|i IH]; intros h ts k A K G Hg HV HA HG HK HD.
  - destruct A; [|discriminate]. simpl in *. exists h, ts, k, K, G.
    repeat split; auto; apply Hg.
  - destruct (exists_last (l := A)) as (A0 & x & ->); [destruct A; discriminate|].
    rewrite app_length in HA. simpl in HA. assert (HA0 : length A0 = i) by lia. clear HA.
    rewrite <- app_assoc in HV. simpl in HV.
    assert (Hx : nth_error (tviews h ts) i = Some x).
    { rewrite HV, nth_error_app2, HA0, Nat.sub_diag by lia. reflexivity. }
    destruct (tviews_nth_inv _ _ _ _ Hx) as (tx & Htx & Ex).
    simpl. rewrite Htx. simpl. change (tp tx) with (tvP (tview_of h tx)). rewrite <- Ex.
    assert (HN : length ts = i + 1 + length K + k).
    { rewrite <- (tviews_len h), HV, app_length. simpl. rewrite app_length. lia. }
    rewrite filter_app. simpl.
    destruct (keep t x) eqn:Ek.
    + assert (Eq : Qltb (tvP x) t = false) by (apply Qltb_false, keep_true, Ek). rewrite Eq.
      destruct (IH h ts k A0 (x :: K) G Hg HV HA0 HG) as (h' & ts' & k' & K' & G' & H1 & H2 & H3 & H4 & H5 & H6).
      { intros v [<-|Hv]; auto. }
      { discriminate. }
      exists h', ts', k', K', G'. repeat split; auto; try apply H2.
      rewrite <- app_assoc. exact H6.
    + assert (Eq : Qltb (tvP x) t = true) by (apply Qltb_true, keep_false, Ek). rewrite Eq.
      rewrite app_nil_r.
      destruct K as [|y0 K0] eqn:EK.
      * (* self copy *)
        simpl in HN. replace (length ts - 1 - k) with i by lia.
        assert (Hnh : ~ holds_gaussian x).
        { intro Hh. apply HD; auto. exists A0, x, []. repeat split; auto.
          apply keep_false, Ek. intros y []. }
        rewrite Ex in Hnh.
        destruct (copy_at_self h ts i tx F Hg Htx) as [Hs _]. rewrite (Hs Hnh). cbn [obind fst snd].
        destruct (IH h ts (S k) A0 [] (x :: G)) as (h' & ts' & k' & K' & G' & H1 & H2 & H3 & H4 & H5 & H6); auto.
        { simpl. lia. }
        { intros _ (A1 & z & B & E & Hz & Hzt & HB). apply HD; auto.
          exists A1, z, (B ++ [x]). rewrite E, <- app_assoc. repeat split; auto.
          intros y Hy. apply in_app_or in Hy as [Hy|[<-|[]]]; auto. apply keep_false, Ek. }
        exists h', ts', k', K', G'. repeat split; auto; apply H2.
      * destruct (exists_last (l := y0 :: K0)) as (K1 & y & EK1); [discriminate|].
        rewrite EK1 in *.
        rewrite app_length in HN. simpl in HN.
        assert (Hy : nth_error (tviews h ts) (length ts - 1 - k) = Some y).
        { rewrite HV. rewrite nth_error_app2 by lia. replace (length ts - 1 - k - length A0) with (S (length K1)) by lia.
          simpl. rewrite <- app_assoc, nth_error_app2, Nat.sub_diag by lia. reflexivity. }
        destruct (tviews_nth_inv _ _ _ _ Hy) as (ty & Hty & Ey).
        destruct (copy_at_ok h ts (length ts - 1 - k) i ty tx F Hg ltac:(lia) Hty Htx) as (h1 & ts1 & H1 & Hg1 & Hf1 & HV1).
        rewrite H1. cbn [obind fst snd].
        rewrite <- Ey in HV1. rewrite HV in HV1.
        rewrite upd_app2, HA0, Nat.sub_diag in HV1 by lia. simpl in HV1.
        destruct (IH h1 ts1 (S k) A0 (y :: K1) (y :: G)) as (h' & ts' & k' & K' & G' & H1' & H2 & H3 & H4 & H5 & H6); auto.
        { rewrite HV1. simpl. rewrite <- app_assoc. reflexivity. }
        { simpl. lia. }
        { intros v [<-|Hv]; apply HK; apply in_or_app; simpl; auto. }
        { discriminate. }
        exists h', ts', k', K', G'. repeat split; auto; try apply H2.
        -- intros p Hp. rewrite H3 by auto. now apply Hf1.
        -- rewrite H6. apply Permutation_app_head. apply Permutation_cons_append.
Qed.

Lemma prune_loop_ub : forall t F i h ts k (A G : list tview),
  tgood h ts F -> tviews h ts = A ++ G -> length A = i -> length G = k ->
  doomed_tail t A -> prune_loop h ts t i k = UB UseAfterFree.
Proof.
  induction i as [|i IH]; intros h ts k A G Hg HV HA HG HD.
  - destruct A; [|discriminate]. destruct HD as (A & x & B & E & _). destruct A; discriminate.
  - destruct (exists_last (l := A)) as (A0 & x & ->); [destruct A; discriminate|].
    rewrite app_length in HA. simpl in HA. assert (HA0 : length A0 = i) by lia. clear HA.
    rewrite <- app_assoc in HV. simpl in HV.
    assert (Hx : nth_error (tviews h ts) i = Some x).
    { rewrite HV, nth_error_app2, HA0, Nat.sub_diag by lia. reflexivity. }
    destruct (tviews_nth_inv _ _ _ _ Hx) as (tx & Htx & Ex).
    simpl. rewrite Htx. simpl. change (tp tx) with (tvP (tview_of h tx)). rewrite <- Ex.
    assert (HN : length ts = i + 1 + k).
    { rewrite <- (tviews_len h), HV, app_length. simpl. lia. }
    destruct HD as (A1 & z & B & E & Hz & Hzt & HB).
    assert (Hxt : (tvP x < t)%Q).
    { destruct B as [|b B].
      - apply app_inj_tail in E as [_ ->]. auto.
      - destruct (exists_last (l := b :: B)) as (B1 & w & EB); [discriminate|]. rewrite EB in *.
        rewrite app_comm_cons, app_assoc in E. apply app_inj_tail in E as [_ ->].
        apply HB. apply in_or_app. simpl. auto. }
    rewrite (proj2 (Qltb_true _ _) Hxt).
    replace (length ts - 1 - k) with i by lia.
    destruct (copy_at_self h ts i tx F Hg Htx) as [Hs Hu].
    destruct (Z.eq_dec (fst (fst (snd x))) 0) as [E0|E0].
    + rewrite Hs by (rewrite <- Ex; unfold holds_gaussian; lia). cbn [obind fst snd].
      destruct B as [|b B].
      { apply app_inj_tail in E as [_ ->]. elim Hz. exact E0. }
      destruct (exists_last (l := b :: B)) as (B1 & w & EB); [discriminate|]. rewrite EB in *.
      rewrite app_comm_cons, app_assoc in E. apply app_inj_tail in E as [EA ->].
      apply IH with (A := A0) (G := w :: G); auto.
      { simpl. lia. }
      exists A1, z, B1. repeat split; auto. intros y Hy. apply HB. apply in_or_app. auto.
    + rewrite Hu; auto. rewrite <- Ex. exact E0.
Qed.

Lemma pruneTracks_ok : forall h ts F t, tgood h ts F ->
  ~ doomed_tail t (tviews h ts) ->
  exists h' ts', pruneTracks h ts t = Val (h', ts') /\ tgood h' ts' F /\ intact h h' F /\
    Permutation (tviews h' ts') (filter (keep t) (tviews h ts)).
Proof.
  intros h ts F t Hg HD. unfold pruneTracks.
  destruct (prune_loop_ok t F (length ts) h ts 0 (tviews h ts) [] [] Hg) as
    (h1 & ts1 & k & K & G & H1 & H2 & H3 & H4 & H5 & H6); auto.
  - now rewrite app_nil_r.
  - apply tviews_len.
  - rewrite H1. cbn [obind].
    assert (HL : length ts1 = length K + k) by (rewrite <- (tviews_len h1), H4, app_length; lia).
    destruct (resize_down h1 ts1 (length ts1 - k) F H2 ltac:(lia)) as (h2 & H7 & H8 & H9 & H10).
    rewrite H7. exists h2, (firstn (length ts1 - k) ts1). repeat split; auto; try apply H8.
    + intros p Hp. rewrite H9 by auto. now apply H3.
    + rewrite H10, H4. rewrite app_nil_r in H6. rewrite <- H6.
      rewrite firstn_app. replace (length ts1 - k) with (length K) by lia.
      rewrite Nat.sub_diag, firstn_all. simpl. rewrite app_nil_r. reflexivity.
Qed.

Lemma pruneTracks_ub : forall h ts F t, tgood h ts F ->
  doomed_tail t (tviews h ts) -> pruneTracks h ts t = UB UseAfterFree.
Proof.
  intros h ts F t Hg HD. unfold pruneTracks.
  rewrite (prune_loop_ub t F (length ts) h ts 0 (tviews h ts) []); auto.
  - now rewrite app_nil_r.
  - apply tviews_len.
Qed.

Lemma classic_doomed : forall t V, doomed_tail t V \/ ~ doomed_tail t V.
Proof.
  intros t V. induction V as [|v V IH] using rev_ind.
  - right. intros (A & x & B & E & _). destruct A; discriminate.
  - destruct (keep t v) eqn:Ek.
    + right. intros (A & x & B & E & Hh & Hx & HB). apply keep_true in Ek.
      assert (In v (x :: B)) as Hin.
      { destruct B as [|b B].
        - apply app_inj_tail in E as [_ ->]. now left.
        - destruct (exists_last (l := b :: B)) as (B1 & w & EB); [discriminate|]. rewrite EB in *.
          rewrite app_comm_cons, app_assoc in E. apply app_inj_tail in E as [_ ->].
          right. apply in_or_app. simpl; auto. }
      apply (Qlt_not_le (tvP v) t); auto. destruct Hin as [<-|Hin]; auto.
    + apply keep_false in Ek. destruct IH as [IH|IH].
      * left. destruct IH as (A & x & B & E & Hh & Hx & HB). exists A, x, (B ++ [v]).
        rewrite E, <- app_assoc. repeat split; auto.
        intros y Hy. apply in_app_or in Hy as [Hy|[<-|[]]]; auto.
      * destruct (Z.eq_dec (fst (fst (snd v))) 0) as [E0|E0].
        -- right. intros (A & x & B & E & Hh & Hx & HB).
           destruct B as [|b B].
           { apply app_inj_tail in E as [_ ->]. elim Hh. exact E0. }
           destruct (exists_last (l := b :: B)) as (B1 & w & EB); [discriminate|]. rewrite EB in *.
           rewrite app_comm_cons, app_assoc in E. apply app_inj_tail in E as [EA ->].
           apply IH. exists A, x, B1. repeat split; auto. intros y Hy. apply HB. apply in_or_app; auto.
        -- left. exists V, v, []. repeat split; auto. intros y [].
Qed.

Lemma pruneTracks_ub_iff : forall h ts F t, tgood h ts F ->
  (pruneTracks h ts t = UB UseAfterFree <-> doomed_tail t (tviews h ts)).
Proof.
  intros h ts F t Hg. split; [|now apply pruneTracks_ub with F].
  intro H. destruct (classic_doomed t (tviews h ts)) as [?|Hn]; auto.
  destruct (pruneTracks_ok h ts F t Hg Hn) as (h' & ts' & H1 & _). congruence.
Qed.
