(** Lemmas for C04-C08: sums, histories of operations on several mixtures. *)
From Coq Require Import QArith ZArith List Bool Arith Lia Permutation Sorting.Sorted Setoid Morphisms.
From Verif Require Import Base ListUtil GMModel GMSpec GMProofs.
Import ListNotations.
Local Open Scope nat_scope.

(** ** Weight sums *)

Lemma nth_error_snoc_firstn : forall A (l : list A) n x, nth_error l n = Some x ->
  firstn (S n) l = firstn n l ++ [x].
Proof.
  induction l; intros n x H; destruct n; simpl in *; try discriminate.
  - inversion H; reflexivity.
  - f_equal. now apply IHl.
Qed.

Lemma sum_idx_ok : forall g k n acc, n + k <= length (gl g) ->
  exists q, sum_idx g acc (seq n k) = Val q /\
   (q == acc + Qsum (map sw (firstn k (skipn n (gl g)))))%Q.
Proof.
  intros g k. induction k as [|k IH]; intros n acc H; simpl.
  - exists acc. split; auto. ring.
  - unfold slot_at. destruct (nth_error_ex _ (gl g) n) as [s Hs]; [lia|]. rewrite Hs. simpl.
    destruct (IH (S n) (acc + sw s)%Q) as (q & H1 & H2); [lia|]. exists q. split; auto.
    rewrite H2. assert (skipn n (gl g) = s :: skipn (S n) (gl g)) as E.
    { clear - Hs. revert n Hs. induction (gl g); intros; destruct n; simpl in *; try discriminate.
      - inversion Hs; auto.
      - apply IHl. auto. }
    rewrite E. simpl. ring.
Qed.

Lemma norm_idx_ok : forall sum k A l, ~ (sum == 0)%Q -> k <= length l ->
  norm_idx (A ++ l) sum (seq (length A) k) =
  Val (A ++ map (fun s => Slot (sp s) (sw s / sum) (swp s)) (firstn k l) ++ skipn k l).
Proof.
  intros sum k. induction k as [|k IH]; intros A l Hs Hk; [reflexivity|].
  destruct l as [|s l]; simpl in Hk; [lia|]. cbn [seq norm_idx].
  rewrite nth_error_app2, Nat.sub_diag by lia. cbn [nth_error of_option obind].
  destruct (Qeq_bool sum 0) eqn:E; [apply Qeq_bool_iff in E; contradiction|].
  rewrite upd_app2, Nat.sub_diag by lia. cbn [upd].
  replace (A ++ Slot (sp s) (sw s / sum) (swp s) :: l) with ((A ++ [Slot (sp s) (sw s / sum) (swp s)]) ++ l)
    by (rewrite <- app_assoc; reflexivity).
  replace (S (length A)) with (length (A ++ [Slot (sp s) (sw s / sum) (swp s)])) by (rewrite app_length; simpl; lia).
  rewrite IH by (auto; lia). rewrite <- app_assoc. reflexivity.
Qed.

Lemma live_le : forall g, gn g = live_count g -> Z.to_nat (gn g) <= length (gl g).
Proof.
  intros g H. rewrite H, live_count_ptrs, Nat2Z.id. apply live_len_le.
Qed.

Lemma getWeightSum_ok : forall g, gn g = live_count g ->
  exists q, getWeightSum g = Val q /\
    (q == Qsum (map sw (firstn (Z.to_nat (gn g)) (gl g))))%Q.
Proof.
  intros g H. unfold getWeightSum.
  destruct (sum_idx_ok g (Z.to_nat (gn g)) 0 0%Q) as (q & H1 & H2).
  - pose proof (live_le g H). lia.
  - exists q. split; auto. rewrite H2. simpl. ring.
Qed.

Lemma normalize_ok : forall g, gn g = live_count g ->
  ~ (Qsum (map sw (firstn (Z.to_nat (gn g)) (gl g))) == 0)%Q ->
  exists q l, (q == Qsum (map sw (firstn (Z.to_nat (gn g)) (gl g))))%Q /\
    l = map (fun s => Slot (sp s) (sw s / q)%Q (swp s)) (firstn (Z.to_nat (gn g)) (gl g)) ++
        skipn (Z.to_nat (gn g)) (gl g) /\
    normalizeWeights g = Val (GM (gn g) l (gsorted g)).
Proof.
  intros g H Hnz. unfold normalizeWeights.
  destruct (sum_idx_ok g (Z.to_nat (gn g)) 0 0%Q) as (q & H1 & H2).
  { pose proof (live_le g H). lia. }
  rewrite H1. cbn [obind]. simpl skipn in H2. rewrite Qplus_0_l in H2.
  pose proof (norm_idx_ok q (Z.to_nat (gn g)) [] (gl g)) as HN. simpl in HN.
  rewrite HN.
  - simpl. eauto 10.
  - rewrite H2. exact Hnz.
  - apply live_le; auto.
Qed.

Lemma ptrsl_map : forall f l, (forall s, sp (f s) = sp s) -> ptrsl (map f l) = ptrsl l.
Proof. induction l; simpl; intros; auto. rewrite IHl by auto. unfold slot_ptr. rewrite H. reflexivity. Qed.

Lemma normalize_zero : forall g, gn g = live_count g -> gn g <> 0%Z ->
  (Qsum (map sw (firstn (Z.to_nat (gn g)) (gl g))) == 0)%Q -> normalizeWeights g = UB DivByZero.
Proof.
  intros g H Hne Hz. unfold normalizeWeights.
  destruct (sum_idx_ok g (Z.to_nat (gn g)) 0 0%Q) as (q & H1 & H2).
  { pose proof (live_le g H). lia. }
  rewrite H1. cbn [obind]. simpl skipn in H2. rewrite Qplus_0_l, Hz in H2.
  assert (0 <= gn g)%Z by (rewrite H; unfold live_count; lia).
  destruct (Z.to_nat (gn g)) as [|k] eqn:E; [lia|]. cbn [seq norm_idx].
  destruct (nth_error_ex _ (gl g) 0) as [s Hs].
  { pose proof (live_le g H). lia. }
  rewrite Hs. cbn [of_option obind]. apply Qeq_bool_iff in H2. rewrite H2. reflexivity.
Qed.

(** ** Worlds *)

Lemma split_at : forall (c : list nat) os i g, nth_error os i = Some (Some g) ->
  exists F, incl c F /\
    (forall j gj, j <> i -> nth_error os j = Some (Some gj) -> incl (ptrs gj) F) /\
    (forall o, Permutation (c ++ flat_map optrs (upd os i o)) (optrs o ++ F)) /\
    Permutation (c ++ flat_map optrs os) (ptrs g ++ F).
Proof.
  intros c os i g H. destruct (upd_split _ os i _ (Some g) H) as (A & B & -> & HA & _). subst i.
  exists (c ++ flat_map optrs A ++ flat_map optrs B).
  assert (forall o, Permutation (c ++ flat_map optrs (A ++ o :: B))
     (optrs o ++ c ++ flat_map optrs A ++ flat_map optrs B)) as HP.
  { intro o. rewrite flat_map_app. simpl. etransitivity; [apply Permutation_app_head, app_comm_tail|]. apply app_comm_tail. }
  split; [|split; [|split]].
  - intros x Hx. apply in_or_app. auto.
  - intros j gj Hj Hn x Hx. apply in_or_app. right. apply in_or_app.
    assert (In (Some gj) A \/ In (Some gj) B) as [Hin|Hin].
    { destruct (lt_dec j (length A)).
      - rewrite nth_error_app1 in Hn by lia. left. eapply nth_error_In; eauto.
      - rewrite nth_error_app2 in Hn by lia. destruct (j - length A) as [|k] eqn:E; [lia|].
        simpl in Hn. right. eapply nth_error_In; eauto. }
    + left. apply in_flat_map. exists (Some gj). auto.
    + right. apply in_flat_map. exists (Some gj). auto.
  - intro o. rewrite upd_app2, Nat.sub_diag by lia. simpl upd. apply HP.
  - apply (HP (Some g)).
Qed.

Lemma wf_count : forall w i g, wf w -> nth_error (wo w) i = Some (Some g) -> gn g = live_count g.
Proof. intros w i g [_ H] Hi. eauto. Qed.

(** Updating one object. *)
Lemma put_wf : forall w i g h' g' F,
  wf w -> nth_error (wo w) i = Some (Some g) ->
  (forall o, Permutation (caller w ++ flat_map optrs (upd (wo w) i o)) (optrs o ++ F)) ->
  (forall j gj, j <> i -> nth_error (wo w) j = Some (Some gj) -> incl (ptrs gj) F) ->
  good h' g' F -> frame (wh w) h' F ->
  wf (put w h' i g') /\ forall j, j <> i -> obs (put w h' i g') j = obs w j.
Proof.
  intros w i g h' g' F Hwf Hi HP Hinc [Ho Hn] Hf. split.
  - split.
    + unfold put, all_ptrs. simpl. eapply owned_perm; [symmetry; apply HP|]. exact Ho.
    + unfold put. simpl. intros j gj Hj. rewrite nth_error_upd in Hj. destruct (Nat.eq_dec i j).
      * destruct (lt_dec i (length (wo w))); inversion Hj; subst; auto.
      * eapply wf_count; eauto.
  - intros j Hj. unfold obs, put. simpl. rewrite nth_error_upd_neq by auto.
    destruct (nth_error (wo w) j) as [[gj|]|] eqn:E; auto.
    unfold view. rewrite (viewl_frame (wh w) h'); auto. eapply frame_incl; eauto.
Qed.

Lemma obj_val : forall w i g, obj w i = Val g -> nth_error (wo w) i = Some (Some g).
Proof. unfold obj. intros. destruct (nth_error (wo w) i) as [[x|]|]; congruence. Qed.

Lemma obj_eq : forall w i g, nth_error (wo w) i = Some (Some g) -> obj w i = Val g.
Proof. unfold obj. intros. rewrite H. reflexivity. Qed.

(** Replacing slot data without touching pointers. *)
Lemma good_same_ptrs : forall h g g' F, good h g F -> ptrs g' = ptrs g -> gn g' = gn g -> good h g' F.
Proof.
  intros h g g' F [Ho Hn] HP HN. split.
  - now rewrite HP.
  - rewrite HN, Hn, !live_count_ptrs, HP. reflexivity.
Qed.

Lemma incl_app_l : forall A (a b c : list A), incl a c -> incl a (b ++ c).
Proof. intros A a b c H x Hx. apply in_or_app. right. auto. Qed.

Section Step.
Variable mdist2 : lmk -> lmk -> Q.
Variable srt : list slot -> list slot.
Hypothesis srt_ok : sorter_ok srt.

Notation step := (step mdist2 srt).
Notation run := (run mdist2 srt).

(** What one successful operation guarantees. *)
Definition step_post (w : world) (o : op) (w' : world) : Prop :=
  wf w' /\ (forall j, alive w j -> untouched w o j -> obs w' j = obs w j).

Lemma put_post : forall w o i g h' g' F,
  wf w -> nth_error (wo w) i = Some (Some g) ->
  (forall o, Permutation (caller w ++ flat_map optrs (upd (wo w) i o)) (optrs o ++ F)) ->
  (forall j gj, j <> i -> nth_error (wo w) j = Some (Some gj) -> incl (ptrs gj) F) ->
  good h' g' F -> frame (wh w) h' F ->
  (forall j, untouched w o j -> i <> j) ->
  step_post w o (put w h' i g').
Proof.
  intros. destruct (put_wf w i g h' g' F) as [Ha Hb]; auto. split; auto.
  intros j _ Hu. apply Hb. intro; subst. eapply H5; eauto.
Qed.

Lemma good_of_wf : forall w i g F, wf w -> nth_error (wo w) i = Some (Some g) ->
  Permutation (caller w ++ flat_map optrs (wo w)) (ptrs g ++ F) -> good (wh w) g F.
Proof.
  intros w i g F Hwf Hi HP. split.
  - eapply owned_perm; [exact HP|]. apply Hwf.
  - eapply wf_count; eauto.
Qed.

Ltac one i Hi F :=
  match goal with Hwf : wf ?w |- _ =>
    let Hc := fresh "Hc" in let Hinc := fresh "Hinc" in let HP := fresh "HP" in let HP0 := fresh "HP0" in
    destruct (split_at (caller w) (wo w) i _ Hi) as (F & Hc & Hinc & HP & HP0);
    pose proof (good_of_wf w i _ F Hwf Hi HP0) as Hgood
  end.

Lemma step_preserves : forall w o w', wf w -> legal w o -> step w o = Val w' -> step_post w o w'.
Proof.
  intros w o w' Hwf Hleg Hst. destruct o as [l|p l| |s|i|s d|i p q am|d s q|i q|i k|i k q|i k l q|i t f|i t|i|i];
    cbn [GMModel.step] in Hst.
  - (* ONewLmk *) simpl in Hst. inversion Hst; subst. clear Hst.
    destruct Hwf as [Ho Hn]. destruct (owned_alloc (wh w) _ l Ho) as [Ho1 Hf1]. split; [split|].
    + unfold all_ptrs in *. simpl. eapply owned_perm; [|exact Ho1].
      rewrite <- app_assoc. simpl. apply Permutation_middle.
    + exact Hn.
    + intros j _ _. unfold obs. simpl. destruct (nth_error (wo w) j) as [[g|]|] eqn:E; auto.
      unfold view. rewrite (viewl_frame (wh w)); auto. eapply frame_incl; [exact Hf1|].
      intros x Hx. unfold all_ptrs. apply in_or_app. right. apply in_flat_map. exists (Some g).
      split; auto. eapply nth_error_In; eauto.
  - (* OWrite *) apply obind_val in Hst as (h' & Hs & Hst). inversion Hst; subst. clear Hst.
    destruct Hwf as [Ho Hn].
    assert (In p (all_ptrs w)) as Hin.
    { apply Ho. unfold store in Hs. apply obind_val in Hs as (x & Hx & _).
      unfold deref in Hx. destruct (nth_error (wh w) p) as [[y|]|]; inversion Hx; eauto. }
    destruct (owned_store (wh w) _ p l Ho Hin) as (H1 & Ho1 & Hneq & _).
    rewrite Hs in H1. inversion H1; subst. split; [split|]; auto.
    intros j _ Hu. unfold obs. simpl. destruct (nth_error (wo w) j) as [[g|]|] eqn:E; auto.
    unfold view. rewrite (viewl_frame (wh w)); auto. intros x Hx. apply Hneq. intro; subst.
    apply (Hu g); auto.
  - (* ONewGM *) inversion Hst; subst. clear Hst. destruct Hwf as [Ho Hn]. split; [split|].
    + unfold all_ptrs in *. simpl. rewrite flat_map_app. simpl. rewrite app_nil_r. exact Ho.
    + simpl. intros i g Hi. destruct (lt_dec i (length (wo w))).
      * rewrite nth_error_app1 in Hi by auto. eauto.
      * rewrite nth_error_app2 in Hi by lia. destruct (i - length (wo w)); simpl in Hi.
        -- inversion Hi; subst. reflexivity.
        -- destruct n0; discriminate.
    + intros j [gj Hj] _. unfold obs. simpl. rewrite nth_error_app1; auto. eapply nth_error_lt; eauto.
  - (* OCopyGM *)
    apply obind_val in Hst as (g & Hg & Hst). apply obj_val in Hg.
    apply obind_val in Hst as ([h' g'] & Hc & Hst). inversion Hst; subst. clear Hst. simpl.
    one s Hg F. 
    assert (no_holes g) as Hh.
    { intros x Hx Hnone. unfold gm_copy_ctor in Hc.
      rewrite (copy_slots_all_hole (gl g) (wh w) (ptrs g ++ F)) in Hc; [discriminate|apply Hgood| |eauto].
      intros y Hy. apply in_or_app. auto. }
    destruct (copy_ctor_ok (wh w) g F (proj1 Hgood) (proj2 Hgood) Hh) as (h2 & g2 & H2 & Ho2 & Hf2 & _ & Hn2 & _ & _).
    rewrite Hc in H2. inversion H2; subst. split; [split|].
    + unfold all_ptrs. simpl. rewrite flat_map_app. simpl. rewrite app_nil_r, app_assoc.
      eapply owned_perm; [|exact Ho2]. rewrite HP0. apply Permutation_app_comm.
    + simpl. intros i gi Hi. destruct (lt_dec i (length (wo w))).
      * rewrite nth_error_app1 in Hi by auto. eapply wf_count; eauto.
      * rewrite nth_error_app2 in Hi by lia. destruct (i - length (wo w)); simpl in Hi.
        -- inversion Hi; subst. auto.
        -- destruct n0; discriminate.
    + intros j [gj Hj] _. unfold obs. simpl. rewrite nth_error_app1 by (eapply nth_error_lt; eauto).
      rewrite Hj. unfold view. rewrite (viewl_frame (wh w)); auto. eapply frame_incl; [exact Hf2|].
      intros x Hx. eapply Permutation_in; [exact HP0|]. apply in_or_app. right. apply in_flat_map.
      exists (Some gj). split; auto. eapply nth_error_In; eauto.
  - (* ODelGM *)
    apply obind_val in Hst as (g & Hg & Hst). apply obj_val in Hg.
    apply obind_val in Hst as (h' & Hd & Hst). inversion Hst; subst. clear Hst.
    one i Hg F. destruct (destroy_ok (wh w) g F (proj1 Hgood)) as (h2 & H2 & Ho2 & Hf2).
    rewrite Hd in H2. inversion H2; subst. split; [split|].
    + unfold all_ptrs. simpl. eapply owned_perm; [symmetry; apply HP|]. exact Ho2.
    + simpl. intros j gj Hj. rewrite nth_error_upd in Hj. destruct (Nat.eq_dec i j).
      * destruct (lt_dec i (length (wo w))); discriminate.
      * eapply wf_count; eauto.
    + intros j [gj Hj] Hu. simpl in Hu. unfold obs. simpl. rewrite nth_error_upd_neq by auto. rewrite Hj.
      unfold view. rewrite (viewl_frame (wh w)); auto. eapply frame_incl; [exact Hf2|]. eapply Hinc; eauto.
  - (* OCopyTo *)
    apply obind_val in Hst as (gs & Hgs & Hst). apply obj_val in Hgs.
    apply obind_val in Hst as (gd & Hgd & Hst). apply obj_val in Hgd.
    apply obind_val in Hst as ([h' g'] & Hc & Hst). inversion Hst; subst. clear Hst. simpl.
    one d Hgd F. destruct (Nat.eq_dec s d) as [->|Hsd].
    + rewrite Hgs in Hgd. inversion Hgd; subst.
      destruct (self_copy_iff (wh w) gd F (proj1 Hgood)) as [Hub Hok].
      destruct (list_eq_dec Nat.eq_dec (ptrs gd) []) as [E|E].
      * destruct (Hok E) as (h2 & H2 & ->). rewrite Hc in H2. inversion H2; subst.
        eapply put_post; eauto using frame_refl.
      * apply Hub in E. rewrite Hc in E. discriminate.
    + destruct (copyTo_ok (wh w) gs gd F (proj1 Hgood)) as (h2 & g2 & H2 & Hg2 & Hf2 & _).
      * eapply Hinc; eauto.
      * eapply wf_count; eauto.
      * rewrite Hc in H2. inversion H2; subst. eapply put_post; eauto.
  - (* OAdd *)
    apply obind_val in Hst as (g & Hg & Hst). apply obj_val in Hg.
    apply obind_val in Hst as ([h' g'] & Ha & Hst). inversion Hst; subst. clear Hst. simpl.
    one i Hg F. destruct Hgood as [Ho Hn]. unfold addGaussian in Ha. destruct am.
    + apply obind_val in Ha as (x & Hx & Ha). simpl in Ha. inversion Ha; subst. clear Ha.
      destruct (owned_alloc (wh w) _ x Ho) as [Ho1 Hf1].
      eapply put_post; eauto.
      * split.
        -- unfold ptrs. simpl. rewrite ptrsl_app. simpl. rewrite <- app_assoc. simpl.
           eapply owned_perm; [|exact Ho1]. apply Permutation_middle.
        -- rewrite live_count_ptrs in *. unfold ptrs in *. simpl. rewrite ptrsl_app, app_length. simpl.
           rewrite Hn. lia.
      * eapply frame_incl; [exact Hf1|]. apply incl_app_l. apply incl_refl.
    + inversion Ha; subst. clear Ha. simpl in Hleg.
      (* ownership of p moves from the caller to the mixture *)
      assert (In p (all_ptrs w)) as Hin by (unfold all_ptrs; apply in_or_app; auto).
      split.
      * split; simpl.
        -- unfold all_ptrs. simpl.
           destruct Hwf as [Hwo _]. destruct (in_split p (caller w) Hleg) as (c1 & c2 & Hc12).
           assert (NoDup (all_ptrs w)) as ND by apply Hwo. unfold all_ptrs in ND. rewrite Hc12 in ND.
           rewrite <- app_assoc in ND. simpl in ND. pose proof (NoDup_remove_2 _ _ _ ND) as Hnin.
           assert (remove Nat.eq_dec p (caller w) = c1 ++ c2) as Hrem.
           { rewrite Hc12, remove_app. simpl. destruct (Nat.eq_dec p p); [|congruence].
             rewrite !notin_remove; auto.
             - intro H. apply Hnin. apply in_or_app. right. apply in_or_app. auto.
             - intro H. apply Hnin. apply in_or_app. auto. }
           rewrite Hrem.
           destruct (upd_split _ (wo w) i _ (Some (GM (gn g + 1) (gl g ++ [Slot (Some p) q 0]) false)) Hg) as (A & B & HAB & _ & ->).
           eapply owned_perm; [|exact Hwo]. unfold all_ptrs. rewrite Hc12, HAB, !flat_map_app. simpl.
           unfold ptrs. simpl. rewrite ptrsl_app. simpl. rewrite <- !app_assoc. simpl.
           rewrite <- (Permutation_middle c1). rewrite !app_assoc. apply Permutation_middle.
        -- intros j gj Hj. rewrite nth_error_upd in Hj. destruct (Nat.eq_dec i j).
           ++ destruct (lt_dec i (length (wo w))); inversion Hj; subst.
              rewrite live_count_ptrs in *. unfold ptrs in *. simpl. rewrite ptrsl_app, app_length. simpl.
              rewrite Hn. lia.
           ++ eapply wf_count; eauto.
      * intros j [gj Hj] Hu. simpl in Hu. unfold obs. simpl. rewrite nth_error_upd_neq by auto. reflexivity.
  - (* OAddGM *)
    apply obind_val in Hst as (gd & Hgd & Hst). apply obj_val in Hgd.
    apply obind_val in Hst as (gs & Hgs & Hst). apply obj_val in Hgs.
    destruct (Nat.eqb_spec d s) as [|Hne]; [discriminate|]. simpl in Hst. inversion Hst; subst. clear Hst.
    match goal with |- context [put (put w _ d ?x) _ s ?y] => set (gd' := x); set (gs' := y) end.
    assert (ptrs gd' = ptrs gd ++ ptrs gs) as Hpd.
    { unfold gd', ptrs. simpl. rewrite ptrsl_app, ptrsl_map; auto. }
    split.
    + split; simpl.
      * unfold all_ptrs. simpl.
        destruct (split_at (caller w) (wo w) d gd Hgd) as (F & _ & _ & HP & HP0).
        assert (nth_error (upd (wo w) d (Some gd')) s = Some (Some gs)) as Hs' by (rewrite nth_error_upd_neq; auto).
        destruct (split_at (caller w) (upd (wo w) d (Some gd')) s gs Hs') as (F' & _ & _ & HP' & HP0').
        eapply owned_perm; [|apply Hwf]. unfold all_ptrs. rewrite HP0, (HP' (Some gs')). simpl.
        rewrite (HP (Some gd')) in HP0'. simpl in HP0'. rewrite Hpd in HP0'.
        apply (Permutation_app_inv_l (ptrs gs)). rewrite <- HP0'.
        rewrite <- app_assoc. apply app_comm_tail.
      * intros j gj Hj. rewrite nth_error_upd in Hj. destruct (Nat.eq_dec s j).
        -- destruct (lt_dec s (length (upd (wo w) d (Some gd')))); inversion Hj; subst. reflexivity.
        -- rewrite nth_error_upd in Hj. destruct (Nat.eq_dec d j).
           ++ destruct (lt_dec d (length (wo w))); inversion Hj; subst.
              rewrite live_count_ptrs, Hpd, app_length. simpl.
              rewrite (wf_count w j gd Hwf Hgd), (wf_count w s gs Hwf Hgs), !live_count_ptrs. lia.
           ++ eapply wf_count; eauto.
    + intros j Hj [Hd Hs]. unfold obs. simpl. rewrite !nth_error_upd_neq by auto. reflexivity.
  - (* OMul *)
    apply obind_val in Hst as (g & Hg & Hst). apply obj_val in Hg. inversion Hst; subst. clear Hst.
    one i Hg F. eapply put_post; eauto using frame_refl.
    eapply good_same_ptrs; [exact Hgood| |reflexivity]. unfold ptrs. simpl. apply ptrsl_map. auto.
  - (* ORemove *)
    apply obind_val in Hst as (g & Hg & Hst). apply obj_val in Hg.
    apply obind_val in Hst as ([h' g'] & Hr & Hst). inversion Hst; subst. clear Hst.
    one i Hg F. destruct (nth_error (gl g) k) as [s|] eqn:E.
    + destruct (remove_ok (wh w) g F k s Hgood E) as (h2 & g2 & H2 & Hg2 & Hf2 & _).
      rewrite Hr in H2. inversion H2; subst. eapply put_post; eauto.
    + apply nth_error_None in E. rewrite remove_oob in Hr by exact E. discriminate.
  - (* OSetW *)
    apply obind_val in Hst as (g & Hg & Hst). apply obj_val in Hg.
    apply obind_val in Hst as (g' & Hr & Hst). inversion Hst; subst. clear Hst.
    one i Hg F. destruct (nth_error (gl g) k) as [s|] eqn:E.
    + destruct (setWeight_ok (wh w) g F k s q Hgood E) as (g2 & H2 & Hg2 & _).
      rewrite Hr in H2. inversion H2; subst. eapply put_post; eauto using frame_refl.
    + unfold setWeight, slot_at in Hr. rewrite E in Hr. discriminate.
  - (* OUpdate *)
    apply obind_val in Hst as (g & Hg & Hst). apply obj_val in Hg.
    apply obind_val in Hst as ([[h' g'] b] & Hr & Hst). inversion Hst; subst. clear Hst. simpl.
    one i Hg F. unfold updateGaussian in Hr.
    destruct (Nat.ltb (length (gl g)) k) eqn:El.
    + inversion Hr; subst. eapply put_post; eauto using frame_refl, good_same_ptrs.
    + apply obind_val in Hr as (s & Hs & Hr). unfold slot_at in Hs.
      destruct (nth_error (gl g) k) as [s'|] eqn:E; inversion Hs; subst. clear Hs.
      destruct (sp s) as [p|] eqn:Ep.
      * destruct (update_ok (wh w) g F k s p l q Hgood E Ep) as (h2 & g2 & H2 & Hg2 & Hf2 & _).
        unfold updateGaussian in H2. rewrite El in H2. unfold slot_at in H2. rewrite E in H2.
        cbn [of_option obind] in H2. rewrite Ep in H2. rewrite Hr in H2. inversion H2; subst.
        eapply put_post; eauto.
      * inversion Hr; subst. eapply put_post; eauto using frame_refl, good_same_ptrs.
  - (* OMerge *)
    apply obind_val in Hst as (g & Hg & Hst). apply obj_val in Hg.
    apply obind_val in Hst as ([[h' g'] b] & Hr & Hst). inversion Hst; subst. clear Hst. simpl.
    one i Hg F. destruct (merge_ok mdist2 (wh w) g F t f Hgood) as (h2 & g2 & tr & H2 & Hg2 & Hf2 & _).
    rewrite Hr in H2. inversion H2; subst. eapply put_post; eauto.
  - (* OPrune *)
    apply obind_val in Hst as (g & Hg & Hst). apply obj_val in Hg.
    apply obind_val in Hst as ([[h' g'] b] & Hr & Hst). inversion Hst; subst. clear Hst. simpl.
    one i Hg F. destruct (prune_ok srt (wh w) g F t srt_ok Hgood) as (h2 & g2 & k & H2 & Hg2 & Hf2 & _).
    rewrite Hr in H2. inversion H2; subst. eapply put_post; eauto.
  - (* OSort *)
    apply obind_val in Hst as (g & Hg & Hst). apply obj_val in Hg. inversion Hst; subst. clear Hst.
    one i Hg F. eapply put_post; eauto using frame_refl.
    unfold sortByWeight. destruct (gsorted g); auto. destruct g as [n l sf]. simpl.
    eapply perm_good; [symmetry; apply srt_ok|exact Hgood].
  - (* ONorm *)
    apply obind_val in Hst as (g & Hg & Hst). apply obj_val in Hg.
    apply obind_val in Hst as (g' & Hr & Hst). inversion Hst; subst. clear Hst.
    one i Hg F. eapply put_post; eauto using frame_refl.
    pose proof (proj2 Hgood) as Hn.
    destruct (Qeq_dec (Qsum (map sw (firstn (Z.to_nat (gn g)) (gl g)))) 0) as [Ez|Ez].
    + destruct (Z.eq_dec (gn g) 0) as [E0|E0].
      * unfold normalizeWeights in Hr. rewrite E0 in Hr. simpl in Hr. inversion Hr; subst.
        eapply good_same_ptrs; eauto.
      * rewrite (normalize_zero g Hn E0 Ez) in Hr. discriminate.
    + destruct (normalize_ok g Hn Ez) as (q & l & _ & Hl & H2). rewrite Hr in H2. inversion H2; subst.
      eapply good_same_ptrs; [exact Hgood| |reflexivity]. unfold ptrs. simpl.
      rewrite ptrsl_app, ptrsl_map by reflexivity. rewrite <- ptrsl_app, firstn_skipn. reflexivity.
Qed.

Lemma wf0 : wf world0.
Proof.
  split.
  - split; [constructor|]. intro p. simpl. split; [contradiction|]. intros [l H]. destruct p; discriminate.
  - intros i g H. destruct i; discriminate.
Qed.

Lemma run_wf : forall os w w', wf w -> along mdist2 srt legal w os -> run w os = Val w' -> wf w'.
Proof.
  induction os as [|o os IH]; intros w w' Hwf Hal Hr; simpl in Hr.
  - inversion Hr; subst; auto.
  - apply obind_val in Hr as (w1 & H1 & Hr). destruct Hal as [Hl Hal].
    eapply IH; [|apply Hal; eauto|exact Hr]. eapply step_preserves; eauto.
Qed.

Lemma run_count : forall os w i g, along mdist2 srt legal world0 os -> run world0 os = Val w ->
  nth_error (wo w) i = Some (Some g) -> getGaussianCount g = live_count g.
Proof. intros os w i g Hal Hr Hi. eapply wf_count; eauto. eapply run_wf; eauto. apply wf0. Qed.

Lemma run_owned : forall os w, along mdist2 srt legal world0 os -> run world0 os = Val w ->
  owned (wh w) (all_ptrs w).
Proof. intros os w Hal Hr. apply (run_wf os world0 w wf0 Hal Hr). Qed.

(** ** When is an operation defined? *)

Lemma step_safe_iff : forall w o, wf w -> legal w o ->
  ((exists w', step w o = Val w') <-> safe w o).
Proof.
  intros w o Hwf Hleg. unfold safe, the, alive. destruct o as [l|p l| |s|i|s d|i p q am|d s q|i q|i k|i k q|i k l q|i t f|i t|i|i]; cbn [GMModel.step].
  - simpl. split; intros; eauto.
  - split.
    + intros [w' H]. apply obind_val in H as (h' & Hs & _). unfold store in Hs.
      apply obind_val in Hs as (x & Hx & _). unfold deref in Hx.
      destruct Hwf as [[_ HI] _]. apply HI. destruct (nth_error (wh w) p) as [[y|]|]; inversion Hx; eauto.
    + intro Hin. destruct (owned_store _ _ p l (proj1 Hwf) Hin) as (H1 & _). rewrite H1. simpl. eauto.
  - split; eauto.
  - split.
    + intros [w' H]. apply obind_val in H as (g & Hg & H). apply obj_val in Hg. exists g. split; auto.
      apply obind_val in H as (hg & Hc & _). one s Hg F.
      intros x Hx Hn. pose proof (proj2 (copy_ctor_ub_iff (wh w) g F (proj1 Hgood))) as Hub.
      rewrite Hc in Hub. assert (~ no_holes g) as Hnh by (intro Hh; apply (Hh x); auto).
      specialize (Hub Hnh). discriminate.
    + intros (g & Hg & Hh). rewrite (obj_eq _ _ _ Hg). cbn [obind]. one s Hg F.
      destruct (copy_ctor_ok (wh w) g F (proj1 Hgood) (proj2 Hgood) Hh) as (h2 & g2 & H2 & _).
      rewrite H2. simpl. eauto.
  - split.
    + intros [w' H]. apply obind_val in H as (g & Hg & H). apply obj_val in Hg. eauto.
    + intros (g & Hg). rewrite (obj_eq _ _ _ Hg). cbn [obind]. one i Hg F.
      destruct (destroy_ok (wh w) g F (proj1 Hgood)) as (h2 & H2 & _). rewrite H2. simpl. eauto.
  - split.
    + intros [w' H]. apply obind_val in H as (gs & Hgs & H). apply obj_val in Hgs.
      apply obind_val in H as (gd & Hgd & H). apply obj_val in Hgd.
      apply obind_val in H as (hg & Hc & _). split; eauto. exists gs. split; auto.
      intros ->. rewrite Hgs in Hgd. inversion Hgd; subst. one d Hgs F.
      destruct (self_copy_iff (wh w) gd F (proj1 Hgood)) as [Hub _].
      destruct (list_eq_dec Nat.eq_dec (ptrs gd) []) as [E|E]; auto.
      apply Hub in E. congruence.
    + intros [[gd Hgd] (gs & Hgs & Hself)]. rewrite (obj_eq _ _ _ Hgs), (obj_eq _ _ _ Hgd). cbn [obind].
      one d Hgd F. destruct (Nat.eq_dec s d) as [->|Hsd].
      * rewrite Hgs in Hgd. inversion Hgd; subst.
        destruct (self_copy_iff (wh w) gd F (proj1 Hgood)) as [_ Hok].
        destruct (Hok (Hself eq_refl)) as (h2 & H2 & _). rewrite H2. simpl. eauto.
      * destruct (copyTo_ok (wh w) gs gd F (proj1 Hgood)) as (h2 & g2 & H2 & _).
        -- eapply Hinc; eauto.
        -- eapply wf_count; eauto.
        -- rewrite H2. simpl. eauto.
  - split.
    + intros [w' H]. apply obind_val in H as (g & Hg & H). apply obj_val in Hg. split; eauto.
      intros ->. apply obind_val in H as (hg & Ha & _). unfold addGaussian in Ha.
      apply obind_val in Ha as (x & Hx & _). unfold deref in Hx.
      destruct Hwf as [[_ HI] _]. apply HI. destruct (nth_error (wh w) p) as [[y|]|]; inversion Hx; eauto.
    + intros [(g & Hg) Hin]. rewrite (obj_eq _ _ _ Hg). cbn [obind]. unfold addGaussian. destruct am.
      * destruct (owned_deref (wh w) _ p (proj1 Hwf) (Hin eq_refl)) as (x & Hx & _). rewrite Hx. simpl. eauto.
      * simpl. eauto.
  - split.
    + intros [w' H]. apply obind_val in H as (gd & Hgd & H). apply obj_val in Hgd.
      apply obind_val in H as (gs & Hgs & H). apply obj_val in Hgs.
      destruct (Nat.eqb_spec d s); [discriminate|]. repeat split; eauto.
    + intros ([gd Hgd] & [gs Hgs] & Hne). rewrite (obj_eq _ _ _ Hgs), (obj_eq _ _ _ Hgd). cbn [obind].
      destruct (Nat.eqb_spec d s); [congruence|]. simpl. eauto.
  - split.
    + intros [w' H]. apply obind_val in H as (g & Hg & H). apply obj_val in Hg. eauto.
    + intros (g & Hg). rewrite (obj_eq _ _ _ Hg). simpl. eauto.
  - split.
    + intros [w' H]. apply obind_val in H as (g & Hg & H). apply obj_val in Hg. exists g. split; auto.
      apply obind_val in H as (hg & Hr & _). destruct (le_lt_dec (length (gl g)) k); auto.
      rewrite remove_oob in Hr by auto. discriminate.
    + intros (g & Hg & Hk). rewrite (obj_eq _ _ _ Hg). cbn [obind]. one i Hg F.
      destruct (nth_error_ex _ (gl g) k Hk) as [s Hs].
      destruct (remove_ok (wh w) g F k s Hgood Hs) as (h2 & g2 & H2 & _). rewrite H2. simpl. eauto.
  - split.
    + intros [w' H]. apply obind_val in H as (g & Hg & H). apply obj_val in Hg. exists g. split; auto.
      apply obind_val in H as (hg & Hr & _). unfold setWeight, slot_at in Hr.
      destruct (nth_error (gl g) k) eqn:E; [|discriminate]. eapply nth_error_lt; eauto.
    + intros (g & Hg & Hk). rewrite (obj_eq _ _ _ Hg). cbn [obind].
      destruct (nth_error_ex _ (gl g) k Hk) as [s Hs]. unfold setWeight, slot_at. rewrite Hs. simpl. eauto.
  - split.
    + intros [w' H]. apply obind_val in H as (g & Hg & H). apply obj_val in Hg. exists g. split; auto.
      apply obind_val in H as (hg & Hr & _). intros ->. unfold updateGaussian in Hr.
      rewrite Nat.ltb_irrefl in Hr. unfold slot_at in Hr.
      assert (nth_error (gl g) (length (gl g)) = None) as E by (apply nth_error_None; lia).
      rewrite E in Hr. discriminate.
    + intros (g & Hg & Hk). rewrite (obj_eq _ _ _ Hg). cbn [obind]. one i Hg F. unfold updateGaussian.
      destruct (Nat.ltb_spec (length (gl g)) k); [simpl; eauto|].
      destruct (nth_error_ex _ (gl g) k) as [s Hs]; [lia|]. unfold slot_at. rewrite Hs. cbn [of_option obind].
      destruct (sp s) as [p|] eqn:Ep; [|simpl; eauto].
      destruct (owned_store (wh w) _ p l (proj1 Hgood)) as (H1 & _).
      { apply in_or_app. left. eapply in_ptrsl; eauto. eapply nth_error_In; eauto. }
      rewrite H1. simpl. eauto.
  - split.
    + intros [w' H]. apply obind_val in H as (g & Hg & H). apply obj_val in Hg. eauto.
    + intros (g & Hg). rewrite (obj_eq _ _ _ Hg). cbn [obind]. one i Hg F.
      destruct (merge_ok mdist2 (wh w) g F t f Hgood) as (h2 & g2 & tr & H2 & _). rewrite H2. simpl. eauto.
  - split.
    + intros [w' H]. apply obind_val in H as (g & Hg & H). apply obj_val in Hg. eauto.
    + intros (g & Hg). rewrite (obj_eq _ _ _ Hg). cbn [obind]. one i Hg F.
      destruct (prune_ok srt (wh w) g F t srt_ok Hgood) as (h2 & g2 & k & H2 & _). rewrite H2. simpl. eauto.
  - split.
    + intros [w' H]. apply obind_val in H as (g & Hg & H). apply obj_val in Hg. eauto.
    + intros (g & Hg). rewrite (obj_eq _ _ _ Hg). simpl. eauto.
  - split.
    + intros [w' H]. apply obind_val in H as (g & Hg & H). apply obj_val in Hg. exists g. split; auto.
      apply obind_val in H as (g' & Hr & _). pose proof (wf_count w i g Hwf Hg) as Hn.
      destruct (Z.eq_dec (gn g) 0); auto. right. intro Hz. rewrite normalize_zero in Hr; auto. discriminate.
    + intros (g & Hg & Hk). rewrite (obj_eq _ _ _ Hg). cbn [obind]. pose proof (wf_count w i g Hwf Hg) as Hn.
      destruct (Qeq_dec (Qsum (map sw (firstn (Z.to_nat (gn g)) (gl g)))) 0) as [Ez|Ez].
      * destruct Hk as [E0|]; [|contradiction]. unfold normalizeWeights. rewrite E0. simpl. eauto.
      * destruct (normalize_ok g Hn Ez) as (q & l & _ & _ & H2). rewrite H2. simpl. eauto.
Qed.

(** ** Empty slots keep zero weight *)

Lemma hz_upd : forall n l sf sf' i s', holes_zero (GM n l sf) ->
  (sp s' = None -> (sw s' == 0 /\ swp s' == 0)%Q) -> forall n', holes_zero (GM n' (upd l i s') sf').
Proof.
  intros n l sf sf' i s' H Hs' n' s Hin Hn. simpl in Hin.
  apply In_nth_error in Hin as [k Hk]. rewrite nth_error_upd in Hk. destruct (Nat.eq_dec i k).
  - destruct (lt_dec i (length l)); inversion Hk; subst; auto.
  - apply H; auto. simpl. eapply nth_error_In; eauto.
Qed.

Lemma hz_same : forall g g', holes_zero g -> gl g' = gl g -> holes_zero g'.
Proof. intros g g' H E s Hs. rewrite E in Hs. apply H; auto. Qed.

Lemma hz_scale : forall l q, (forall s, In s l -> sp s = None -> (sw s == 0 /\ swp s == 0)%Q) ->
  forall s, In s (map (fun s => Slot (sp s) (sw s * q) (swp s)) l) -> sp s = None -> (sw s == 0 /\ swp s == 0)%Q.
Proof.
  intros l q H s Hin Hn. apply in_map_iff in Hin as (x & <- & Hx). simpl in *.
  destruct (H x Hx Hn) as [H1 H2]. split; auto. rewrite H1. ring.
Qed.

Lemma hz_remove : forall h g k h' g', holes_zero g -> removeGaussian h g k = Val (h', g') -> holes_zero g'.
Proof.
  intros h g k h' g' H Hr. unfold removeGaussian in Hr. apply obind_val in Hr as (s & Hs & Hr).
  destruct (sp s).
  - apply obind_val in Hr as (h1 & _ & Hr). inversion Hr; subst. destruct g as [n0 l sf]. simpl.
    eapply hz_upd; eauto. simpl. split; reflexivity.
  - inversion Hr; subst. eapply hz_same; eauto.
Qed.

Lemma hz_remove_list : forall is h g h' g', holes_zero g -> remove_list h g is = Val (h', g') -> holes_zero g'.
Proof.
  induction is; simpl; intros h g h' g' H Hr.
  - inversion Hr; subst; auto.
  - apply obind_val in Hr as ([h1 g1] & H1 & Hr). eapply IHis; [|exact Hr]. eapply hz_remove; eauto.
Qed.

Lemma hz_merge2 : forall h g i j t f h' g' b, holes_zero g -> merge2 mdist2 h g i j t f = Val (h', g', b) -> holes_zero g'.
Proof.
  intros h g i j t f h' g' b H Hr. unfold merge2 in Hr.
  apply obind_val in Hr as (s1 & Hs1 & Hr). destruct (sp s1) eqn:E1.
  2:{ inversion Hr; subst. eapply hz_same; eauto. }
  apply obind_val in Hr as (s2 & Hs2 & Hr). destruct (sp s2) eqn:E2.
  2:{ inversion Hr; subst. eapply hz_same; eauto. }
  apply obind_val in Hr as (a & Ha & Hr). apply obind_val in Hr as (b0 & Hb & Hr).
  destruct (Qltb (t * t) (mdist2 a b0) && Qltb (t * t) (mdist2 b0 a)).
  { inversion Hr; subst. eapply hz_same; eauto. }
  destruct (Qeq_bool (sw s1 + sw s2) 0). { inversion Hr; subst. eapply hz_same; eauto. }
  apply obind_val in Hr as (h1 & Hst & Hr). apply obind_val in Hr as ([h2 g2] & Hrm & Hr).
  inversion Hr; subst. eapply hz_remove; [|exact Hrm]. destruct g as [n1 l sf]. simpl.
  eapply hz_upd; eauto. discriminate.
Qed.

Lemma hz_merge_inner : forall js h g i t f c h' g' c', holes_zero g ->
  merge_inner mdist2 h g i js t f c = Val (h', g', c') -> holes_zero g'.
Proof.
  induction js; simpl; intros h g i t f c h' g' c' H Hr.
  - inversion Hr; subst; auto.
  - apply obind_val in Hr as ([[h1 g1] b] & H1 & Hr). eapply IHjs; [|exact Hr]. eapply hz_merge2; eauto.
Qed.

Lemma hz_merge_outer : forall is h g n t f c h' g' c', holes_zero g ->
  merge_outer mdist2 h g n is t f c = Val (h', g', c') -> holes_zero g'.
Proof.
  induction is; simpl; intros h g n t f c h' g' c' H Hr.
  - inversion Hr; subst; auto.
  - apply obind_val in Hr as (s & Hs & Hr). destruct (sp s).
    + apply obind_val in Hr as ([[h1 g1] c1] & H1 & Hr). eapply IHis; [|exact Hr]. eapply hz_merge_inner; eauto.
    + eapply IHis; eauto.
Qed.

Lemma hz_prune : forall h g t h' g' k, holes_zero g -> prune srt h g t = Val (h', g', k) -> holes_zero g'.
Proof.
  intros h g t h' g' k H Hr. unfold prune in Hr. destruct (gl g) eqn:E.
  - inversion Hr; subst. intros s Hs. simpl in Hs. contradiction.
  - rewrite <- E in Hr. apply obind_val in Hr as (i0 & Hb & Hr). cbv zeta in Hr.
    apply obind_val in Hr as ([h1 g1] & H1 & Hr). inversion Hr; subst.
    apply hz_remove_list in H1.
    + intros x Hx. apply H1. simpl in Hx. apply in_firstn_nth in Hx as (j & _ & Hj). eapply nth_error_In; eauto.
    + unfold sortByWeight. simpl. intros x Hx. simpl in Hx. apply H.
      eapply Permutation_in; [apply srt_ok|exact Hx].
Qed.

Lemma hz_copy_slots : forall l h h' l', (forall s, In s l -> sp s = None -> (sw s == 0 /\ swp s == 0)%Q) ->
  copy_slots h l = Val (h', l') -> forall s, In s l' -> sp s = None -> (sw s == 0 /\ swp s == 0)%Q.
Proof.
  induction l as [|x l IH]; intros h h' l' H Hc s Hs Hn; simpl in Hc.
  - inversion Hc; subst. contradiction.
  - destruct (sp x) eqn:E.
    + apply obind_val in Hc as (y & Hy & Hc). simpl in Hc.
      apply obind_val in Hc as ([h1 l1] & H1 & Hc). simpl in Hc. inversion Hc; subst.
      destruct Hs as [<-|Hs]; [discriminate|]. eapply IH; eauto. intros. apply H; auto. now right.
    + apply obind_val in Hc as ([h1 l1] & H1 & Hc). simpl in Hc. inversion Hc; subst.
      destruct Hs as [<-|Hs]; [apply H; auto; now left|]. eapply IH; eauto. intros. apply H; auto. now right.
Qed.

Lemma hz_copy_all : forall l h h' l', copy_slots_all h l = Val (h', l') -> forall s, In s l' -> sp s <> None.
Proof.
  induction l as [|x l IH]; intros h h' l' Hc s Hs; simpl in Hc.
  - inversion Hc; subst. contradiction.
  - destruct (sp x) eqn:E; [|discriminate].
    apply obind_val in Hc as (y & Hy & Hc). simpl in Hc.
    apply obind_val in Hc as ([h1 l1] & H1 & Hc). simpl in Hc. inversion Hc; subst.
    destruct Hs as [<-|Hs]; [discriminate|]. eapply IH; eauto.
Qed.

Definition all_hz (w : world) : Prop := forall i g, nth_error (wo w) i = Some (Some g) -> holes_zero g.

Lemma all_hz_put : forall w h i g, all_hz w -> holes_zero g -> all_hz (put w h i g).
Proof.
  intros w h i g H Hg j gj Hj. unfold put in Hj. simpl in Hj. rewrite nth_error_upd in Hj.
  destruct (Nat.eq_dec i j); eauto. destruct (lt_dec i (length (wo w))); inversion Hj; subst; auto.
Qed.

Lemma all_hz_snoc : forall w h c g, all_hz w -> holes_zero g -> all_hz (World h (wo w ++ [Some g]) c).
Proof.
  intros w h c g H Hg j gj Hj. simpl in Hj. destruct (lt_dec j (length (wo w))).
  - rewrite nth_error_app1 in Hj by auto. eauto.
  - rewrite nth_error_app2 in Hj by lia. destruct (j - length (wo w)) as [|k]; simpl in Hj.
    + inversion Hj; subst. auto.
    + destruct k; discriminate.
Qed.

Lemma step_hz : forall w o w', all_hz w -> setw_live w o -> step w o = Val w' -> all_hz w'.
Proof.
  intros w o w' H Hset Hst. destruct o as [l|p l| |s|i|s d|i p q am|d s q|i q|i k|i k q|i k l q|i t f|i t|i|i];
    cbn [GMModel.step] in Hst.
  - simpl in Hst. inversion Hst; subst. exact H.
  - apply obind_val in Hst as (h' & _ & Hst). inversion Hst; subst. exact H.
  - inversion Hst; subst. apply all_hz_snoc; auto. intros x Hx; contradiction.
  - apply obind_val in Hst as (g & Hg & Hst). apply obind_val in Hst as ([h' g'] & Hc & Hst).
    inversion Hst; subst. apply all_hz_snoc; auto. unfold gm_copy_ctor in Hc.
    apply obind_val in Hc as ([h1 l1] & H1 & Hc). simpl in Hc. inversion Hc; subst. simpl.
    intros x Hx Hn. exfalso. eapply hz_copy_all; eauto.
  - apply obind_val in Hst as (g & Hg & Hst). apply obind_val in Hst as (h' & Hd & Hst).
    inversion Hst; subst. intros j gj Hj. simpl in Hj. rewrite nth_error_upd in Hj.
    destruct (Nat.eq_dec i j); eauto. destruct (lt_dec i (length (wo w))); discriminate.
  - apply obind_val in Hst as (gs & Hgs & Hst). apply obj_val in Hgs.
    apply obind_val in Hst as (gd & Hgd & Hst). apply obind_val in Hst as ([h' g'] & Hc & Hst).
    inversion Hst; subst. apply all_hz_put; auto. unfold copyTo in Hc.
    apply obind_val in Hc as (h1 & H1 & Hc). apply obind_val in Hc as ([h2 l2] & H2 & Hc).
    simpl in Hc. inversion Hc; subst. simpl. intros x Hx Hn. eapply hz_copy_slots; eauto. intros; eapply H; eauto.
  - apply obind_val in Hst as (g & Hg & Hst). apply obj_val in Hg.
    apply obind_val in Hst as ([h' g'] & Hc & Hst).
    assert (holes_zero g') as Hz.
    { unfold addGaussian in Hc. destruct am.
      - apply obind_val in Hc as (x & Hx & Hc). simpl in Hc. inversion Hc; subst.
        intros y Hy Hn. simpl in Hy. apply in_app_or in Hy as [Hy|[<-|[]]]; [eapply H; eauto|discriminate].
      - inversion Hc; subst.
        intros y Hy Hn. simpl in Hy. apply in_app_or in Hy as [Hy|[<-|[]]]; [eapply H; eauto|discriminate]. }
    inversion Hst; subst. clear Hst. pose proof (all_hz_put w h' i g' H Hz) as HH.
    destruct am; auto.
  - apply obind_val in Hst as (gd & Hgd & Hst). apply obj_val in Hgd.
    apply obind_val in Hst as (gs & Hgs & Hst). apply obj_val in Hgs.
    destruct (Nat.eqb d s); [discriminate|]. simpl in Hst. inversion Hst; subst.
    apply all_hz_put; [apply all_hz_put; auto|].
    + intros x Hx Hn. simpl in Hx. apply in_app_or in Hx as [Hx|Hx]; [exact (H d gd Hgd x Hx Hn)|].
      eapply hz_scale; [|exact Hx|exact Hn]. exact (H s gs Hgs).
    + intros x Hx; contradiction.
  - apply obind_val in Hst as (g & Hg & Hst). apply obj_val in Hg. inversion Hst; subst.
    apply all_hz_put; auto. intros x Hx Hn. simpl in Hx.
    eapply hz_scale; [|exact Hx|exact Hn]. intros; eapply H; eauto.
  - apply obind_val in Hst as (g & Hg & Hst). apply obj_val in Hg.
    apply obind_val in Hst as ([h' g'] & Hr & Hst). inversion Hst; subst. apply all_hz_put; auto.
    eapply hz_remove; eauto.
  - apply obind_val in Hst as (g & Hg & Hst). apply obj_val in Hg.
    apply obind_val in Hst as (g' & Hr & Hst). inversion Hst; subst. apply all_hz_put; auto.
    unfold setWeight, slot_at in Hr. destruct (nth_error (gl g) k) as [s|] eqn:E; inversion Hr; subst.
    pose proof (Hset g s Hg E) as Hlive. pose proof (H i g Hg) as Hz. destruct g as [n l sf].
    simpl in *. eapply hz_upd; eauto. simpl. contradiction.
  - apply obind_val in Hst as (g & Hg & Hst). apply obj_val in Hg.
    apply obind_val in Hst as ([[h' g'] b] & Hr & Hst). inversion Hst; subst. apply all_hz_put; auto.
    unfold updateGaussian in Hr. destruct (Nat.ltb (length (gl g)) k).
    { inversion Hr; subst. eapply hz_same; eauto. }
    apply obind_val in Hr as (s & Hs & Hr). destruct (sp s) as [p|] eqn:E.
    + apply obind_val in Hr as (h1 & _ & Hr). inversion Hr; subst. pose proof (H i g Hg) as Hz.
      destruct g as [n l0 sf]. simpl. eapply hz_upd; eauto. discriminate.
    + inversion Hr; subst. eapply hz_same; eauto.
  - apply obind_val in Hst as (g & Hg & Hst). apply obj_val in Hg.
    apply obind_val in Hst as ([[h' g'] b] & Hr & Hst). inversion Hst; subst. apply all_hz_put; auto.
    unfold merge in Hr. eapply hz_merge_outer; [|exact Hr]. eapply hz_same; eauto.
  - apply obind_val in Hst as (g & Hg & Hst). apply obj_val in Hg.
    apply obind_val in Hst as ([[h' g'] b] & Hr & Hst). inversion Hst; subst. apply all_hz_put; auto.
    eapply hz_prune; eauto.
  - apply obind_val in Hst as (g & Hg & Hst). apply obj_val in Hg. inversion Hst; subst. apply all_hz_put; auto.
    unfold sortByWeight. pose proof (H i g Hg) as Hz. destruct (gsorted g); auto.
    intros x Hx. simpl in Hx. apply Hz. eapply Permutation_in; [apply srt_ok|exact Hx].
  - apply obind_val in Hst as (g & Hg & Hst). apply obj_val in Hg.
    apply obind_val in Hst as (g' & Hr & Hst). inversion Hst; subst. apply all_hz_put; auto.
    unfold normalizeWeights in Hr. apply obind_val in Hr as (sum & _ & Hr). apply obind_val in Hr as (l & Hl & Hr).
    inversion Hr; subst. pose proof (H i g Hg) as Hz. clear - Hl Hz. destruct g as [n l0 sf]. simpl in *.
    revert l0 Hl Hz. generalize (seq 0 (Z.to_nat n)) as is. induction is; simpl; intros l0 Hl Hz.
    + inversion Hl; subst. auto.
    + apply obind_val in Hl as (s & Hs & Hl). destruct (Qeq_bool sum 0); [discriminate|].
      eapply IHis; [exact Hl|]. destruct (nth_error l0 a) as [s'|] eqn:E; inversion Hs; subst.
      eapply hz_upd; eauto. simpl. intro Hn. destruct (Hz s) as [H1 H2]; auto.
      * simpl. eapply nth_error_In; eauto.
      * split; auto. unfold Qdiv. rewrite H1. ring.
Qed.

Lemma run_hz : forall os w w', all_hz w -> along mdist2 srt setw_live w os -> run w os = Val w' -> all_hz w'.
Proof.
  induction os as [|o os IH]; intros w w' Hz Hal Hr; simpl in Hr.
  - inversion Hr; subst; auto.
  - apply obind_val in Hr as (w1 & H1 & Hr). destruct Hal as [Hl Hal].
    eapply IH; [|apply Hal; eauto|exact Hr]. eapply step_hz; eauto.
Qed.

Lemma run_hz0 : forall os w i g, along mdist2 srt setw_live world0 os -> run world0 os = Val w ->
  nth_error (wo w) i = Some (Some g) -> holes_zero g.
Proof.
  intros os w i g Hal Hr Hi. eapply (run_hz os world0 w); eauto.
  intros j gj Hj. destruct j; discriminate.
Qed.

(** ** Independence of copies over whole histories *)

Definition alive_obs (w : world) (j : nat) := obs w j <> None.

Lemma obs_alive : forall w j, obs w j <> None <-> alive w j.
Proof.
  intros w j. unfold obs, alive. destruct (nth_error (wo w) j) as [[g|]|]; split; intro H; eauto; try congruence;
  destruct H as [g' H]; congruence.
Qed.

Lemma run_untouched : forall os w w' j, wf w -> alive w j ->
  along mdist2 srt (fun w o => legal w o /\ untouched w o j) w os ->
  run w os = Val w' -> obs w' j = obs w j.
Proof.
  induction os as [|o os IH]; intros w w' j Hwf Haj Hal Hr; simpl in Hr.
  - inversion Hr; subst; auto.
  - apply obind_val in Hr as (w1 & H1 & Hr). destruct Hal as [[Hl Hu] Hal].
    destruct (step_preserves w o w1 Hwf Hl H1) as [Hwf1 Hobs].
    pose proof (Hobs j Haj Hu) as E. rewrite <- E. eapply IH; eauto.
    apply obs_alive. rewrite E. now apply obs_alive.
Qed.

Lemma copyTo_equal : forall w s d w', wf w -> s <> d -> step w (OCopyTo s d) = Val w' ->
  obs w' d = obs w s /\ obs w' s = obs w s.
Proof.
  intros w s d w' Hwf Hne Hst.
  assert (obs w' s = obs w s) as Hs.
  { apply (proj2 (step_preserves w (OCopyTo s d) w' Hwf I Hst)).
    - cbn [GMModel.step] in Hst. apply obind_val in Hst as (gs & Hgs & _). apply obj_val in Hgs. eexists; eauto.
    - simpl. auto. }
  split; auto. cbn [GMModel.step] in Hst.
  apply obind_val in Hst as (gs & Hgs & Hst). apply obj_val in Hgs.
  apply obind_val in Hst as (gd & Hgd & Hst). apply obj_val in Hgd.
  apply obind_val in Hst as ([h' g'] & Hc & Hst). inversion Hst; subst. clear Hst.
  one d Hgd F. destruct (copyTo_ok (wh w) gs gd F (proj1 Hgood)) as (h2 & g2 & H2 & Hg2 & Hf2 & Hn & Hsf & Hv).
  - eapply Hinc; eauto.
  - eapply wf_count; eauto.
  - rewrite Hc in H2. inversion H2; subst. unfold obs, put. simpl.
    rewrite nth_error_upd_eq by (eapply nth_error_lt; eauto). rewrite Hgs.
    unfold getGaussianCount. rewrite Hn, Hsf, Hv. reflexivity.
Qed.

Lemma copyctor_equal : forall w s w', wf w -> step w (OCopyGM s) = Val w' ->
  obs w' (length (wo w)) = obs w s /\ obs w' s = obs w s.
Proof.
  intros w s w' Hwf Hst.
  assert (obs w' s = obs w s) as Hs.
  { apply (proj2 (step_preserves w (OCopyGM s) w' Hwf I Hst)).
    - cbn [GMModel.step] in Hst. apply obind_val in Hst as (gs & Hgs & _). apply obj_val in Hgs. eexists; eauto.
    - simpl. auto. }
  split; auto.
  assert (no_holes_s : the no_holes w s) by (apply (step_safe_iff w (OCopyGM s) Hwf I); eauto).
  destruct no_holes_s as (gs & Hgs & Hh). cbn [GMModel.step] in Hst.
  rewrite (obj_eq _ _ _ Hgs) in Hst. cbn [obind] in Hst.
  one s Hgs F. destruct (copy_ctor_ok (wh w) gs F (proj1 Hgood) (proj2 Hgood) Hh) as (h2 & g2 & H2 & _ & _ & Hn & _ & Hsf & Hv).
  rewrite H2 in Hst. simpl in Hst. inversion Hst; subst. unfold obs. simpl.
  rewrite nth_error_app2, Nat.sub_diag by lia. simpl. rewrite Hgs.
  unfold getGaussianCount. rewrite Hn, Hsf, Hv. reflexivity.
Qed.

End Step.
