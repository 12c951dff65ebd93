(** Lemmas for C04-C08. *)
From Coq Require Import QArith ZArith List Bool Arith Lia Permutation Sorting.Sorted Setoid Morphisms.
From Verif Require Import Base ListUtil GMModel GMSpec.
Import ListNotations.
Local Open Scope nat_scope.

(** ** Heap *)

Definition frame (h h' : heap) (F : list nat) : Prop :=
  forall p, In p F -> nth_error h' p = nth_error h p.

Lemma frame_refl : forall h F, frame h h F.
Proof. intros h F p _. reflexivity. Qed.

Lemma frame_trans : forall h1 h2 h3 F, frame h1 h2 F -> frame h2 h3 F -> frame h1 h3 F.
Proof. intros h1 h2 h3 F H1 H2 p Hp. rewrite (H2 p Hp). auto. Qed.

Lemma frame_incl : forall h h' F G, frame h h' F -> incl G F -> frame h h' G.
Proof. intros h h' F G H I p Hp. apply H. auto. Qed.

Lemma owned_perm : forall h P P', Permutation P P' -> owned h P -> owned h P'.
Proof.
  intros h P P' HP [ND HI]. split.
  - eapply Permutation_NoDup; eauto.
  - intro p. rewrite <- HI. split; intro H.
    + eapply Permutation_in; [symmetry; exact HP|exact H].
    + eapply Permutation_in; eauto.
Qed.

Lemma owned_deref : forall h P p, owned h P -> In p P -> exists l, deref h p = Val l /\ nth_error h p = Some (Some l).
Proof.
  intros h P p [_ HI] Hin. apply HI in Hin. destruct Hin as [l Hl].
  exists l. unfold deref. rewrite Hl. auto.
Qed.

Lemma owned_free : forall h p P, owned h (p :: P) ->
  exists h', free h p = Val h' /\ owned h' P /\ frame h h' P.
Proof.
  intros h p P [ND HI]. inversion ND; subst.
  destruct (proj1 (HI p) (or_introl eq_refl)) as [l Hl].
  exists (upd h p None). unfold free. rewrite Hl. repeat split; auto.
  - intro Hin. assert (p0 <> p) by (intro; subst; auto).
    rewrite nth_error_upd_neq by auto. apply HI. now right.
  - intros [l' Hl']. rewrite nth_error_upd in Hl'. destruct (Nat.eq_dec p p0).
    + subst. destruct (lt_dec p0 (length h)); discriminate.
    + assert (In p0 (p :: P)) as [->|] by (apply HI; eauto); auto; congruence.
  - intros q Hq. apply nth_error_upd_neq. intro; subst; auto.
Qed.

Lemma owned_lt : forall h P p, owned h P -> In p P -> p < length h.
Proof. intros h P p [_ HI] Hin. apply HI in Hin as [l Hl]. eapply nth_error_lt; eauto. Qed.

Lemma owned_alloc : forall h P l, owned h P ->
  owned (h ++ [Some l]) (length h :: P) /\ frame h (h ++ [Some l]) P.
Proof.
  intros h P l [ND HI]. split.
  - split.
    + constructor; auto. intro Hin. apply HI in Hin as [x Hx]. apply nth_error_lt in Hx. lia.
    + intro p. split.
      * intros [<-|Hin].
        -- exists l. rewrite nth_error_app2, Nat.sub_diag by lia. reflexivity.
        -- apply HI in Hin as [x Hx]. exists x. rewrite nth_error_app1; auto.
           eapply nth_error_lt; eauto.
      * intros [x Hx]. destruct (lt_dec p (length h)).
        -- rewrite nth_error_app1 in Hx by auto. right. apply HI. eauto.
        -- apply nth_error_lt in Hx. rewrite app_length in Hx. simpl in Hx. left. lia.
  - intros p Hin. apply HI in Hin as [x Hx]. rewrite nth_error_app1; auto.
    eapply nth_error_lt; eauto.
Qed.

Lemma owned_store : forall h P p l, owned h P -> In p P ->
  store h p l = Val (upd h p (Some l)) /\ owned (upd h p (Some l)) P /\
  (forall q, q <> p -> nth_error (upd h p (Some l)) q = nth_error h q) /\
  nth_error (upd h p (Some l)) p = Some (Some l).
Proof.
  intros h P p l H Hin. destruct (owned_deref h P p H Hin) as (x & Hd & Hx).
  pose proof (nth_error_lt _ _ _ _ Hx) as Hlt.
  destruct H as [ND HI]. unfold store. rewrite Hd. simpl.
  split; [reflexivity|]. split; [|split].
  - split; auto. intro q. rewrite nth_error_upd. destruct (Nat.eq_dec p q).
    + subst. destruct (lt_dec q (length h)); [|lia]. split; intros; eauto.
    + apply HI.
  - intros q Hq. apply nth_error_upd_neq. auto.
  - now apply nth_error_upd_eq.
Qed.

(** ** Slots *)

Lemma ptrsl_app : forall a b, ptrsl (a ++ b) = ptrsl a ++ ptrsl b.
Proof. intros. unfold ptrsl. apply flat_map_app. Qed.

Lemma ptrsl_cons : forall s l, ptrsl (s :: l) = slot_ptr s ++ ptrsl l.
Proof. reflexivity. Qed.

Definition islive (s : slot) : bool := match sp s with Some _ => true | None => false end.

Lemma live_len : forall l, length (ptrsl l) = length (filter islive l).
Proof.
  induction l; simpl; auto. unfold slot_ptr, islive at 1. destruct (sp a); simpl; now rewrite ?IHl.
Qed.

Lemma live_count_ptrs : forall g, live_count g = Z.of_nat (length (ptrs g)).
Proof. intro g. unfold live_count, ptrs. rewrite live_len. reflexivity. Qed.

Lemma live_len_le : forall l, length (ptrsl l) <= length l.
Proof.
  induction l; simpl; auto. rewrite app_length. unfold slot_ptr. destruct (sp a); simpl; lia.
Qed.

Lemma in_ptrsl : forall l s p, In s l -> sp s = Some p -> In p (ptrsl l).
Proof. intros. unfold ptrsl. apply in_flat_map. exists s. split; auto. unfold slot_ptr. rewrite H0. now left. Qed.

Lemma viewl_frame : forall h h' l, frame h h' (ptrsl l) -> viewl h' l = viewl h l.
Proof.
  induction l; intros; simpl; auto. f_equal.
  - unfold vslot_of, cell. destruct (sp a) eqn:E; auto. rewrite H; auto.
    simpl. unfold slot_ptr. rewrite E. now left.
  - apply IHl. intros p Hp. apply H. simpl. apply in_or_app. auto.
Qed.

Lemma viewl_app : forall h a b, viewl h (a ++ b) = viewl h a ++ viewl h b.
Proof. intros. apply map_app. Qed.

Lemma viewl_upd : forall h l i s, viewl h (upd l i s) = upd (viewl h l) i (vslot_of h s).
Proof. intros. apply map_upd. Qed.

Lemma viewl_len : forall h l, length (viewl h l) = length l.
Proof. intros. apply map_length. Qed.

Lemma viewl_nth : forall h l i s, nth_error l i = Some s ->
  nth_error (viewl h l) i = Some (vslot_of h s).
Proof. intros. unfold viewl. now apply map_nth_error. Qed.

Lemma viewl_nth_inv : forall h l i v, nth_error (viewl h l) i = Some v ->
  exists s, nth_error l i = Some s /\ v = vslot_of h s.
Proof.
  intros h l i v H. unfold viewl in H. rewrite nth_error_map in H.
  destruct (nth_error l i) as [s|]; simpl in H; inversion H; eauto.
Qed.

Lemma viewl_perm : forall h a b, Permutation a b -> Permutation (viewl h a) (viewl h b).
Proof. intros. now apply Permutation_map. Qed.

Lemma ptrsl_perm : forall a b, Permutation a b -> Permutation (ptrsl a) (ptrsl b).
Proof. intros. now apply Permutation_flat_map. Qed.

Lemma app_comm_tail : forall A (a b c : list A), Permutation (a ++ b ++ c) (b ++ a ++ c).
Proof. intros. rewrite !app_assoc. apply Permutation_app_tail, Permutation_app_comm. Qed.

(** Removing: one slot in the middle. *)
Lemma remove_mid : forall h A s B n sf F,
  owned h (ptrsl (A ++ s :: B) ++ F) ->
  exists h', removeGaussian h (GM n (A ++ s :: B) sf) (length A) =
    Val (h', GM (n - Z.of_nat (length (slot_ptr s)))
               (A ++ match sp s with Some _ => Slot None 0 0 | None => s end :: B) false) /\
    owned h' (ptrsl A ++ ptrsl B ++ F) /\ frame h h' (ptrsl A ++ ptrsl B ++ F).
Proof.
  intros h A s B n sf F Ho. unfold removeGaussian, slot_at. simpl.
  rewrite nth_error_app2, Nat.sub_diag by lia. simpl.
  rewrite ptrsl_app, ptrsl_cons in Ho. unfold slot_ptr in *.
  destruct (sp s) as [p|] eqn:E; simpl in *.
  - assert (owned h (p :: ptrsl A ++ ptrsl B ++ F)) as Ho'.
    { eapply owned_perm; [|exact Ho]. rewrite <- !app_assoc. simpl.
      symmetry. apply Permutation_middle. }
    destruct (owned_free _ _ _ Ho') as (h' & Hf & Hw & Hfr).
    exists h'. rewrite Hf. simpl. split; auto.
    do 2 f_equal. rewrite upd_app2, Nat.sub_diag by lia. reflexivity.
  - exists h. split; [|split].
    + rewrite Z.sub_0_r. reflexivity.
    + rewrite <- app_assoc in Ho. exact Ho.
    + apply frame_refl.
Qed.

Definition emptied (s : slot) : slot := match sp s with Some _ => Slot None 0 0 | None => s end.

Lemma remove_suffix : forall B h A n sf F,
  owned h (ptrsl (A ++ B) ++ F) ->
  exists h' sf', remove_list h (GM n (A ++ B) sf) (seq (length A) (length B)) =
    Val (h', GM (n - Z.of_nat (length (ptrsl B))) (A ++ map emptied B) sf') /\
    owned h' (ptrsl A ++ F) /\ frame h h' (ptrsl A ++ F).
Proof.
  induction B as [|s B IH]; intros h A n sf F Ho; simpl.
  - exists h, sf. rewrite Z.sub_0_r. rewrite app_nil_r in *. auto using frame_refl.
  - destruct (remove_mid h A s B n sf F Ho) as (h1 & H1 & Ho1 & Hf1).
    rewrite H1. simpl.
    specialize (IH h1 (A ++ [emptied s]) (n - Z.of_nat (length (slot_ptr s)))%Z false F).
    assert (ptrsl [emptied s] = []) as Hes.
    { unfold emptied. simpl. destruct (sp s) eqn:E; simpl; unfold slot_ptr; simpl; rewrite ?E; auto. }
    assert (ptrsl (A ++ [emptied s]) = ptrsl A) as Hpa.
    { rewrite ptrsl_app, Hes, app_nil_r. reflexivity. }
    destruct IH as (h' & sf' & H2 & Ho2 & Hf2).
    { rewrite ptrsl_app, Hpa, <- app_assoc. exact Ho1. }
    rewrite app_length in H2. simpl in H2. replace (length A + 1) with (S (length A)) in H2 by lia.
    rewrite <- !app_assoc in H2. simpl in H2. unfold emptied at 1 in H2.
    exists h', sf'. rewrite H2. rewrite Hpa in *. split; [|split]; auto.
    + unfold emptied at 2. do 3 f_equal. rewrite app_length. lia.
    + eapply frame_trans; [|exact Hf2]. eapply frame_incl; [exact Hf1|].
      intros x Hx. apply in_app_or in Hx as [Hx|Hx]; apply in_or_app; auto.
      right. apply in_or_app. auto.
Qed.

Lemma destroy_ok : forall h g F, owned h (ptrs g ++ F) ->
  exists h', gm_destroy h g = Val h' /\ owned h' F /\ frame h h' F.
Proof.
  intros h [n l sf] F Ho. unfold gm_destroy. simpl.
  destruct (remove_suffix l h [] n sf F Ho) as (h' & sf' & H & Ho' & Hf).
  simpl in H. rewrite H. exists h'. auto.
Qed.

(** ** Copy *)

Lemma free_slots_ok : forall l h F, owned h (ptrsl l ++ F) ->
  exists h', free_slots h l = Val h' /\ owned h' F /\ frame h h' F.
Proof.
  induction l as [|s l IH]; intros h F Ho; simpl.
  - exists h. auto using frame_refl.
  - simpl in Ho. unfold slot_ptr in Ho. destruct (sp s) as [p|]; simpl in *.
    + destruct (owned_free _ _ _ Ho) as (h1 & H1 & Ho1 & Hf1). rewrite H1. simpl.
      destruct (IH _ _ Ho1) as (h' & H2 & Ho2 & Hf2). exists h'. split; [|split]; auto.
      eapply frame_trans; [|exact Hf2]. eapply frame_incl; [exact Hf1|].
      intros x Hx. apply in_or_app. auto.
    + apply IH. exact Ho.
Qed.

Lemma copy_slots_ok : forall l h F, owned h F -> incl (ptrsl l) F ->
  exists h' l', copy_slots h l = Val (h', l') /\ owned h' (ptrsl l' ++ F) /\ frame h h' F /\
    viewl h' l' = viewl h l.
Proof.
  induction l as [|s l IH]; intros h F Ho Hi; simpl.
  - exists h, []. auto using frame_refl.
  - simpl in Hi. unfold slot_ptr in Hi. destruct (sp s) as [p|] eqn:E; simpl in *.
    + destruct (owned_deref h F p Ho) as (x & Hx & Hn); [apply Hi; now left|].
      rewrite Hx. simpl.
      destruct (owned_alloc h F x Ho) as [Ho1 Hf1].
      destruct (IH (h ++ [Some x]) (length h :: F) Ho1) as (h' & l' & H2 & Ho2 & Hf2 & Hv).
      { intros q Hq. right. apply Hi. now right. }
      rewrite H2. simpl. exists h', (Slot (Some (length h)) (sw s) (swp s) :: l').
      split; [reflexivity|]. split; [|split].
      * simpl. eapply owned_perm; [|exact Ho2]. symmetry. apply Permutation_middle.
      * eapply frame_trans; [exact Hf1|]. eapply frame_incl; [exact Hf2|]. intros q Hq. now right.
      * simpl. f_equal.
        -- unfold vslot_of, cell. simpl. rewrite E, Hn.
           rewrite (Hf2 (length h)) by (now left).
           rewrite nth_error_app2, Nat.sub_diag by lia. reflexivity.
        -- rewrite Hv. apply viewl_frame. eapply frame_incl; [exact Hf1|].
           intros q Hq. apply Hi. now right.
    + destruct (IH h F Ho) as (h' & l' & H2 & Ho2 & Hf2 & Hv); [exact Hi|].
      rewrite H2. simpl. exists h', (s :: l'). split; [reflexivity|].
      simpl. unfold slot_ptr at 1. rewrite E. simpl. repeat split; auto; try apply Ho2.
      f_equal; auto. unfold vslot_of, cell. rewrite E. reflexivity.
Qed.

Lemma copy_slots_count : forall l h h' l', copy_slots h l = Val (h', l') ->
  length (ptrsl l') = length (ptrsl l).
Proof.
  induction l as [|s l IH]; intros h h' l' H; simpl in H.
  - inversion H; subst; auto.
  - destruct (sp s) as [p|] eqn:E.
    + apply obind_val in H as (x & Hx & H). simpl in H.
      apply obind_val in H as ([h2 l2] & H2 & H). simpl in H. inversion H; subst.
      apply IH in H2. simpl. rewrite !app_length. unfold slot_ptr. rewrite E. simpl. lia.
    + apply obind_val in H as ([h2 l2] & H2 & H). simpl in H. inversion H; subst.
      apply IH in H2. simpl. rewrite !app_length. lia.
Qed.

Lemma copyTo_ok : forall h src dst F,
  owned h (ptrs dst ++ F) -> incl (ptrs src) F -> gn src = live_count src ->
  exists h' dst', copyTo h src dst = Val (h', dst') /\ good h' dst' F /\ frame h h' F /\
    gn dst' = gn src /\ gsorted dst' = gsorted src /\ view h' dst' = view h src.
Proof.
  intros h src dst F Ho Hi Hn. unfold copyTo.
  destruct (free_slots_ok _ _ _ Ho) as (h1 & H1 & Ho1 & Hf1). rewrite H1. simpl.
  destruct (copy_slots_ok (gl src) h1 F Ho1 Hi) as (h2 & l2 & H2 & Ho2 & Hf2 & Hv).
  rewrite H2. simpl. exists h2, (GM (gn src) l2 (gsorted src)). split; [reflexivity|].
  split; [split|split; [|split; [|split]]]; auto.
  - simpl. rewrite Hn, !live_count_ptrs. f_equal. unfold ptrs. simpl.
    symmetry. eapply copy_slots_count; eauto.
  - eapply frame_trans; eauto.
  - unfold view. simpl. rewrite Hv. apply viewl_frame. eapply frame_incl; eauto.
Qed.

Lemma copy_slots_all_eq : forall l h, (forall s, In s l -> sp s <> None) ->
  copy_slots_all h l = copy_slots h l.
Proof.
  induction l as [|s l IH]; intros h H; simpl; auto.
  destruct (sp s) as [p|] eqn:E.
  - destruct (deref h p); simpl; auto. rewrite IH; auto. intros; apply H; now right.
  - exfalso. apply (H s); auto. now left.
Qed.

Lemma copy_slots_all_hole : forall l h F, owned h F -> incl (ptrsl l) F ->
  (exists s, In s l /\ sp s = None) -> copy_slots_all h l = UB NullDeref.
Proof.
  induction l as [|s l IH]; intros h F Ho Hi (x & Hx & Hn); [destruct Hx|]. simpl.
  simpl in Hi. unfold slot_ptr in Hi. destruct (sp s) as [p|] eqn:E; [|reflexivity].
  destruct Hx as [->|Hx]; [congruence|]. simpl in Hi.
  destruct (owned_deref h F p Ho) as (y & Hy & _); [apply Hi; now left|]. rewrite Hy. simpl.
  destruct (owned_alloc h F y Ho) as [Ho1 _].
  rewrite (IH _ _ Ho1); auto.
  - intros q Hq. right. apply Hi. now right.
  - eauto.
Qed.

Lemma copy_ctor_ok : forall h g F, owned h (ptrs g ++ F) -> gn g = live_count g -> no_holes g ->
  exists h' g', gm_copy_ctor h g = Val (h', g') /\ owned h' (ptrs g' ++ ptrs g ++ F) /\
    frame h h' (ptrs g ++ F) /\ gn g' = gn g /\ gn g' = live_count g' /\
    gsorted g' = gsorted g /\ view h' g' = view h g.
Proof.
  intros h g F Ho Hn Hh. unfold gm_copy_ctor. rewrite copy_slots_all_eq by exact Hh.
  destruct (copy_slots_ok (gl g) h (ptrs g ++ F) Ho) as (h2 & l2 & H2 & Ho2 & Hf2 & Hv).
  { intros q Hq. apply in_or_app. now left. }
  rewrite H2. simpl. exists h2, (GM (gn g) l2 (gsorted g)). repeat split; auto; try apply Ho2.
  rewrite Hn, !live_count_ptrs. unfold ptrs. simpl. f_equal. symmetry.
  eapply copy_slots_count; eauto.
Qed.

(** The copy constructor is undefined exactly when there is an empty slot. *)
Lemma copy_ctor_ub_iff : forall h g F, owned h (ptrs g ++ F) ->
  (gm_copy_ctor h g = UB NullDeref <-> ~ no_holes g).
Proof.
  intros h g F Ho. split.
  - intros H Hh. unfold gm_copy_ctor in H. rewrite copy_slots_all_eq in H by exact Hh.
    destruct (copy_slots_ok (gl g) h (ptrs g ++ F) Ho) as (h2 & l2 & H2 & _).
    { intros q Hq. apply in_or_app. now left. }
    rewrite H2 in H. discriminate.
  - intro H. unfold gm_copy_ctor. erewrite copy_slots_all_hole; [reflexivity|exact Ho| |].
    + intros q Hq. apply in_or_app. now left.
    + destruct (existsb (fun s => negb (islive s)) (gl g)) eqn:E.
      * apply existsb_exists in E as (s & Hs & Hl). exists s. split; auto.
        unfold islive in Hl. destruct (sp s); auto; discriminate.
      * exfalso. apply H. intros s Hs Hn.
        assert (existsb (fun s => negb (islive s)) (gl g) = true); [|congruence].
        apply existsb_exists. exists s. split; auto. unfold islive. rewrite Hn. reflexivity.
Qed.

(** Self copy: use after free exactly when something is live. *)
Lemma copy_slots_dead : forall l h, (forall p, In p (ptrsl l) -> nth_error h p = Some None) ->
  ptrsl l <> [] -> copy_slots h l = UB UseAfterFree.
Proof.
  induction l as [|s l IH]; intros h H Hne; simpl in *; [congruence|].
  unfold slot_ptr in *. destruct (sp s) as [p|] eqn:E.
  - unfold deref. rewrite H by (now left). reflexivity.
  - rewrite IH; auto.
Qed.

Lemma free_slots_dead : forall l h h', free_slots h l = Val h' ->
  (forall p, In p (ptrsl l) -> nth_error h' p = Some None) /\
  (forall p, nth_error h p = Some None -> nth_error h' p = Some None).
Proof.
  induction l as [|s l IH]; intros h h' H; simpl in H.
  - inversion H; subst. simpl. intuition.
  - simpl. unfold slot_ptr. destruct (sp s) as [p|].
    + apply obind_val in H as (h1 & H1 & H2). destruct (IH _ _ H2) as [Ha Hb].
      unfold free in H1. destruct (nth_error h p) as [[x|]|] eqn:E; inversion H1; subst.
      pose proof (nth_error_lt _ _ _ _ E) as Hlt. split.
      * intros q [<-|Hq]; auto. apply Hb. now apply nth_error_upd_eq.
      * intros q Hq. apply Hb. rewrite nth_error_upd. destruct (Nat.eq_dec p q); auto.
        destruct (lt_dec p (length h)); auto; lia.
    + simpl. apply IH. exact H.
Qed.

Lemma self_copy_iff : forall h g F, owned h (ptrs g ++ F) ->
  (copyTo h g g = UB UseAfterFree <-> ptrs g <> []) /\
  (ptrs g = [] -> exists h', copyTo h g g = Val (h', g) /\ h' = h).
Proof.
  intros h g F Ho. unfold copyTo.
  destruct (free_slots_ok _ _ _ Ho) as (h1 & H1 & Ho1 & Hf1). rewrite H1. simpl.
  destruct (free_slots_dead _ _ _ H1) as [Hd _].
  assert (forall l, ptrsl l = [] -> forall h, copy_slots h l = Val (h, l)) as Hnil.
  { induction l as [|s l IH]; intros Hl h0; simpl in *; auto.
    unfold slot_ptr in Hl. destruct (sp s); [discriminate|]. rewrite IH by exact Hl. reflexivity. }
  assert (forall l, ptrsl l = [] -> forall h, free_slots h l = Val h) as Hfnil.
  { induction l as [|s l IH]; intros Hl h0; simpl in *; auto.
    unfold slot_ptr in Hl. destruct (sp s); [discriminate|]. now apply IH. }
  split.
  - split.
    + intros H E. unfold ptrs in E. rewrite Hnil in H by exact E. discriminate.
    + intro H. rewrite copy_slots_dead; auto.
  - intro E. rewrite Hnil by exact E. simpl. exists h1. unfold ptrs in E.
    rewrite Hfnil in H1 by exact E. inversion H1; subst. destruct g; auto.
Qed.

(** ** Single-slot operations *)

Lemma remove_ok : forall h g F idx s, good h g F -> nth_error (gl g) idx = Some s ->
  exists h' g', removeGaussian h g idx = Val (h', g') /\ good h' g' F /\ frame h h' F /\
    view h' g' = (match sp s with Some _ => upd (view h g) idx (None, 0%Q, 0%Q) | None => view h g end)
    /\ (gn g' = gn g - Z.of_nat (length (slot_ptr s)))%Z.
Proof.
  intros h [n l sf] F idx s [Ho Hn] Hs. simpl in *.
  destruct (upd_split _ l idx s (emptied s) Hs) as (A & B & -> & HA & HU). subst idx.
  destruct (remove_mid h A s B n sf F Ho) as (h' & H & Ho' & Hf). rewrite H.
  eexists h', _. split; [reflexivity|].
  assert (ptrsl (A ++ emptied s :: B) = ptrsl A ++ ptrsl B) as Hp.
  { rewrite ptrsl_app, ptrsl_cons. unfold emptied, slot_ptr. destruct (sp s) eqn:E; simpl; rewrite ?E; auto. }
  split; [split|split; [|split]]; simpl.
  - unfold ptrs. simpl. fold (emptied s). rewrite Hp, <- app_assoc. exact Ho'.
  - rewrite live_count_ptrs. unfold ptrs. simpl. fold (emptied s). rewrite Hp.
    rewrite Hn, live_count_ptrs. unfold ptrs. simpl. rewrite ptrsl_app, ptrsl_cons, !app_length. lia.
  - eapply frame_incl; [exact Hf|]. intros x Hx. apply in_or_app. right. apply in_or_app. auto.
  - unfold view. simpl. fold (emptied s).
    assert (viewl h' A = viewl h A) as HvA.
    { apply viewl_frame. eapply frame_incl; [exact Hf|]. intros x Hx. apply in_or_app. auto. }
    assert (viewl h' B = viewl h B) as HvB.
    { apply viewl_frame. eapply frame_incl; [exact Hf|]. intros x Hx. apply in_or_app. right. apply in_or_app. auto. }
    rewrite !viewl_app. simpl. rewrite HvA, HvB.
    unfold emptied. destruct (sp s) eqn:E.
    + rewrite upd_app2 by (rewrite viewl_len; lia). rewrite viewl_len, Nat.sub_diag. reflexivity.
    + unfold vslot_of, cell. rewrite E. reflexivity.
  - reflexivity.
Qed.

Lemma remove_oob : forall h g idx, length (gl g) <= idx -> removeGaussian h g idx = UB OutOfBounds.
Proof.
  intros. unfold removeGaussian, slot_at. apply nth_error_None in H. rewrite H. reflexivity.
Qed.

(** Replacing the data of one slot, keeping its pointer. *)
Lemma upd_same_ptr : forall l idx s s', nth_error l idx = Some s -> sp s' = sp s ->
  ptrsl (upd l idx s') = ptrsl l.
Proof.
  intros l idx s s' H E. destruct (upd_split _ l idx s s' H) as (A & B & -> & HA & ->).
  rewrite !ptrsl_app, !ptrsl_cons. unfold slot_ptr. rewrite E. reflexivity.
Qed.

Lemma good_upd : forall h n l sf sf' F idx s s', good h (GM n l sf) F ->
  nth_error l idx = Some s -> sp s' = sp s -> good h (GM n (upd l idx s') sf') F.
Proof.
  intros h n l sf sf' F idx s s' [Ho Hn] H E. split; simpl in *.
  - unfold ptrs in *. simpl in *. now rewrite (upd_same_ptr l idx s s').
  - rewrite live_count_ptrs in *. unfold ptrs in *. simpl in *. now rewrite (upd_same_ptr l idx s s').
Qed.

Lemma good_sorted : forall h n l sf sf' F, good h (GM n l sf) F -> good h (GM n l sf') F.
Proof. intros h n l sf sf' F [Ho Hn]. split; auto. Qed.

(** Writing a landmark owned by slot idx. *)
Lemma store_slot : forall h l idx s p x F,
  owned h (ptrsl l ++ F) -> nth_error l idx = Some s -> sp s = Some p ->
  exists h', store h p x = Val h' /\ owned h' (ptrsl l ++ F) /\ frame h h' F /\
    (forall s', sp s' = Some p -> viewl h' (upd l idx s') = upd (viewl h l) idx (Some x, sw s', swp s')).
Proof.
  intros h l idx s p x F Ho Hs Hp.
  destruct (upd_split _ l idx s s Hs) as (A & B & -> & HA & _). subst idx.
  assert (In p (ptrsl (A ++ s :: B) ++ F)) as Hin.
  { apply in_or_app. left. eapply in_ptrsl; [|exact Hp]. apply in_or_app. right. now left. }
  destruct (owned_store h _ p x Ho Hin) as (H1 & Ho1 & Hneq & Heq).
  exists (upd h p (Some x)). split; [exact H1|]. split; [exact Ho1|].
  assert (owned h (p :: ptrsl A ++ ptrsl B ++ F)) as [ND _].
  { eapply owned_perm; [|exact Ho]. rewrite ptrsl_app, ptrsl_cons. unfold slot_ptr. rewrite Hp.
    rewrite <- !app_assoc. simpl. symmetry. apply Permutation_middle. }
  inversion ND as [|? ? Hnin _]; subst. split.
  - intros q Hq. apply Hneq. intro; subst. apply Hnin. apply in_or_app. right. apply in_or_app. auto.
  - intros s' Hs'. rewrite upd_app2, Nat.sub_diag by lia. simpl. rewrite !viewl_app. simpl.
    rewrite upd_app2 by (rewrite viewl_len; lia). rewrite viewl_len, Nat.sub_diag. simpl.
    f_equal; [|f_equal].
    + apply viewl_frame. intros q Hq. apply Hneq. intro; subst. apply Hnin. apply in_or_app. auto.
    + unfold vslot_of, cell. rewrite Hs', Heq. reflexivity.
    + apply viewl_frame. intros q Hq. apply Hneq. intro; subst. apply Hnin. apply in_or_app. right.
      apply in_or_app. auto.
Qed.

Lemma setWeight_ok : forall h g F idx s w, good h g F -> nth_error (gl g) idx = Some s ->
  exists g', setWeight g idx w = Val g' /\ good h g' F /\ gn g' = gn g /\
    view h g' = upd (view h g) idx (cell h s, w, sw s).
Proof.
  intros h [n l sf] F idx s w Hg Hs. unfold setWeight, slot_at. simpl in *. rewrite Hs. simpl.
  eexists. split; [reflexivity|]. split; [|split].
  - eapply good_upd; eauto.
  - reflexivity.
  - unfold view. simpl. rewrite viewl_upd. reflexivity.
Qed.

Lemma update_ok : forall h g F idx s p x w, good h g F -> nth_error (gl g) idx = Some s ->
  sp s = Some p ->
  exists h' g', updateGaussian h g idx x w = Val (h', g', true) /\ good h' g' F /\ frame h h' F /\
    gn g' = gn g /\
    view h' g' = upd (view h g) idx (Some x, if Qltb w 0 then sw s else w, sw s).
Proof.
  intros h [n l sf] F idx s p x w [Ho Hn] Hs Hp. unfold updateGaussian, slot_at. simpl in *.
  pose proof (nth_error_lt _ _ _ _ Hs).
  destruct (Nat.ltb_spec (length l) idx); [lia|]. rewrite Hs. simpl. rewrite Hp.
  destruct (store_slot h l idx s p x F Ho Hs Hp) as (h' & H1 & Ho1 & Hf1 & Hv).
  rewrite H1. simpl. eexists h', _. split; [reflexivity|].
  split; [split|split; [|split]]; simpl; auto.
  - unfold ptrs. simpl. rewrite (upd_same_ptr l idx s); auto.
  - rewrite live_count_ptrs in *. unfold ptrs in *. simpl in *. rewrite (upd_same_ptr l idx s); auto.
  - unfold view. simpl. rewrite Hv; reflexivity.
Qed.

(** ** Merge *)

Lemma Qltb_false : forall a b, Qltb a b = false <-> (b <= a)%Q.
Proof. intros. unfold Qltb. rewrite negb_false_iff. apply Qle_bool_iff. Qed.

Lemma Qltb_true : forall a b, Qltb a b = true <-> (a < b)%Q.
Proof.
  intros. unfold Qltb. rewrite negb_true_iff. split; intro H.
  - apply Qnot_le_lt. intro H'. apply Qle_bool_iff in H'. congruence.
  - destruct (Qle_bool b a) eqn:E; auto. apply Qle_bool_iff in E.
    exfalso. apply (Qlt_not_le _ _ H E).
Qed.

Lemma merged_fusion : forall f a w1 b w2, ~ (w1 + w2 == 0)%Q ->
  is_fusion f a w1 b w2 (merged a b w1 w2 f).
Proof.
  intros f a w1 b w2 H. unfold is_fusion, merged. simpl. split; [reflexivity|]. split.
  - intro k. field. auto.
  - intros i j. field. auto.
Qed.

Lemma mergeable_fun : forall md t (v : list vslot) i j a w1 p1 b w2 p2,
  nth_error v i = Some (Some a, w1, p1) -> nth_error v j = Some (Some b, w2, p2) ->
  mergeable md t v i j -> (md a b <= t * t \/ md b a <= t * t)%Q /\ ~ (w1 + w2 == 0)%Q.
Proof.
  intros md t v i j a w1 p1 b w2 p2 H1 H2 (a' & x1 & y1 & b' & x2 & y2 & _ & H3 & H4 & H5 & H6).
  rewrite H1 in H3. rewrite H2 in H4. inversion H3; inversion H4; subst. auto.
Qed.

Lemma merge2_ok : forall md h g F i j t f, good h g F -> i < j -> j < length (gl g) ->
  exists h' g' b, merge2 md h g i j t f = Val (h', g', b) /\ good h' g' F /\ frame h h' F /\
    length (gl g') = length (gl g) /\
    (b = true -> pair_merge md t f (view h g) (i, j) (view h' g') /\ (gn g' = gn g - 1)%Z) /\
    (b = false -> view h' g' = view h g /\ gn g' = gn g /\ ~ mergeable md t (view h g) i j).
Proof.
  intros md h [n l sf] F i j t f Hg Hij Hj. simpl in Hj. unfold merge2, slot_at. simpl.
  destruct (nth_error_ex _ l i) as [s1 Hs1]; [lia|].
  destruct (nth_error_ex _ l j) as [s2 Hs2]; [lia|].
  rewrite Hs1. simpl.
  pose proof (viewl_nth h l i s1 Hs1) as Hv1. pose proof (viewl_nth h l j s2 Hs2) as Hv2.
  assert (forall X, good h (GM n l false) F -> ~ mergeable md t (viewl h l) i j ->
     X = Val (h, GM n l false, false) ->
     exists h' g' b, X = Val (h', g', b) /\ good h' g' F /\ frame h h' F /\
    length (gl g') = length l /\
    (b = true -> pair_merge md t f (view h (GM n l sf)) (i, j) (view h' g') /\ (gn g' = n - 1)%Z) /\
    (b = false -> view h' g' = view h (GM n l sf) /\ gn g' = n /\ ~ mergeable md t (view h (GM n l sf)) i j)) as Hno.
  { intros X H1 H2 H3. exists h, (GM n l false), false. split; [exact H3|].
    split; [exact H1|]. split; [apply frame_refl|]. split; [reflexivity|]. split; [discriminate|]. auto. }
  assert (good h (GM n l false) F) as Hg0 by (eapply good_sorted; eauto).
  destruct (sp s1) as [p1|] eqn:E1.
  2:{ apply Hno; auto. intros (a & w1 & q1 & b & w2 & q2 & _ & H1 & _).
      rewrite Hv1 in H1. unfold vslot_of, cell in H1. rewrite E1 in H1. discriminate. }
  rewrite Hs2. simpl.
  destruct (sp s2) as [p2|] eqn:E2.
  2:{ apply Hno; auto. intros (a & w1 & q1 & b & w2 & q2 & _ & _ & H1 & _).
      rewrite Hv2 in H1. unfold vslot_of, cell in H1. rewrite E2 in H1. discriminate. }
  destruct Hg as [Ho Hn]. simpl in *. unfold ptrs in Ho. simpl in Ho.
  destruct (owned_deref h _ p1 Ho) as (a & Ha & Ha').
  { apply in_or_app. left. eapply in_ptrsl; eauto. eapply nth_error_In; eauto. }
  destruct (owned_deref h _ p2 Ho) as (b & Hb & Hb').
  { apply in_or_app. left. eapply in_ptrsl; eauto. eapply nth_error_In; eauto. }
  rewrite Ha. simpl. rewrite Hb. simpl.
  assert (vslot_of h s1 = (Some a, sw s1, swp s1)) as Ev1.
  { unfold vslot_of, cell. rewrite E1, Ha'. reflexivity. }
  assert (vslot_of h s2 = (Some b, sw s2, swp s2)) as Ev2.
  { unfold vslot_of, cell. rewrite E2, Hb'. reflexivity. }
  rewrite Ev1 in Hv1. rewrite Ev2 in Hv2.
  destruct (Qltb (t * t) (md a b) && Qltb (t * t) (md b a)) eqn:Ed.
  { apply Hno; auto. intro Hm. apply (mergeable_fun _ _ _ _ _ _ _ _ _ _ _ Hv1 Hv2) in Hm as [[Hm|Hm] _];
    apply andb_true_iff in Ed as [Ed1 Ed2]; apply Qltb_true in Ed1, Ed2.
    - apply (Qlt_not_le _ _ Ed1 Hm).
    - apply (Qlt_not_le _ _ Ed2 Hm). }
  destruct (Qeq_bool (sw s1 + sw s2) 0) eqn:Ez.
  { apply Hno; auto. intro Hm. apply (mergeable_fun _ _ _ _ _ _ _ _ _ _ _ Hv1 Hv2) in Hm as [_ Hm].
    apply Hm. now apply Qeq_bool_iff. }
  assert (mergeable md t (viewl h l) i j) as Hmg.
  { exists a, (sw s1), (swp s1), b, (sw s2), (swp s2). repeat split; auto.
    - apply andb_false_iff in Ed as [Ed|Ed]; apply Qltb_false in Ed; auto.
    - intro H. apply Qeq_bool_iff in H. congruence. }
  assert (~ (sw s1 + sw s2 == 0)%Q) as Hnz.
  { intro H. apply Qeq_bool_iff in H. congruence. }
  destruct (store_slot h l i s1 p1 (merged a b (sw s1) (sw s2) f) F Ho Hs1 E1)
    as (h1 & Hst & Ho1 & Hf1 & Hview).
  rewrite Hst. simpl.
  set (s1' := Slot (Some p1) (sw s1 + sw s2) 0).
  assert (good h1 (GM n (upd l i s1') false) F) as Hg1.
  { split; simpl.
    - unfold ptrs. simpl. rewrite (upd_same_ptr l i s1 s1'); auto.
    - rewrite live_count_ptrs in *. unfold ptrs in *. simpl in *.
      rewrite (upd_same_ptr l i s1 s1'); auto. }
  assert (nth_error (gl (GM n (upd l i s1') false)) j = Some s2) as Hs2'.
  { simpl. rewrite nth_error_upd_neq by lia. exact Hs2. }
  destruct (remove_ok h1 _ F j s2 Hg1 Hs2') as (h2 & g2 & Hr & Hg2 & Hf2 & Hv & Hcnt).
  rewrite Hr. simpl. exists h2, g2, true. split; [reflexivity|]. split; [exact Hg2|].
  split; [eapply frame_trans; eauto|].
  rewrite E2 in Hv. unfold view in Hv at 2. simpl in Hv. rewrite Hview in Hv by reflexivity.
  split; [|split; [|discriminate]].
  - pose proof (f_equal (@length vslot) Hv) as HL. unfold view in HL.
    rewrite viewl_len, !upd_length, viewl_len in HL. exact HL.
  - intros _. split.
    + split; [exact Hmg|]. exists a, (sw s1), (swp s1), b, (sw s2), (swp s2).
      eexists. split; [exact Hv1|]. split; [exact Hv2|].
      split; [apply merged_fusion; exact Hnz|]. exact Hv.
    + rewrite Hcnt. simpl. unfold slot_ptr. rewrite E2. reflexivity.
Qed.

Lemma merges_app : forall md t f v1 tr1 v2 tr2 v3,
  merges md t f v1 tr1 v2 -> merges md t f v2 tr2 v3 -> merges md t f v1 (tr1 ++ tr2) v3.
Proof. induction 1; simpl; intros; auto. econstructor; eauto. Qed.

Lemma merge_inner_ok : forall md js h g F i t f cnt, good h g F ->
  (forall j, In j js -> i < j < length (gl g)) ->
  exists h' g' tr, merge_inner md h g i js t f cnt = Val (h', g', cnt + length tr) /\
    good h' g' F /\ frame h h' F /\ length (gl g') = length (gl g) /\
    merges md t f (view h g) tr (view h' g') /\ (gn g' = gn g - Z.of_nat (length tr))%Z /\
    (tr = [] -> forall j, In j js -> ~ mergeable md t (view h g) i j).
Proof.
  induction js as [|j js IH]; intros h g F i t f cnt Hg Hjs; simpl.
  - exists h, g, []. simpl. rewrite Nat.add_0_r, Z.sub_0_r.
    repeat (split; auto using frame_refl; try apply Hg). constructor.
  - destruct (merge2_ok md h g F i j t f Hg) as (h1 & g1 & b & H1 & Hg1 & Hf1 & HL1 & Ht & Hff).
    { apply Hjs. now left. } { apply Hjs. now left. }
    rewrite H1. simpl.
    destruct (IH h1 g1 F i t f (if b then S cnt else cnt) Hg1) as (h2 & g2 & tr & H2 & Hg2 & Hf2 & HL2 & Hm & Hn & Hnone).
    { intros k Hk. rewrite HL1. apply Hjs. now right. }
    rewrite H2. exists h2, g2, (if b then (i, j) :: tr else tr).
    split; [|split; [exact Hg2|split; [eapply frame_trans; eauto|split; [lia|]]]].
    + destruct b; simpl; repeat f_equal; lia.
    + destruct b.
      * destruct (Ht eq_refl) as [Hpm Hc]. split; [|split].
        -- econstructor; eauto.
        -- simpl. lia.
        -- discriminate.
      * destruct (Hff eq_refl) as (Hv & Hc & Hnm). rewrite Hv in Hm, Hnone. split; [|split]; auto.
        -- lia.
        -- intros E k [<-|Hk]; auto.
Qed.

Lemma merge_outer_ok : forall md is h g F n t f cnt, good h g F -> n = length (gl g) ->
  (forall i, In i is -> i < n) ->
  exists h' g' tr, merge_outer md h g n is t f cnt = Val (h', g', cnt + length tr) /\
    good h' g' F /\ frame h h' F /\ length (gl g') = length (gl g) /\
    merges md t f (view h g) tr (view h' g') /\ (gn g' = gn g - Z.of_nat (length tr))%Z /\
    (tr = [] -> forall i j, In i is -> j < n -> ~ mergeable md t (view h g) i j).
Proof.
  induction is as [|i is IH]; intros h g F n t f cnt Hg HL His; simpl.
  - exists h, g, []. simpl. rewrite Nat.add_0_r, Z.sub_0_r.
    repeat (split; auto using frame_refl; try apply Hg). constructor.
  - unfold slot_at. destruct (nth_error_ex _ (gl g) i) as [s Hs].
    { rewrite <- HL. apply His. now left. }
    rewrite Hs. simpl. destruct (sp s) as [p|] eqn:E.
    + destruct (merge_inner_ok md (seq (S i) (n - S i)) h g F i t f cnt Hg)
        as (h1 & g1 & tr1 & H1 & Hg1 & Hf1 & HL1 & Hm1 & Hn1 & Hz1).
      { intros j Hj. apply in_seq in Hj. lia. }
      rewrite H1. simpl.
      destruct (IH h1 g1 F n t f (cnt + length tr1) Hg1) as (h2 & g2 & tr2 & H2 & Hg2 & Hf2 & HL2 & Hm2 & Hn2 & Hz2).
      { lia. } { intros k Hk. apply His. now right. }
      rewrite H2. exists h2, g2, (tr1 ++ tr2).
      split; [rewrite app_length; do 2 f_equal; lia|].
      split; [exact Hg2|]. split; [eapply frame_trans; eauto|]. split; [lia|].
      split; [eapply merges_app; eauto|]. split; [rewrite app_length; lia|].
      intros E12 i' j Hi Hj Hmg. apply app_eq_nil in E12 as [-> ->].
      inversion Hm1; subst. destruct Hi as [<-|Hi].
      * assert (i < j) by (destruct Hmg as (? & ? & ? & ? & ? & ? & ? & _); auto).
        apply (Hz1 eq_refl j); auto. apply in_seq. lia.
      * apply (Hz2 eq_refl i' j); auto. congruence.
    + destruct (IH h g F n t f cnt Hg HL) as (h2 & g2 & tr2 & H2 & Hg2 & Hf2 & HL2 & Hm2 & Hn2 & Hz2).
      { intros k Hk. apply His. now right. }
      exists h2, g2, tr2. repeat (split; auto; try apply Hg2).
      intros Etr i' j [<-|Hi] Hj; auto. intros (a & w1 & q1 & b & w2 & q2 & _ & H1 & _).
      unfold view in H1. rewrite (viewl_nth h _ _ _ Hs) in H1. unfold vslot_of, cell in H1. rewrite E in H1. discriminate.
Qed.

Lemma merge_ok : forall md h g F t f, good h g F ->
  exists h' g' tr, merge md h g t f = Val (h', g', length tr) /\
    good h' g' F /\ frame h h' F /\ length (gl g') = length (gl g) /\
    merges md t f (view h g) tr (view h' g') /\ (gn g' = gn g - Z.of_nat (length tr))%Z /\
    (tr = [] <-> forall i j, ~ mergeable md t (view h g) i j).
Proof.
  intros md h g F t f Hg. unfold merge.
  destruct (merge_outer_ok md (seq 0 (length (gl g))) h (GM (gn g) (gl g) false) F (length (gl g)) t f 0)
    as (h' & g' & tr & H & Hg' & Hf & HL & Hm & Hn & Hz).
  - destruct g. eapply good_sorted; eauto.
  - reflexivity.
  - intros i Hi. apply in_seq in Hi. lia.
  - exists h', g', tr. rewrite H. repeat (split; auto; try apply Hg').
    + intros -> i j Hmg.
      assert (i < j < length (gl g)) as Hb.
      { destruct Hmg as (? & ? & ? & ? & ? & ? & ? & _ & HH & _). split; auto.
        apply nth_error_lt in HH. unfold view in HH. rewrite viewl_len in HH. exact HH. }
      apply (Hz eq_refl i j); auto.
      * apply in_seq. lia.
      * lia.
    + intro Hno. inversion Hm; subst; auto. exfalso. destruct ij as [i j].
      destruct H0 as [Hmg _]. apply (Hno i j). exact Hmg.
Qed.

(** Consequences of a merge trace. *)
Local Open Scope Q_scope.

Lemma Qsum_app : forall a b, Qsum (a ++ b) == Qsum a + Qsum b.
Proof. induction a; intros; simpl; [ring|]. rewrite IHa. ring. Qed.

(** Generic: a sum of per-slot terms under the two-slot update. *)
Lemma sum_upd : forall (f : vslot -> Q) v i x y, nth_error v i = Some x ->
  Qsum (map f (upd v i y)) == Qsum (map f v) - f x + f y.
Proof.
  intros f v i x y H. destruct (upd_split _ v i x y H) as (A & B & -> & _ & ->).
  rewrite !map_app, !Qsum_app. simpl. ring.
Qed.

Lemma total_weight_alt : forall v, total_weight v ==
  Qsum (map (fun s => match fst (fst s) with Some _ => vw s | None => 0 end) v).
Proof.
  induction v as [|[[o w] p] v IH]; unfold total_weight; simpl; [reflexivity|].
  unfold vlive at 1. simpl. destruct o; simpl; fold (total_weight v); rewrite IH; ring.
Qed.

Lemma pair_merge_sum : forall md t f v ij v' (F : vslot -> Q),
  pair_merge md t f v ij v' ->
  (F (None, 0, 0) == 0) ->
  (forall a w1 p1 b w2 p2 m, is_fusion f a w1 b w2 m -> ~ w1 + w2 == 0 ->
     F (Some m, w1 + w2, 0) == F (Some a, w1, p1) + F (Some b, w2, p2)) ->
  Qsum (map F v') == Qsum (map F v).
Proof.
  intros md t f v [i j] v' F [Hmg (a & w1 & p1 & b & w2 & p2 & m & H1 & H2 & Hf & ->)] H0 HF.
  pose proof (mergeable_fun _ _ _ _ _ _ _ _ _ _ _ H1 H2 Hmg) as [_ Hnz].
  assert (i <> j) by (destruct Hmg as (? & ? & ? & ? & ? & ? & ? & _); lia).
  rewrite (sum_upd F _ j (Some b, w2, p2)) by (rewrite nth_error_upd_neq by auto; exact H2).
  rewrite (sum_upd F _ i (Some a, w1, p1)) by exact H1.
  rewrite H0, (HF a w1 p1 b w2 p2 m Hf Hnz). ring.
Qed.

Lemma merges_sum : forall md t f v tr v' (F : vslot -> Q),
  merges md t f v tr v' -> (F (None, 0, 0) == 0) ->
  (forall a w1 p1 b w2 p2 m, is_fusion f a w1 b w2 m -> ~ w1 + w2 == 0 ->
     F (Some m, w1 + w2, 0) == F (Some a, w1, p1) + F (Some b, w2, p2)) ->
  Qsum (map F v') == Qsum (map F v).
Proof.
  intros md t f v tr v' F H H0 HF. induction H; [reflexivity|].
  rewrite IHmerges. eapply pair_merge_sum; eauto.
Qed.

Lemma merges_weight : forall md t f v tr v', merges md t f v tr v' ->
  total_weight v' == total_weight v.
Proof.
  intros. rewrite !total_weight_alt. eapply merges_sum; eauto.
  - reflexivity.
  - intros. unfold vw. simpl. reflexivity.
Qed.

Lemma merges_moment1 : forall md t f v tr v' k, merges md t f v tr v' ->
  moment1 k v' == moment1 k v.
Proof.
  intros. unfold moment1. eapply merges_sum; eauto.
  - reflexivity.
  - intros a w1 p1 b w2 p2 m (_ & Hx & _) Hnz. unfold vw. simpl. rewrite Hx. field. exact Hnz.
Qed.

Lemma merges_moment2 : forall md t f v tr v' i j, f == 1 -> merges md t f v tr v' ->
  moment2 i j v' == moment2 i j v.
Proof.
  intros md t f v tr v' i j Hf1 H. unfold moment2. eapply merges_sum; eauto.
  - reflexivity.
  - intros a w1 p1 b w2 p2 m (_ & Hx & HS) Hnz. unfold vw. simpl. rewrite !Hx, HS, Hf1. field. exact Hnz.
Qed.

Lemma merges_untouched : forall md t f v tr v' i, merges md t f v tr v' ->
  (forall x y, In (x, y) tr -> x <> i /\ y <> i) -> nth_error v' i = nth_error v i.
Proof.
  intros md t f v tr v' i H. induction H; intros Hi; auto.
  rewrite IHmerges by (intros; apply Hi; now right).
  destruct ij as [a b]. destruct (Hi a b (or_introl eq_refl)) as [Ha Hb].
  destruct H as [_ (? & ? & ? & ? & ? & ? & ? & _ & _ & _ & ->)].
  rewrite !nth_error_upd_neq by auto. reflexivity.
Qed.

Lemma merges_dead : forall md t f v tr v' i w p, merges md t f v tr v' ->
  nth_error v i = Some (None, w, p) ->
  (forall x y, In (x, y) tr -> x <> i /\ y <> i).
Proof.
  intros md t f v tr v' i w p H. revert w p. induction H; intros w p Hd x y Hin; [destruct Hin|].
  assert (forall a b, pair_merge md t f v (a, b) v1 -> a <> i /\ b <> i /\ nth_error v1 i = Some (None, w, p)) as Hpm.
  { intros a b [_ (? & ? & ? & ? & ? & ? & ? & H1 & H2 & _ & ->)].
    assert (a <> i) by congruence. assert (b <> i) by congruence.
    split; [auto|split; [auto|]]. rewrite !nth_error_upd_neq by auto. exact Hd. }
  destruct ij as [a b]. destruct (Hpm a b H) as (Ha & Hb & Hd1).
  destruct Hin as [E|Hin].
  - inversion E; subst; auto.
  - eapply IHmerges; eauto.
Qed.

(** Every component disappears at most once. *)
Lemma merges_nodup : forall md t f v tr v', merges md t f v tr v' -> NoDup (map snd tr).
Proof.
  intros md t f v tr v' H. induction H; simpl; constructor; auto.
  destruct ij as [i j]. simpl. intro Hin. apply in_map_iff in Hin as ([x y] & E & Hin). simpl in E. subst y.
  destruct H as [Hmg (? & ? & ? & ? & ? & ? & ? & H1 & H2 & _ & ->)].
  eapply (merges_dead md t f _ _ _ j 0 0 H0); [|exact Hin|reflexivity].
  apply nth_error_upd_eq. rewrite upd_length. eapply nth_error_lt; eauto.
Qed.

(** ** Prune *)
Local Open Scope nat_scope.

Definition desc (l : list slot) : Prop := StronglySorted (fun a b => (sw b <= sw a)%Q) l.

Lemma desc_nth : forall l i j a b, desc l -> nth_error l i = Some a -> nth_error l j = Some b ->
  i <= j -> (sw b <= sw a)%Q.
Proof.
  intros l i j a b H. revert i j. induction H; intros i j Hi Hj Hij.
  - destruct i; discriminate.
  - destruct i, j; simpl in *; try lia.
    + inversion Hi; inversion Hj; subst. apply Qle_refl.
    + inversion Hi; subst. rewrite Forall_forall in H0. apply H0. eapply nth_error_In; eauto.
    + eapply IHStronglySorted; eauto. lia.
Qed.

Lemma bsearch_ok : forall l t fuel mn mx old,
  desc l -> mn <= mx -> mx < length l -> mx - mn < fuel ->
  (mn = 0 \/ exists s, nth_error l mn = Some s /\ (t < sw s)%Q) ->
  ((mx + mn) / 2 <> old \/ (mx + mn) / 2 = mn) ->
  exists i, bsearch fuel l t mn mx ((mx + mn) / 2) old = Val i /\ i < length l /\
    (i = 0 \/ exists s, nth_error l i = Some s /\ (t < sw s)%Q).
Proof.
  intros l t fuel. induction fuel as [|k IH]; intros mn mx old Hd Hle Hlt Hf Hmn Hold; [lia|].
  set (idx := (mx + mn) / 2) in *.
  assert (mn <= idx <= mx) as Hidx.
  { unfold idx. split; [apply Nat.div_le_lower_bound; lia|apply Nat.div_le_upper_bound; lia]. }
  cbn [bsearch]. destruct (Nat.eqb_spec idx old) as [E|E].
  - exists idx. split; [reflexivity|]. split; [lia|]. destruct Hold as [?|Hm]; [congruence|].
    rewrite Hm. exact Hmn.
  - destruct (nth_error_ex _ l idx) as [s Hs]; [lia|]. rewrite Hs. cbn [of_option obind].
    assert (idx < mx \/ mx = mn /\ idx = mn) as Hmx.
    { destruct (Nat.eq_dec mx mn) as [->|]; [right; lia|]. left. unfold idx.
      apply Nat.div_lt_upper_bound; lia. }
    destruct (Qle_bool (sw s) t) eqn:Ec.
    + (* max_idx = idx *)
      assert ((idx + mn) / 2 <> idx \/ (idx + mn) / 2 = mn) as Hnext.
      { destruct (Nat.eq_dec idx mn) as [e|].
        - right. rewrite e. replace (mn + mn) with (mn * 2) by lia. apply Nat.div_mul. lia.
        - left. intro H. assert ((idx + mn) / 2 < idx); [|lia]. apply Nat.div_lt_upper_bound; lia. }
      destruct Hmx as [Hmx|[E1 E2]].
      * apply IH; auto; lia.
      * (* next call exits *)
        replace (idx + mn) with (idx * 2) by lia. rewrite Nat.div_mul by lia.
        destruct k; simpl; rewrite Nat.eqb_refl; exists idx; split; auto; split; try lia; rewrite E2; exact Hmn.
    + assert (t < sw s)%Q as Hgt.
      { apply Qnot_le_lt. intro H. apply Qle_bool_iff in H. congruence. }
      assert ((mx + idx) / 2 <> idx \/ (mx + idx) / 2 = idx) as Hnext by lia.
      destruct (Nat.eq_dec idx mn) as [e|].
      * assert (mx = mn \/ mx = S mn) as Hc.
        { destruct (le_lt_dec mx (S mn)); [lia|]. exfalso.
          assert (S mn <= idx); [|lia]. unfold idx. apply Nat.div_le_lower_bound; lia. }
        assert ((mx + idx) / 2 = idx) as Hstop.
        { rewrite e. fold idx. exact e. }
        rewrite Hstop. destruct k; simpl; rewrite Nat.eqb_refl; exists idx; split; auto; split; try lia; eauto.
      * apply IH; eauto; lia.
Qed.

Lemma scan_ok : forall l t i, exists k, scan l t i = i + k /\ k <= length l /\
  (forall s, In s (firstn k l) -> (t <= sw s)%Q) /\
  (forall s, nth_error l k = Some s -> (sw s < t)%Q).
Proof.
  induction l as [|s l IH]; intros t i; simpl.
  - exists 0. simpl. repeat split; auto; try lia; intros; try contradiction; discriminate.
  - destruct (Qle_bool t (sw s)) eqn:E.
    + destruct (IH t (S i)) as (k & H1 & H2 & H3 & H4). exists (S k). split; [lia|]. split; [lia|]. split.
      * simpl. intros x [<-|Hx]; auto. now apply Qle_bool_iff.
      * exact H4.
    + exists 0. simpl. split; [lia|]. split; [lia|]. split; [contradiction|].
      intros x Hx. inversion Hx; subst. apply Qnot_le_lt. intro H. apply Qle_bool_iff in H. congruence.
Qed.

Lemma in_firstn_nth : forall A (l : list A) k x, In x (firstn k l) -> exists i, i < k /\ nth_error l i = Some x.
Proof.
  induction l; intros k x H; destruct k; simpl in *; try contradiction.
  destruct H as [<-|H]; [exists 0; split; [lia|reflexivity]|].
  destruct (IHl _ _ H) as (i & Hi & Hn). exists (S i). split; [lia|exact Hn].
Qed.

Lemma in_skipn_nth : forall A (l : list A) k x, In x (skipn k l) -> exists i, k <= i /\ nth_error l i = Some x.
Proof.
  induction l; intros k x H; destruct k; simpl in *; try contradiction.
  - destruct H as [<-|H]; [exists 0; auto|]. apply In_nth_error in H as [i Hi]. exists (S i). split; [lia|exact Hi].
  - destruct (IHl _ _ H) as (i & Hi & Hn). exists (S i). split; [lia|exact Hn].
Qed.

(** The cut point found by the two loops of prune. *)
Lemma cut_ok : forall l t, desc l -> l <> [] ->
  exists i0, bsearch (S (length l)) l t 0 (length l - 1) ((length l - 1 + 0) / 2)
               (S ((length l - 1 + 0) / 2)) = Val i0 /\
  let k := scan (skipn i0 l) t i0 in
  k <= length l /\ (forall s, In s (firstn k l) -> (t <= sw s)%Q) /\
  (forall s, In s (skipn k l) -> (sw s < t)%Q).
Proof.
  intros l t Hd Hne. assert (0 < length l) by (destruct l; simpl; [congruence|lia]).
  destruct (bsearch_ok l t (S (length l)) 0 (length l - 1) (S ((length l - 1 + 0) / 2))) as (i0 & Hb & Hlt & Hi0);
    auto; try lia.
  exists i0. split; [exact Hb|]. simpl.
  destruct (scan_ok (skipn i0 l) t i0) as (k & Hk & Hkl & Hlo & Hhi). rewrite Hk.
  rewrite skipn_length in Hkl. split; [lia|]. split.
  - intros s Hs. apply in_firstn_nth in Hs as (j & Hj & Hn).
    destruct (lt_dec j i0) as [Hji|Hji].
    + destruct Hi0 as [->|(s0 & Hs0 & Hgt)]; [lia|].
      apply Qle_trans with (sw s0); [now apply Qlt_le_weak|].
      eapply desc_nth; eauto. lia.
    + apply Hlo. replace j with (i0 + (j - i0)) in Hn by lia.
      assert (nth_error (skipn i0 l) (j - i0) = Some s) as Hn'.
      { rewrite nth_error_skipn. exact Hn. }
      apply nth_error_In with (n := j - i0). rewrite nth_error_firstn by lia. exact Hn'.
  - intros s Hs. apply in_skipn_nth in Hs as (j & Hj & Hn).
    pose proof (nth_error_lt _ _ _ _ Hn) as Hjl.
    destruct (nth_error_ex _ l (i0 + k)) as [s0 Hs0]; [lia|].
    apply Qle_lt_trans with (sw s0).
    + eapply desc_nth; eauto.
    + apply Hhi. rewrite nth_error_skipn. exact Hs0.
Qed.

Lemma filter_cut : forall A (f : A -> bool) l k, (forall s, In s (firstn k l) -> f s = true) ->
  (forall s, In s (skipn k l) -> f s = false) -> filter f l = firstn k l.
Proof.
  intros A f l k H1 H2. rewrite <- (firstn_skipn k l) at 1. rewrite filter_app.
  assert (forall m, (forall s, In s m -> f s = true) -> filter f m = m) as Ha.
  { induction m; simpl; intros; auto. rewrite H by auto. rewrite IHm; auto. }
  assert (forall m, (forall s, In s m -> f s = false) -> filter f m = []) as Hb.
  { induction m; simpl; intros; auto. rewrite H by auto. auto. }
  rewrite Ha, Hb, app_nil_r; auto.
Qed.

Lemma filter_perm : forall A (f : A -> bool) l l', Permutation l l' -> Permutation (filter f l) (filter f l').
Proof.
  induction 1; simpl; auto.
  - destruct (f x); auto.
  - destruct (f x), (f y); auto. apply perm_swap.
  - etransitivity; eauto.
Qed.

Definition keep (t : Q) (s : slot) : bool := Qle_bool t (sw s).

Lemma perm_good : forall h n l l' sf sf' F, Permutation l l' -> good h (GM n l sf) F -> good h (GM n l' sf') F.
Proof.
  intros h n l l' sf sf' F HP [Ho Hn]. split; simpl in *.
  - eapply owned_perm; [|exact Ho]. unfold ptrs. simpl. apply Permutation_app_tail. now apply ptrsl_perm.
  - rewrite Hn, !live_count_ptrs. unfold ptrs. simpl. f_equal. apply Permutation_length. now apply ptrsl_perm.
Qed.

Lemma desc_firstn : forall l k, desc l -> desc (firstn k l).
Proof.
  intros l k H. revert k. induction H; intros k; destruct k; simpl; try constructor; auto.
  - apply IHStronglySorted.
  - rewrite Forall_forall in *. intros y Hy. apply H0.
    apply in_firstn_nth in Hy as (i & _ & Hi). eapply nth_error_In; eauto.
Qed.

Lemma prune_ok : forall srt h g F t, sorter_ok srt -> good h g F ->
  exists h' g' k, prune srt h g t = Val (h', g', k) /\ good h' g' F /\ frame h h' F /\
    Permutation (gl g') (filter (keep t) (gl g)) /\ desc (gl g') /\
    view h' g' = viewl h (gl g') /\
    k = length (filter (fun s => negb (keep t s)) (gl g)).
Proof.
  intros srt h [n l sf] F t Hsrt Hg. unfold prune. cbn [gl gn gsorted].
  destruct l as [|x l0] eqn:El.
  { exists h, (GM n [] false), 0. repeat split; auto using frame_refl; try apply Hg. constructor. }
  assert (l <> []) as Hnel by congruence.
  rewrite <- El in *. clear El x l0.
  destruct (Hsrt l) as [HP HS]. set (l1 := srt l) in *.
  unfold sortByWeight. cbn [gl gn gsorted]. fold l1.
  assert (l1 <> []) as Hl1.
  { intro E. rewrite E in HP. apply Permutation_nil in HP. auto. }
  destruct (cut_ok l1 t HS Hl1) as (i0 & Hb & Hcut). rewrite Hb. cbv zeta in Hcut. cbn [obind].
  set (k := scan (skipn i0 l1) t i0) in *. destruct Hcut as (Hkl & Hlo & Hhi).
  assert (good h (GM n l1 true) F) as Hg1.
  { eapply perm_good; [symmetry; exact HP|exact Hg]. }
  destruct Hg1 as [Ho1 Hn1]. unfold ptrs in Ho1. simpl in *.
  pose proof (firstn_skipn k l1) as Hsplit.
  destruct (remove_suffix (skipn k l1) h (firstn k l1) n true F) as (h' & sf' & Hr & Ho' & Hf').
  { rewrite Hsplit. exact Ho1. }
  rewrite Hsplit in Hr.
  assert (length (firstn k l1) = k) as Hlen by (rewrite firstn_length; lia).
  assert (length (skipn k l1) = length l1 - k) as Hlen2 by (apply skipn_length).
  rewrite Hlen, Hlen2 in Hr. rewrite Hr. simpl.
  assert (firstn k (firstn k l1 ++ map emptied (skipn k l1)) = firstn k l1) as Hfn.
  { rewrite firstn_app, Hlen, Nat.sub_diag. simpl. rewrite app_nil_r. apply firstn_all2. lia. }
  rewrite Hfn. eexists h', _, _. split; [reflexivity|]. simpl.
  assert (filter (keep t) l1 = firstn k l1) as Hfil.
  { apply filter_cut.
    - intros s Hs. unfold keep. apply Qle_bool_iff. auto.
    - intros s Hs. unfold keep. specialize (Hhi s Hs). destruct (Qle_bool t (sw s)) eqn:E; auto.
      apply Qle_bool_iff in E. exfalso. apply (Qlt_not_le _ _ Hhi E). }
  split; [split|split; [|split; [|split; [|split]]]].
  - exact Ho'.
  - rewrite live_count_ptrs in *. unfold ptrs in *. simpl in *. rewrite Hn1.
    rewrite <- Hsplit at 1. rewrite ptrsl_app, app_length. lia.
  - eapply frame_incl; [exact Hf'|]. intros q Hq. apply in_or_app. auto.
  - rewrite <- Hfil. now apply filter_perm.
  - apply desc_firstn. exact HS.
  - unfold view. simpl. apply viewl_frame. eapply frame_incl; [exact Hf'|]. intros q Hq. apply in_or_app. auto.
  - rewrite <- (Permutation_length (filter_perm _ (fun s => negb (keep t s)) _ _ HP)).
    rewrite <- Hlen2. rewrite <- Hsplit at 2. rewrite filter_app, app_length.
    assert (forall m, (forall s, In s m -> keep t s = true) -> length (filter (fun s => negb (keep t s)) m) = 0) as Ha.
    { induction m; simpl; intros; auto. rewrite H by auto. simpl. auto. }
    assert (forall m, (forall s, In s m -> keep t s = false) -> length (filter (fun s => negb (keep t s)) m) = length m) as Hc.
    { induction m; simpl; intros; auto. rewrite H by auto. simpl. auto. }
    rewrite Ha, Hc; auto.
    + intros s Hs. unfold keep. specialize (Hhi s Hs). destruct (Qle_bool t (sw s)) eqn:E; auto.
      apply Qle_bool_iff in E. exfalso. apply (Qlt_not_le _ _ Hhi E).
    + intros s Hs. unfold keep. apply Qle_bool_iff. auto.
Qed.
