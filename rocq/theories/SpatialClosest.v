(** Nearest-point query and whole histories of the spatial index. *)
From Coq Require Import List Bool Arith ZArith QArith Qcanon Lia Permutation.
From Verif Require Import Base ListUtil QcLra SpatialModel SpatialSpec SpatialGeom SpatialTree SpatialOps SpatialRemove SpatialQuery.
Import ListNotations.
Local Open Scope Qc_scope.

Lemma dist2_sqdist : forall a b, dist2 a b = sqdist a b.
Proof. unfold dist2. induction a as [|x a IH]; intros [|y b]; simpl; auto. now rewrite IH. Qed.

Lemma sq_nonneg : forall x : Qc, 0 <= x * x.
Proof. intros x. qcnra. Qed.

Lemma sqdist_nonneg : forall a b, 0 <= sqdist a b.
Proof.
  induction a as [|x a IH]; intros [|y b]; simpl; try apply Qcle_refl. specialize (IH b).
  assert (H := sq_nonneg (x - y)). qclra.
Qed.

Lemma sqdist_coord : forall a b d, length a = length b -> (d < length a)%nat ->
  (nth d a 0 - nth d b 0) * (nth d a 0 - nth d b 0) <= sqdist a b.
Proof.
  induction a as [|x a IH]; intros [|y b] d Hl Hd; simpl in *; try discriminate; [lia|].
  destruct d as [|d].
  - assert (H := sqdist_nonneg a b). qclra.
  - specialize (IH b d ltac:(lia) ltac:(lia)). assert (H := sq_nonneg (x - y)). qclra.
Qed.

Lemma sq_mono : forall a b : Qc, 0 <= a -> a <= b -> a * a <= b * b.
Proof. intros a b H1 H2. qcnra. Qed.

Lemma le_root_false : forall e D, le_root e D = false -> 0 < e /\ D < e * e.
Proof.
  intros e D H. unfold le_root in H. apply orb_false_iff in H. destruct H as [H1 H2]. split; apply Qcnot_le_lt; intros H.
  - apply Qcleb_true in H. congruence.
  - apply Qcleb_true in H. congruence.
Qed.

Lemma root_le_true : forall D e, root_le D e = true -> 0 <= e /\ D <= e * e.
Proof. intros D e H. unfold root_le in H. apply andb_true_iff in H. now rewrite !Qcleb_true in H. Qed.

Lemma forallb_combine : forall (f : Qc * Qc -> bool) a b, length a = length b ->
  (forallb f (combine a b) = true <-> forall d, (d < length a)%nat -> f (nth d a 0, nth d b 0) = true).
Proof.
  intros f. induction a as [|x a IH]; intros [|y b] Hl; simpl in *; try discriminate.
  - split; [intros _ d Hd; lia|auto].
  - rewrite andb_true_iff, IH by lia. split.
    + intros [H1 H2] [|d] Hd; auto. apply H2. lia.
    + intros H. split; [apply (H 0%nat); lia|]. intros d Hd. apply (H (S d)). lia.
Qed.

Lemma forallb_combine_false : forall (f : Qc * Qc -> bool) a b, length a = length b ->
  forallb f (combine a b) = false -> exists d, (d < length a)%nat /\ f (nth d a 0, nth d b 0) = false.
Proof.
  intros f. induction a as [|x a IH]; intros [|y b] Hl H; simpl in *; try discriminate.
  apply andb_false_iff in H. destruct H as [H|H].
  - exists 0%nat. split; [lia|exact H].
  - destruct (IH b) as (d & Hd & Hf); [lia|auto|]. exists (S d). split; [lia|exact Hf].
Qed.

Section Closest.
Variable n : nat.
Variable m : Qc.
Variable P : nat -> pos.
Hypothesis Hm : 0 < m.
Hypothesis HP : forall d, length (P d) = n.
Notation wf := (wf n m P).
Notation root_ok := (root_ok n m P).
Notation good := (good n m P).

(** A pruned box has no point within the distance. *)
Lemma within_false : forall q D k l c p, length q = n -> wf true k l c -> length p = n -> inC n l (m * pow2 k) p ->
  within q D c = false -> D < sqdist p q.
Proof.
  intros q D k l c p Hq H Hp Hin Hw. unfold within in Hw.
  assert (Hl := wf_len _ _ _ _ _ _ _ H). assert (Hlo := wf_lo _ _ _ _ _ _ _ H). assert (Hs := wf_size _ _ _ _ _ _ _ H).
  assert (Hcl : length (center c) = n) by (unfold center; rewrite map_length, Hlo; auto).
  apply forallb_combine_false in Hw; [|lia]. destruct Hw as (d & Hd & Hf). cbn [fst snd] in Hf. rewrite Hq in Hd.
  unfold center in Hf. rewrite nth_map_Qc in Hf by (rewrite Hlo; lia). rewrite Hlo, Hs in Hf.
  destruct (Hin d Hd) as [H1 H2]. assert (G := half_two (m * pow2 k)).
  assert (C := sqdist_coord p q d ltac:(lia) ltac:(lia)).
  apply andb_false_iff in Hf. destruct Hf as [Hf|Hf]; apply le_root_false in Hf; destruct Hf as [E1 E2].
  - assert (A := sq_mono (nth d q 0 - (m * pow2 k * half + nth d l 0) - m * pow2 k * half) (nth d q 0 - nth d p 0)).
    assert (B : (nth d q 0 - nth d p 0) * (nth d q 0 - nth d p 0) <= sqdist p q).
    { replace ((nth d q 0 - nth d p 0) * (nth d q 0 - nth d p 0)) with ((nth d p 0 - nth d q 0) * (nth d p 0 - nth d q 0)) by ring. exact C. }
    eapply Qclt_le_trans; [exact E2|]. eapply Qcle_trans; [apply A|exact B]; [now apply Qclt_le_weak|qclra].
  - assert (A := sq_mono (m * pow2 k * half + nth d l 0 - nth d q 0 - m * pow2 k * half) (nth d p 0 - nth d q 0)).
    eapply Qclt_le_trans; [exact E2|]. eapply Qcle_trans; [apply A|exact C]; [now apply Qclt_le_weak|qclra].
Qed.

(** Closer points lie strictly inside the box chosen for the search. *)
Lemma ball_strict : forall q D k l c p, length q = n -> wf true k l c -> length p = n ->
  ball_inside q D c = true -> sqdist p q < D -> inS n l (m * pow2 k) p.
Proof.
  intros q D k l c p Hq H Hp Hb Hd i Hi. unfold ball_inside in Hb. apply andb_true_iff in Hb. destruct Hb as [B1 B2].
  assert (Hl := wf_len _ _ _ _ _ _ _ H). assert (Hlo := wf_lo _ _ _ _ _ _ _ H). assert (Hs := wf_size _ _ _ _ _ _ _ H).
  rewrite forallb_combine in B1 by (unfold hi; rewrite map_length, Hlo; lia). rewrite forallb_combine in B2 by (rewrite Hlo; lia).
  specialize (B1 i ltac:(lia)). specialize (B2 i ltac:(lia)). cbn [fst snd] in B1, B2.
  unfold hi in B1. rewrite nth_map_Qc in B1 by (rewrite Hlo; lia). rewrite Hlo, Hs in B1. rewrite Hlo in B2.
  apply root_le_true in B1. apply root_le_true in B2. destruct B1 as [B1 B1'], B2 as [B2 B2'].
  assert (C := sqdist_coord p q i ltac:(lia) ltac:(lia)). split; apply Qcnot_le_lt; intros Hc.
  - assert (A := sq_mono (nth i q 0 - nth i l 0) (nth i q 0 - nth i p 0) B2 ltac:(qclra)).
    assert (E : (nth i q 0 - nth i p 0) * (nth i q 0 - nth i p 0) = (nth i p 0 - nth i q 0) * (nth i p 0 - nth i q 0)) by ring.
    rewrite E in A. assert (F : D < D) by (eapply Qcle_lt_trans; [exact B2'|]; eapply Qcle_lt_trans; [exact A|]; eapply Qcle_lt_trans; [exact C|exact Hd]).
    now apply Qclt_not_eq in F.
  - assert (A := sq_mono (nth i l 0 + m * pow2 k - nth i q 0) (nth i p 0 - nth i q 0) B1 ltac:(qclra)).
    assert (F : D < D) by (eapply Qcle_lt_trans; [exact B1'|]; eapply Qcle_lt_trans; [exact A|]; eapply Qcle_lt_trans; [exact C|exact Hd]).
    now apply Qclt_not_eq in F.
Qed.

(** The initial point. *)
Lemma down_ok : forall kb lb path root b, wf true kb lb b -> get_at path root = Some b -> points b <> [] ->
  exists d, In d (points b) /\ forall fuel, (S kb <= fuel)%nat -> some_point fuel path root = Val d.
Proof.
  induction kb as [|kb IH]; intros lb path root b H Hg Hne.
  - assert (Hc := wf_cnt _ _ _ _ _ _ _ H). assert (E0 : (0 <? cnt b)%Z = true).
    { apply Z.ltb_lt. destruct (points b); [congruence|simpl in Hc; lia]. }
    destruct (children b) as [|c ch] eqn:Ec.
    + rewrite (wf_leaf_points b Ec) in *. destruct (data b) as [|d r] eqn:Ed; [congruence|]. exists d. split; [now left|].
      intros [|fuel] Hf; [lia|]. cbn [some_point]. rewrite Hg, E0, Ec, Ed. reflexivity.
    + destruct (wf_children _ _ _ _ _ _ _ H) as (k' & Ek & _); [congruence|discriminate].
  - assert (Hc := wf_cnt _ _ _ _ _ _ _ H). assert (E0 : (0 <? cnt b)%Z = true).
    { apply Z.ltb_lt. destruct (points b); [congruence|simpl in Hc; lia]. }
    destruct (children b) as [|c0 ch0] eqn:Ec.
    + rewrite (wf_leaf_points b Ec) in *. destruct (data b) as [|d r] eqn:Ed; [congruence|]. exists d. split; [now left|].
      intros [|fuel] Hf; [lia|]. cbn [some_point]. rewrite Hg, E0, Ec, Ed. reflexivity.
    + assert (Hn : children b <> []) by congruence.
      destruct (wf_children _ _ _ _ _ _ _ H Hn) as (k' & Ek & Hd & _ & Hch). injection Ek as <-.
      destruct (first_child (fun c => (0 <? cnt c)%Z) (children b) 0) as [[i c]|] eqn:F.
      * destruct (first_child_spec _ _ _ _ _ F) as (e & -> & He & Hp & _). cbn [Nat.add] in *.
        assert (Wc := Hch e c He). apply Z.ltb_lt in Hp. rewrite (wf_cnt _ _ _ _ _ _ _ Wc) in Hp.
        destruct (IH _ (path ++ [e]) root c Wc) as (d & Hd' & Hr).
        -- rewrite get_at_app, Hg. simpl. now rewrite He.
        -- destruct (points c); [simpl in Hp; lia|discriminate].
        -- exists d. split.
           ++ rewrite points_eq. apply in_or_app. right. apply in_flat_map. exists c. split; [now apply nth_error_In in He|auto].
           ++ intros [|fuel] Hf; [lia|]. cbn [some_point]. rewrite Hg, E0, Ec. rewrite <- Ec, F. apply Hr. lia.
      * exfalso. apply Hne. rewrite points_eq, Hd by reflexivity. simpl.
        assert (G : forall c, In c (children b) -> points c = []).
        { intros c Hc'. assert (A := first_child_none _ _ _ F c Hc'). simpl in A. apply Z.ltb_ge in A.
          apply In_nth_error in Hc'. destruct Hc' as [e He]. rewrite (wf_cnt _ _ _ _ _ _ _ (Hch e c He)) in A.
          destruct (points c); [reflexivity|simpl in A; lia]. }
        clear - G. induction (children b) as [|x l IH]; [reflexivity|]. cbn [flat_map]. rewrite (G x) by now left. apply IH. intros; apply G; now right.
Qed.

Lemma get_points : forall q t b d, get_at q t = Some b -> In d (points b) -> In d (points t).
Proof.
  induction q as [|i q IH]; intros t b d H Hd; simpl in H; [now injection H as <-|].
  destruct (nth_error (children t) i) as [c|] eqn:E; [|discriminate]. rewrite points_eq. apply in_or_app. right.
  apply in_flat_map. exists c. split; [now apply nth_error_In in E|]. eapply IH; eauto.
Qed.

Lemma some_point_ok : forall root, good root -> points root <> [] -> forall rp b, get_at (rev rp) root = Some b ->
  exists N d, In d (points root) /\ forall fuel, (N <= fuel)%nat -> some_point fuel (rev rp) root = Val d.
Proof.
  intros root G Hne. induction rp as [|i rp IH]; intros b Hg.
  - simpl in Hg. injection Hg as <-. destruct G as (k & l & H).
    destruct (down_ok k l [] root root H eq_refl Hne) as (d & Hd & Hr). exists (S k), d. auto.
  - assert (Gb := get_good n m P _ _ _ G Hg). destruct Gb as (kb & lb & Hb).
    destruct (points b) as [|x r] eqn:Ep.
    + assert (Hg2 := Hg). simpl in Hg2. destruct (get_prefix (rev rp) i root b Hg2) as [p Hp]. destruct (IH p Hp) as (N & d & Hd & Hr).
      exists (S N), d. split; [auto|]. intros [|fuel] Hf; [lia|]. cbn [some_point]. rewrite Hg.
      rewrite (wf_cnt _ _ _ _ _ _ _ Hb), Ep. cbn [length Z.of_nat Z.ltb Z.compare]. rewrite rev_involutive. apply Hr. lia.
    + assert (Hp : points b <> []) by congruence.
      destruct (down_ok kb lb _ root b Hb Hg Hp) as (d & Hd & Hr). exists (S kb), d. split; [|auto].
      eapply get_points; eauto.
Qed.

(** The traversal. *)
Definition closest_inv (q : pos) (b : nat * Qc) : Prop := snd b = sqdist (P (fst b)) q.

Lemma leaf_closest_ok : forall q l best, closest_inv q best ->
  let r := leaf_closest P q l best in
  closest_inv q r /\ snd r <= snd best /\ (fst r = fst best \/ In (fst r) l) /\
  forall e, In e l -> snd r <= sqdist (P e) q.
Proof.
  intros q. unfold leaf_closest. induction l as [|x l IH]; intros best Hb; cbn [fold_left].
  - simpl. split; [auto|]. split; [apply Qcle_refl|]. split; [auto|]. intros e [].
  - rewrite dist2_sqdist. destruct (Qcltb_spec (sqdist (P x) q) (snd best)) as [Hc|Hc].
    + destruct (IH (x, sqdist (P x) q)) as (H1 & H2 & H3 & H4); [reflexivity|]. cbn [fst snd] in *.
      split; [auto|]. split; [eapply Qcle_trans; [exact H2|now apply Qclt_le_weak]|]. split.
      * right. destruct H3 as [->|H3]; [now left|now right].
      * intros e [<-|He]; auto.
    + destruct (IH best Hb) as (H1 & H2 & H3 & H4). split; [auto|]. split; [auto|]. split; [destruct H3; [auto|right; now right]|].
      intros e [<-|He]; [|auto]. eapply Qcle_trans; [exact H2|]. now apply Qcnot_lt_le.
Qed.

Lemma walk_closest_ok : forall q, length q = n -> forall fuel stack best, (forall t, In t stack -> good t) ->
  (boxes_of stack <= fuel)%nat -> closest_inv q best ->
  exists r, walk_closest P fuel q stack best = Val r /\ closest_inv q r /\ snd r <= snd best /\
    (fst r = fst best \/ In (fst r) (flat_map points stack)) /\
    forall e, In e (flat_map points stack) -> snd r <= sqdist (P e) q.
Proof.
  intros q Hq. induction fuel as [|fuel IH]; intros stack best G Hf Hb.
  - destruct stack as [|t stack]; [|simpl in Hf; destruct t; simpl in Hf; lia].
    exists best. split; [reflexivity|]. split; [auto|]. split; [apply Qcle_refl|]. split; [auto|]. intros e [].
  - destruct stack as [|t stack].
    { exists best. split; [reflexivity|]. split; [auto|]. split; [apply Qcle_refl|]. split; [auto|]. intros e []. }
    cbn [walk_closest flat_map]. cbn [boxes_of fold_right] in Hf. fold (boxes_of stack) in Hf. rewrite boxes_eq in Hf.
    assert (Gt : good t) by (apply G; now left). assert (Gs : forall x, In x stack -> good x) by (intros; apply G; now right).
    destruct (children t) as [|c ch] eqn:Ec.
    + rewrite (good_data n m P t Gt Ec). cbn [obind].
      destruct (leaf_closest_ok q (points t) best Hb) as (H1 & H2 & H3 & H4).
      set (b1 := leaf_closest P q (points t) best) in *.
      destruct (IH stack b1 Gs ltac:(lia) H1) as (r & E & K1 & K2 & K3 & K4). exists r. split; [exact E|]. split; [auto|].
      split; [eapply Qcle_trans; eauto|]. split.
      * destruct K3 as [K3|K3]; [|right; apply in_or_app; auto]. rewrite K3. destruct H3 as [H3|H3]; [auto|right; apply in_or_app; auto].
      * intros e He. apply in_app_or in He. destruct He as [He|He]; [|auto]. eapply Qcle_trans; [exact K2|auto].
    + rewrite <- Ec in *. assert (Hne : children t <> []) by congruence.
      destruct (IH (filter (within q (snd best)) (children t) ++ stack) best) as (r & E & K1 & K2 & K3 & K4); auto.
      * intros x Hx. apply in_app_or in Hx. destruct Hx as [Hx|Hx]; [|auto]. apply filter_In in Hx. apply (good_children n m P t); tauto.
      * rewrite boxes_app. assert (A := boxes_filter (within q (snd best)) (children t)). lia.
      * exists r. split; [exact E|]. split; [auto|]. split; [auto|]. rewrite (good_clean n m P t Gt Hne). split.
        -- destruct K3 as [K3|K3]; [auto|]. right. rewrite flat_map_app in K3. apply in_app_or in K3. apply in_or_app.
           destruct K3 as [K3|K3]; [left|auto]. apply in_flat_map in K3. destruct K3 as (x & Hx & Hd). apply filter_In in Hx.
           apply in_flat_map. exists x. tauto.
        -- intros e He. apply in_app_or in He. destruct He as [He|He]; [|apply K4; rewrite flat_map_app; apply in_or_app; auto].
           apply in_flat_map in He. destruct He as (x & Hx & He). destruct (within q (snd best) x) eqn:Ew.
           ++ apply K4. rewrite flat_map_app. apply in_or_app. left. apply in_flat_map. exists x. split; [|auto]. apply filter_In. auto.
           ++ assert (Gx := good_children n m P t x Gt Hx). destruct Gx as (kx & lx & Wx).
              eapply Qcle_trans; [exact K2|]. apply Qclt_le_weak. eapply within_false; eauto.
              eapply (wf_points n m P Hm); eauto.
Qed.

Lemma queryClosestPt_ok : forall k t q, root_ok k t -> length q = n -> points t <> [] ->
  exists N d, (forall fuel, (N <= fuel)%nat -> queryClosestPt P fuel q t = Val d) /\
  In d (points t) /\ forall e, In e (points t) -> sqdist (P d) q <= sqdist (P e) q.
Proof.
  intros k t q [H Hch] Hq Hne. assert (Gt : good t) by (eexists; eexists; eauto).
  assert (Hs : exists path b, search q t = Val (if inside t q then Some path else None) /\ get_at (if inside t q then path else []) t = Some b).
  { unfold search. destruct (inside t q) eqn:E.
    - destruct (descend_ok n m P _ _ _ _ _ H Hq E) as (p & b & Ep & Gp & _). exists p, b. rewrite Ep. auto.
    - exists [], t. auto. }
  destruct Hs as (path & b & Es & Gb). set (path' := if inside t q then path else []) in *.
  destruct (some_point_ok t Gt Hne (rev path') b) as (N & d & Hd & Hr); [now rewrite rev_involutive|]. rewrite rev_involutive in Hr.
  set (D := dist2 (P d) q).
  destruct (smallest_ok n m P (ball_inside q D) _ _ _ _ H) as (pc & c & Ec & Gc & Hc).
  assert (Gcc := get_good n m P _ _ _ Gt Gc).
  destruct (walk_closest_ok q Hq (boxes c) [c] (d, D)) as (r & Er & K1 & K2 & K3 & K4).
  { intros x [<-|[]]. auto. } { simpl. lia. } { unfold closest_inv, D. cbn [fst snd]. apply dist2_sqdist. }
  assert (Hfuel : forall fuel, (boxes c <= fuel)%nat -> walk_closest P fuel q [c] (d, D) = Val r).
  { assert (Mono : forall f stack best x, walk_closest P f q stack best = Val x -> forall f', (f <= f')%nat -> walk_closest P f' q stack best = Val x).
    { induction f as [|f IH]; intros stack best x Hx f' Hf'.
      - destruct stack; [destruct f'; exact Hx|discriminate].
      - destruct stack as [|y stack]; [destruct f'; exact Hx|]. destruct f' as [|f']; [lia|]. cbn [walk_closest] in *.
        destruct (children y).
        + destruct (all_data y); cbn [obind] in *; try discriminate. apply IH; auto. lia.
        + apply IH; auto. lia. }
    intros fuel Hf. eapply Mono; eauto. }
  exists (N + boxes c)%nat, (fst r). split; [|split].
  - intros fuel Hf. unfold queryClosestPt. rewrite Es. cbn [obind].
    replace (match (if inside t q then Some path else None) with Some p => p | None => [] end) with path'
      by (unfold path'; destruct (inside t q); reflexivity).
    rewrite Hr by lia. cbn [obind]. fold D. rewrite Ec, Hfuel by lia. reflexivity.
  - destruct K3 as [->|K3]; [exact Hd|]. simpl in K3. rewrite app_nil_r in K3. eapply get_points; eauto.
  - intros e He. unfold closest_inv in K1. rewrite <- K1.
    destruct (path_rest n m P Hm pc _ _ t c H Gc) as (rest & Hperm & Hstr).
    assert (He' := Permutation_in _ Hperm He). apply in_app_or in He'. destruct He' as [He'|He'].
    + apply K4. simpl. rewrite app_nil_r. exact He'.
    + destruct Hc as [-> |Hc].
      * exfalso. simpl in Gc. injection Gc as <-. assert (Hl := Permutation_length Hperm). rewrite app_length in Hl.
        destruct rest; [destruct He'|simpl in Hl; lia].
      * eapply Qcle_trans; [exact K2|]. cbn [snd]. apply Qcnot_lt_le. intros Hlt. apply (Hstr e He').
        destruct Gcc as (kc & lc & Wc). rewrite (wf_lo _ _ _ _ _ _ _ Wc), (wf_size _ _ _ _ _ _ _ Wc). eapply ball_strict; eauto.
Qed.

Lemma queryClosestPt_empty : forall k t q, root_ok k t -> length q = n -> points t = [] ->
  exists N, forall fuel, (N <= fuel)%nat -> queryClosestPt P fuel q t = UB NullDeref.
Proof.
  intros k t q [H Hch] Hq He. assert (Gt : good t) by (eexists; eexists; eauto).
  assert (Hs : exists path b, search q t = Val (if inside t q then Some path else None) /\ get_at (if inside t q then path else []) t = Some b).
  { unfold search. destruct (inside t q) eqn:E.
    - destruct (descend_ok n m P _ _ _ _ _ H Hq E) as (p & b & Ep & Gp & _). exists p, b. rewrite Ep. auto.
    - exists [], t. auto. }
  destruct Hs as (path & b & Es & Gb). set (path' := if inside t q then path else []) in *.
  assert (Up : forall rp b, get_at (rev rp) t = Some b -> forall fuel, (S (length rp) <= fuel)%nat -> some_point fuel (rev rp) t = UB NullDeref).
  { induction rp as [|i rp IH]; intros b0 Hg fuel Hf; (destruct fuel as [|fuel]; [lia|]); cbn [some_point]; rewrite Hg.
    - simpl in Hg. injection Hg as <-. rewrite (good_cnt n m P t Gt), He. reflexivity.
    - assert (Gb0 := get_good n m P _ _ _ Gt Hg). rewrite (good_cnt n m P b0 Gb0).
      assert (E : points b0 = []). { destruct (points b0) as [|x r] eqn:Ep; [auto|]. exfalso.
        assert (In x (points t)) by (apply (get_points _ _ _ x Hg); rewrite Ep; now left). rewrite He in H0. destruct H0. }
      rewrite E. cbn [length Z.of_nat Z.ltb Z.compare]. rewrite rev_involutive. simpl in Hg.
      destruct (get_prefix (rev rp) i t b0 Hg) as [p Hp]. apply (IH p Hp). simpl in Hf. lia. }
  exists (S (length path')). intros fuel Hf. unfold queryClosestPt. rewrite Es. cbn [obind].
  replace (match (if inside t q then Some path else None) with Some p => p | None => [] end) with path'
    by (unfold path'; destruct (inside t q); reflexivity).
  rewrite <- (rev_involutive path'). rewrite (Up (rev path') b); [reflexivity|now rewrite rev_involutive|now rewrite rev_length].
Qed.

(** One call. *)
Lemma call_ok : forall k t o S, root_ok k t -> Permutation (points t) S -> dims n o ->
  exists N, (exists t' a S' k', (forall fuel, (N <= fuel)%nat -> call n m P fuel o t = Val (t', a)) /\ root_ok k' t' /\
              Permutation (points t') S' /\ allowed m P S o a S') \/
            ((forall fuel, (N <= fuel)%nat -> call n m P fuel o t = UB NullDeref) /\ misuse S o).
Proof.
  intros k t o S R HS Hd. destruct o as [d|d| | |a b|q]; cbn [dims] in Hd.
  - destruct (addData_ok n m P Hm HP k t d R) as (N & t' & k' & E & R' & P'). exists N. left.
    exists t', ANone, (d :: S), k'. split; [intros fuel Hf; cbn [call]; now rewrite (E fuel Hf)|]. split; [auto|].
    split; [now rewrite P', HS|]. split; reflexivity.
  - exists 0%nat. destruct (removeData_ok n m P Hm HP k t d R) as [(E & Hn)|[(E & Hn)|(t' & E & R' & P')]].
    + right. split; [intros fuel _; cbn [call]; now rewrite E|]. intros Hin. apply Hn. apply Permutation_in with S; [now symmetry|auto].
    + left. exists t, (ABool false), S, k. split; [intros fuel _; cbn [call]; now rewrite E|]. split; [auto|]. split; [auto|].
      right. split; [auto|]. split; [reflexivity|]. intros Hin. apply Hn. apply Permutation_in with S; [now symmetry|auto].
    + left. exists t', (ABool true), (points t'), k. split; [intros fuel _; cbn [call]; now rewrite E|]. split; [auto|]. split; [reflexivity|].
      left. split; [auto|]. now rewrite <- HS.
  - exists 0%nat. left. destruct (init_ok n m P Hm) as [R0 P0]. exists (init n m), ANone, [], 0%nat.
    split; [auto|]. split; [auto|]. split; [now rewrite P0|]. split; auto.
  - exists 0%nat. left. exists t, (ANum (getDataSize t)), S, k. split; [auto|]. split; [auto|]. split; [auto|]. split; [|reflexivity].
    f_equal. unfold getDataSize. destruct R as [H _]. rewrite (wf_cnt _ _ _ _ _ _ _ H). now rewrite (Permutation_length HS).
  - destruct Hd as [Ha Hb]. destruct (queryDataInBox_ok n m P Hm HP k t a b R Ha Hb) as (N & l & rest & E & P' & H1 & H2).
    exists N. left. exists t, (AList l), S, k. split; [intros fuel Hf; cbn [call]; now rewrite (E fuel Hf)|].
    split; [auto|]. split; [auto|]. split; [reflexivity|]. exists l, rest. split; [auto|]. split; [now rewrite <- HS|]. auto.
  - destruct (points t) as [|x r] eqn:Ep.
    + destruct (queryClosestPt_empty k t q R Hd Ep) as (N & E). exists N. right. split; [intros fuel Hf; cbn [call]; now rewrite (E fuel Hf)|].
      now apply Permutation_nil in HS.
    + assert (Hne : points t <> []) by congruence.
      destruct (queryClosestPt_ok k t q R Hd Hne) as (N & d & E & H1 & H2). exists N. left. exists t, (APoint d), S, k.
      split; [intros fuel Hf; cbn [call]; now rewrite (E fuel Hf)|]. split; [auto|]. split; [now rewrite Ep|]. split; [reflexivity|].
      rewrite Ep in H1, H2. exists d. split; [auto|]. split; [now apply Permutation_in with (x :: r)|].
      intros e He. apply H2. apply Permutation_in with S; [now symmetry|auto].
Qed.

Lemma calls_ok : forall l k t S, root_ok k t -> Permutation (points t) S -> (forall o, In o l -> dims n o) ->
  exists N, (exists t' a S' k', (forall fuel, (N <= fuel)%nat -> calls n m P fuel l t = Val (t', a)) /\ root_ok k' t' /\
              Permutation (points t') S' /\ history m P S l a S') \/
            ((forall fuel, (N <= fuel)%nat -> calls n m P fuel l t = UB NullDeref) /\
             exists pre o post a S', l = pre ++ o :: post /\ history m P S pre a S' /\ misuse S' o).
Proof.
  induction l as [|o l IH]; intros k t S R HS Hd.
  - exists 0%nat. left. exists t, [], S, k. split; [auto|]. split; [auto|]. split; [auto|]. constructor. reflexivity.
  - destruct (call_ok k t o S R HS (Hd o (or_introl eq_refl))) as (N1 & [(t1 & a1 & S1 & k1 & E1 & R1 & P1 & A1)|(E1 & M1)]).
    + destruct (IH k1 t1 S1 R1 P1) as (N2 & [(t2 & a2 & S2 & k2 & E2 & R2 & P2 & H2)|(E2 & pre & o' & post & a & S' & -> & Hh & Hm')]).
      * intros o' Ho'. apply Hd. now right.
      * exists (N1 + N2)%nat. left. exists t2, (a1 :: a2), S2, k2. split; [|split; [auto|split; [auto|econstructor; eauto]]].
        intros fuel Hf. cbn [calls]. rewrite E1 by lia. cbn [obind fst snd]. rewrite E2 by lia. reflexivity.
      * exists (N1 + N2)%nat. right. split.
        -- intros fuel Hf. cbn [calls]. rewrite E1 by lia. cbn [obind fst snd]. rewrite E2 by lia. reflexivity.
        -- exists (o :: pre), o', post, (a1 :: a), S'. split; [reflexivity|]. split; [econstructor; eauto|auto].
    + exists N1. right. split; [intros fuel Hf; cbn [calls]; now rewrite E1|]. exists [], o, l, [], S.
      split; [reflexivity|]. split; [constructor; reflexivity|auto].
Qed.

Lemma root_counts : forall k t, root_ok k t -> exact_counts t.
Proof. intros k t [H _] path b Hg. apply (good_cnt n m P). eapply (get_good n m P); eauto. eexists; eexists; eauto. Qed.

Theorem spatial_history : forall l, (forall o, In o l -> dims n o) ->
  exists N,
    (exists root answers S, (forall fuel, (N <= fuel)%nat -> calls n m P fuel l (init n m) = Val (root, answers)) /\
       history m P [] l answers S /\ Permutation (points root) S /\ exact_counts root) \/
    ((forall fuel, (N <= fuel)%nat -> calls n m P fuel l (init n m) = UB NullDeref) /\
       exists pre o post answers S, l = pre ++ o :: post /\ history m P [] pre answers S /\ misuse S o).
Proof.
  intros l Hd. destruct (init_ok n m P Hm) as [R0 P0].
  destruct (calls_ok l 0 (init n m) [] R0) as (N & [(t & a & S & k & E & R & Hp & Hh)|H]); auto; [now rewrite P0| |].
  - exists N. left. exists t, a, S. split; [auto|]. split; [auto|]. split; [auto|]. eapply root_counts; eauto.
  - exists N. right. exact H.
Qed.
End Closest.
