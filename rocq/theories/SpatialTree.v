(** Invariant of the spatial index tree and its preservation by local changes. *)
From Coq Require Import List Bool Arith ZArith QArith Qcanon Lia Permutation.
From Verif Require Import Base ListUtil QcLra SpatialModel SpatialSpec SpatialGeom.
Import ListNotations.
Local Open Scope Qc_scope.

Section Tree.
Variable n : nat.
Variable m : Qc.
Variable P : nat -> pos.
Hypothesis Hm : 0 < m.
Hypothesis HP : forall d, length (P d) = n.

(** [st]: a box with children holds no data itself (always demanded below the top). *)
Fixpoint wf (st : bool) (k : nat) (l : pos) (t : tree) : Prop :=
  size t = m * pow2 k /\ lo t = l /\ length l = n /\ aligned m l /\
  cnt t = Z.of_nat (length (points t)) /\
  (forall d, In d (data t) -> inC n l (m * pow2 k) (P d)) /\
  (children t = [] \/
   match k with
   | O => False
   | S k' => (st = true -> data t = []) /\ length (children t) = (2 ^ n)%nat /\
             forall i c, nth_error (children t) i = Some c -> wf true k' (child_lo (m * pow2 k') l i) c
   end).

Lemma points_eq : forall t, points t = data t ++ flat_map points (children t).
Proof. intros []. reflexivity. Qed.

Lemma wf_size : forall st k l t, wf st k l t -> size t = m * pow2 k.
Proof. intros st [|k] l t H; apply H. Qed.
Lemma wf_lo : forall st k l t, wf st k l t -> lo t = l.
Proof. intros st [|k] l t H; apply H. Qed.
Lemma wf_len : forall st k l t, wf st k l t -> length l = n.
Proof. intros st [|k] l t H; apply H. Qed.
Lemma wf_aligned : forall st k l t, wf st k l t -> aligned m l.
Proof. intros st [|k] l t H; apply H. Qed.
Lemma wf_cnt : forall st k l t, wf st k l t -> cnt t = Z.of_nat (length (points t)).
Proof. intros st [|k] l t H; apply H. Qed.
Lemma wf_data : forall st k l t, wf st k l t -> forall d, In d (data t) -> inC n l (m * pow2 k) (P d).
Proof. intros st [|k] l t H; apply H. Qed.
Lemma wf_children : forall st k l t, wf st k l t -> children t <> [] -> exists k', k = S k' /\
  (st = true -> data t = []) /\ length (children t) = (2 ^ n)%nat /\
  forall i c, nth_error (children t) i = Some c -> wf true k' (child_lo (m * pow2 k') l i) c.
Proof.
  intros st k l t H Hc. destruct k as [|k].
  - destruct H as (_ & _ & _ & _ & _ & _ & [H|H]); [now apply Hc in H|contradiction].
  - exists k. destruct H as (_ & _ & _ & _ & _ & _ & [H|H]); [now apply Hc in H|auto].
Qed.

Lemma wf_weaken : forall st k l t, wf true k l t -> wf st k l t.
Proof.
  intros st [|k] l t (H1 & H2 & H3 & H4 & H5 & H6 & [H7|H7]); repeat (split; auto). right. destruct H7 as (H7 & H8). auto.
Qed.

Lemma wf_inside : forall st k l t p, wf st k l t -> length p = n -> (inside t p = true <-> inC n l (m * pow2 k) p).
Proof.
  intros st k l t p H Hp. rewrite (inside_iff n t p); auto.
  - now rewrite (wf_lo _ _ _ _ H), (wf_size _ _ _ _ H).
  - rewrite (wf_lo _ _ _ _ H). now apply wf_len in H.
Qed.

Lemma pow_half : forall k, m * pow2 (S k) * half = m * pow2 k.
Proof. intros. apply pow2_S_half. Qed.

Lemma mpow_pos : forall k, 0 < m * pow2 k.
Proof. intros k. assert (H := pow2_pos k). qcnra. Qed.

Lemma wf_child_sub : forall k l p i, length l = n -> inC n (child_lo (m * pow2 k) l i) (m * pow2 k) p -> inC n l (m * pow2 (S k)) p.
Proof.
  intros k l p i Hl H. apply (child_sub n l (m * pow2 (S k)) p i); auto.
  - apply Qclt_le_weak, mpow_pos.
  - now rewrite pow_half.
Qed.

(** All points below a box lie in it. *)
Lemma wf_points : forall k st l t, wf st k l t -> forall d, In d (points t) -> inC n l (m * pow2 k) (P d).
Proof.
  induction k as [|k IH]; intros st l t H d Hd; rewrite points_eq in Hd; apply in_app_or in Hd; destruct Hd as [Hd|Hd].
  - eapply wf_data; eauto.
  - destruct (children t) as [|c ch] eqn:E; [destruct Hd|]. destruct (wf_children _ _ _ _ H) as (k' & Ek & _); [congruence|discriminate].
  - eapply wf_data; eauto.
  - destruct (children t) as [|c ch] eqn:E; [destruct Hd|]. rewrite <- E in Hd.
    destruct (wf_children _ _ _ _ H) as (k' & Ek & _ & _ & Hc); [congruence|]. injection Ek as <-.
    apply in_flat_map in Hd. destruct Hd as (x & Hx & Hd). apply In_nth_error in Hx. destruct Hx as [i Hi].
    apply wf_child_sub with i; [now apply wf_len in H|]. eapply IH; eauto.
Qed.

Lemma flat_map_upd : forall l i x y, nth_error l i = Some x -> exists rest,
  Permutation (flat_map points l) (points x ++ rest) /\ Permutation (flat_map points (upd l i y)) (points y ++ rest).
Proof.
  induction l as [|a l IH]; intros [|i] x y H; simpl in H; try discriminate.
  - injection H as ->. exists (flat_map points l). split; reflexivity.
  - destruct (IH i x y H) as (rest & H1 & H2). exists (points a ++ rest). simpl. split.
    + rewrite H1. rewrite !app_assoc. apply Permutation_app_tail, Permutation_app_comm.
    + rewrite H2. rewrite !app_assoc. apply Permutation_app_tail, Permutation_app_comm.
Qed.

Definition under (st : bool) (path : list nat) : bool := match path with [] => st | _ => true end.

(** Replacing the box at the end of a path. *)
Lemma alter_ok : forall path st k l t b, wf st k l t -> get_at path t = Some b ->
  exists kb lb, wf (under st path) kb lb b /\ k = (length path + kb)%nat /\
  (forall p, inC n lb (m * pow2 kb) p -> inC n l (m * pow2 k) p) /\
  (exists rest, Permutation (points t) (points b ++ rest)) /\
  forall f b' dl, f b = Val (b', dl) -> wf (under st path) kb lb b' -> dl = (cnt b' - cnt b)%Z ->
  exists t', alter path f t = Val (t', dl) /\ wf st k l t' /\ get_at path t' = Some b' /\
    (path <> [] -> data t' = data t /\ children t' <> []) /\
    exists rest, Permutation (points t) (points b ++ rest) /\ Permutation (points t') (points b' ++ rest).
Proof.
  induction path as [|i q IH]; intros st k l t b H Hg.
  - simpl in Hg. injection Hg as <-. exists k, l. split; [exact H|]. split; [reflexivity|]. split; [auto|].
    split; [exists []; now rewrite app_nil_r|].
    intros f b' dl Hf Hw Hd. exists b'. simpl. split; [auto|]. split; [auto|]. split; [auto|].
    split; [congruence|]. exists []. now rewrite !app_nil_r.
  - simpl in Hg. destruct (nth_error (children t) i) as [c|] eqn:Ec; [|discriminate].
    assert (Hne : children t <> []) by (intros E; rewrite E in Ec; destruct i; discriminate).
    destruct (wf_children _ _ _ _ H Hne) as (k' & -> & Hdat & Hlen & Hch).
    assert (Hc := Hch i c Ec).
    assert (Hil : (i < length (children t))%nat) by now apply nth_error_lt in Ec.
    destruct (IH true k' _ c b Hc Hg) as (kb & lb & Hb & Hk & Hsub & (rest0 & Hr0) & Halt).
    exists kb, lb. assert (U : under true q = true) by (destruct q; reflexivity). rewrite U in Hb, Halt.
    split; [exact Hb|]. split; [simpl; lia|].
    split; [intros p Hp; apply wf_child_sub with i; [now apply wf_len in H|auto]|].
    destruct t as [s tl td tc ch]. simpl in Ec, Hne, Hdat, Hlen, Hch, Hil.
    split.
    { destruct (flat_map_upd ch i c c Ec) as (rest & Hp & _). exists (rest0 ++ td ++ rest).
      simpl. rewrite Hp, Hr0. rewrite <- !app_assoc. rewrite !app_assoc.
      rewrite (Permutation_app_comm td (points b)). rewrite <- !app_assoc. apply Permutation_app_head.
      rewrite !app_assoc. apply Permutation_app_tail, Permutation_app_comm. }
    intros f b' dl Hf Hw Hd.
    destruct (Halt f b' dl Hf Hw Hd) as (c' & Ha & Hc' & Hg' & _ & rest & Hp1 & Hp2).
    exists (Box s tl td (tc + dl)%Z (upd ch i c')). split; [|split; [|split; [|split]]].
    + simpl. rewrite Ec, Ha. reflexivity.
    + assert (Hcnt := wf_cnt _ _ _ _ H).
      destruct (flat_map_upd ch i c c' Ec) as (rs & Hq1 & Hq2).
      destruct H as (H1 & H2 & H3 & H4 & H5 & H6 & H7). simpl in *.
      split; [auto|]. split; [auto|]. split; [auto|]. split; [auto|]. split; [|split].
      * rewrite H5, !app_length. rewrite (Permutation_length Hq1), (Permutation_length Hq2), !app_length.
        rewrite (Permutation_length Hp1), (Permutation_length Hp2), !app_length.
        rewrite Hd, (wf_cnt _ _ _ _ Hw), (wf_cnt _ _ _ _ Hb). lia.
      * exact H6.
      * right. split; [exact Hdat|]. split; [now rewrite upd_length|]. intros j x Hj. rewrite nth_error_upd in Hj.
        destruct (Nat.eq_dec i j) as [<-|Hne']; [|auto]. destruct (lt_dec i (length ch)); [|discriminate].
        injection Hj as <-. exact Hc'.
    + simpl. rewrite nth_error_upd_eq by auto. exact Hg'.
    + intros _. split; [reflexivity|]. simpl. intros E. apply Hne. destruct ch; [reflexivity|]. destruct i; discriminate.
    + destruct (flat_map_upd ch i c c' Ec) as (rs & Hq1 & Hq2). exists (rest ++ td ++ rs). simpl. split.
      * rewrite Hq1, Hp1. rewrite <- !app_assoc. rewrite (app_assoc td), (Permutation_app_comm td), <- app_assoc.
        apply Permutation_app_head. rewrite !app_assoc. apply Permutation_app_tail, Permutation_app_comm.
      * rewrite Hq2, Hp2. rewrite <- !app_assoc. rewrite (app_assoc td), (Permutation_app_comm td), <- app_assoc.
        apply Permutation_app_head. rewrite !app_assoc. apply Permutation_app_tail, Permutation_app_comm.
Qed.

(** Searching. *)
Lemma go_eq : forall p l i, (fix go (i : nat) (l : list tree) : outcome (list nat) :=
      match l with
      | [] => UB Aborted
      | c :: r => if inside c p then (let* q := descend p c in Val (i :: q)) else go (S i) r
      end) i l =
  match first_child (fun c => inside c p) l i with
  | Some (i, c) => let* q := descend p c in Val (i :: q)
  | None => UB Aborted
  end.
Proof. intros p. induction l as [|x r IH]; intros i; simpl; [reflexivity|]. destruct (inside x p); [reflexivity|]. apply IH. Qed.

Lemma descend_eq : forall p t, descend p t =
  match children t with
  | [] => Val []
  | ch => match first_child (fun c => inside c p) ch 0 with
          | Some (i, c) => let* q := descend p c in Val (i :: q)
          | None => UB Aborted
          end
  end.
Proof.
  intros p [s l d c ch]. destruct ch as [|x ch]; [reflexivity|].
  exact (go_eq p (x :: ch) 0%nat).
Qed.

Lemma first_child_spec : forall f l i j c, first_child f l i = Some (j, c) ->
  exists d, j = (i + d)%nat /\ nth_error l d = Some c /\ f c = true /\ forall e x, (e < d)%nat -> nth_error l e = Some x -> f x = false.
Proof.
  intros f. induction l as [|a l IH]; intros i j c H; simpl in H; [discriminate|].
  destruct (f a) eqn:E.
  - injection H as <- <-. exists 0%nat. split; [lia|]. split; [reflexivity|]. split; [auto|]. intros e x He. lia.
  - destruct (IH _ _ _ H) as (d & -> & H1 & H2 & H3). exists (S d). split; [lia|]. split; [auto|]. split; [auto|].
    intros [|e] x He Hx; simpl in Hx; [now injection Hx as <-|]. apply (H3 e); auto. lia.
Qed.

Lemma first_child_none : forall f l i, first_child f l i = None -> forall c, In c l -> f c = false.
Proof.
  intros f. induction l as [|a l IH]; intros i H c Hc; simpl in *; [destruct Hc|].
  destruct (f a) eqn:E; [discriminate|]. destruct Hc as [<-|Hc]; auto. eapply IH; eauto.
Qed.

Lemma descend_ok : forall k st l t p, wf st k l t -> length p = n -> inside t p = true ->
  exists q b, descend p t = Val q /\ get_at q t = Some b /\ children b = [] /\ inside b p = true /\ (length q <= k)%nat /\
  (children t <> [] -> q <> []).
Proof.
  induction k as [|k IH]; intros st l t p H Hp Hi; rewrite descend_eq; destruct (children t) as [|c0 ch0] eqn:E.
  - exists [], t. split; [auto|]. split; [auto|]. split; [auto|]. split; [auto|]. split; [simpl; lia|]. intros X. now destruct X.
  - destruct (wf_children _ _ _ _ H) as (k' & Ek & _); [congruence|discriminate].
  - exists [], t. split; [auto|]. split; [auto|]. split; [auto|]. split; [auto|]. split; [simpl; lia|]. intros X. now destruct X.
  - rewrite <- E. assert (Hne : children t <> []) by congruence.
    destruct (wf_children _ _ _ _ H Hne) as (k' & Ek & _ & Hlen & Hch). injection Ek as <-.
    assert (Hl := wf_len _ _ _ _ H).
    destruct (first_child (fun c => inside c p) (children t) 0) as [[j c]|] eqn:F.
    + destruct (first_child_spec _ _ _ _ _ F) as (d & -> & Hd & Hin & _). simpl.
      destruct (IH true _ c p (Hch d c Hd) Hp Hin) as (q & b & Hq & Hg & Hb & Hi' & Hlq & _).
      exists (d :: q), b. rewrite Hq. simpl. rewrite Hd. split; [auto|]. split; [auto|]. split; [auto|]. split; [auto|]. split; [lia|]. discriminate.
    + exfalso. apply (wf_inside _ _ _ _ p H Hp) in Hi. destruct (cover n l _ p Hl Hi) as (i & Hi1 & Hi2).
      rewrite pow_half in Hi2. destruct (nth_error_ex _ (children t) i) as [c Hc]; [lia|].
      assert (A := first_child_none _ _ _ F c (nth_error_In _ _ Hc)). simpl in A.
      assert (B := proj2 (wf_inside _ _ _ _ p (Hch i c Hc) Hp) Hi2). congruence.
Qed.

Lemma get_at_app : forall q r t, get_at (q ++ r) t = match get_at q t with Some b => get_at r b | None => None end.
Proof. induction q as [|i q IH]; intros r t; simpl; [reflexivity|]. destruct (nth_error (children t) i); auto. Qed.

(** A point strictly inside a box below is stored nowhere else. *)
Lemma strict_below : forall k st l t i c d, wf st k l t -> st = true \/ ~ In d (data t) ->
  nth_error (children t) i = Some c -> In d (points t) ->
  inS n (lo c) (size c) (P d) -> In d (points c).
Proof.
  intros k st l t i c d H Hst Hc Hd Hs.
  assert (Hne : children t <> []) by (intros E; rewrite E in Hc; destruct i; discriminate).
  destruct (wf_children _ _ _ _ H Hne) as (k' & -> & Hdat & Hlen & Hch).
  rewrite points_eq in Hd. apply in_app_or in Hd. destruct Hd as [Hd|Hd].
  - destruct Hst as [->|Hst]; [rewrite Hdat in Hd by reflexivity; destruct Hd|contradiction].
  - apply in_flat_map in Hd. destruct Hd as (x & Hx & Hd). apply In_nth_error in Hx. destruct Hx as [j Hj].
    assert (Hw := Hch i c Hc). rewrite (wf_lo _ _ _ _ Hw), (wf_size _ _ _ _ Hw) in Hs.
    assert (G := wf_points _ _ _ _ (Hch j x Hj) d Hd).
    assert (i = j).
    { apply (unique n l (m * pow2 k') (P d)); auto; [now apply wf_len in H| |].
      - rewrite <- Hlen. now apply nth_error_lt in Hc.
      - rewrite <- Hlen. now apply nth_error_lt in Hj. }
    subst j. congruence.
Qed.
End Tree.
