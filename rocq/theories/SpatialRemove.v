(** removeData of the spatial index. *)
From Coq Require Import List Bool Arith ZArith QArith Qcanon Lia Permutation.
From Verif Require Import Base ListUtil QcLra SpatialModel SpatialSpec SpatialGeom SpatialTree SpatialOps.
Import ListNotations.
Local Open Scope Qc_scope.

Lemma find_index_some : forall x l i j, find_index x l i = Some j -> exists e, j = (i + e)%nat /\ nth_error l e = Some x.
Proof.
  intros x. induction l as [|y l IH]; intros i j H; simpl in H; [discriminate|].
  destruct (Nat.eqb_spec y x) as [->|Hn].
  - injection H as <-. exists 0%nat. split; [lia|reflexivity].
  - destruct (IH _ _ H) as (e & -> & He). exists (S e). split; [lia|exact He].
Qed.
Lemma find_index_none : forall x l i, find_index x l i = None -> ~ In x l.
Proof.
  intros x. induction l as [|y l IH]; intros i H Hin; simpl in *; [exact Hin|].
  destruct (Nat.eqb_spec y x) as [->|Hn]; [discriminate|]. destruct Hin as [E|Hin]; [congruence|]. eapply IH; eauto.
Qed.

Lemma swap_remove : forall (l : list nat) i x, nth_error l i = Some x ->
  Permutation l (x :: removelast (upd l i (nth (length l - 1) l 0%nat))).
Proof.
  intros l i x H. assert (Hl := nth_error_lt _ _ _ _ H).
  destruct (exists_last (l := l)) as (l0 & z & ->); [intros ->; simpl in Hl; lia|].
  rewrite app_length in *. cbn [length] in *. replace (length l0 + 1 - 1)%nat with (length l0) by lia.
  rewrite app_nth2, Nat.sub_diag by lia. cbn [nth].
  destruct (lt_dec i (length l0)) as [Hi|Hi].
  - rewrite nth_error_app1 in H by auto. rewrite upd_app1 by auto. rewrite removelast_last.
    destruct (nth_error_split _ _ H) as (a & b & -> & <-).
    replace (upd (a ++ x :: b) (length a) z) with (a ++ z :: b).
    + rewrite <- app_assoc. cbn [app]. rewrite <- Permutation_middle. apply perm_skip.
      apply Permutation_app_head. symmetry. apply Permutation_cons_append.
    + rewrite upd_app2 by lia. rewrite Nat.sub_diag. reflexivity.
  - assert (i = length l0) by lia. subst i. rewrite nth_error_app2, Nat.sub_diag in H by lia. injection H as <-.
    rewrite upd_app2, Nat.sub_diag by lia. cbn [upd]. rewrite removelast_last. symmetry. apply Permutation_cons_append.
Qed.

Lemma strict_or_face : forall n l s p, inC n l s p ->
  inS n l s p \/ exists d, (d < n)%nat /\ (nth d p 0 = nth d l 0 \/ nth d p 0 = nth d l 0 + s).
Proof.
  induction n as [|n IH]; intros l s p H.
  - left. intros d Hd. lia.
  - destruct (IH l s p) as [Hs|(d & Hd & E)].
    + intros d Hd. apply H. lia.
    + destruct (H n (Nat.lt_succ_diag_r n)) as [H1 H2].
      destruct (qle_lt_or_eq _ _ H1) as [L1|E1]; [|right; exists n; auto].
      destruct (qle_lt_or_eq _ _ H2) as [L2|E2]; [|right; exists n; auto].
      left. intros d Hd. destruct (Nat.eq_dec d n) as [->|]; [auto|]. apply Hs. lia.
    + right. exists d. auto.
Qed.

Section Remove.
Variable n : nat.
Variable m : Qc.
Variable P : nat -> pos.
Hypothesis Hm : 0 < m.
Hypothesis HP : forall d, length (P d) = n.
Notation wf := (wf n m P).
Notation root_ok := (root_ok n m P).

Lemma sub_strict : forall q st k l t b p, wf st k l t -> get_at q t = Some b ->
  inS n (lo b) (size b) p -> inS n l (m * pow2 k) p.
Proof.
  induction q as [|i q IH]; intros st k l t b p H Hg Hs; simpl in Hg.
  - injection Hg as <-. now rewrite (wf_lo _ _ _ _ _ _ _ H), (wf_size _ _ _ _ _ _ _ H) in Hs.
  - destruct (nth_error (children t) i) as [c|] eqn:Ec; [|discriminate].
    assert (Hne : children t <> []) by (intros E; rewrite E in Ec; destruct i; discriminate).
    destruct (wf_children _ _ _ _ _ _ _ H Hne) as (k' & -> & _ & _ & Hch).
    apply (child_sub_strict n m Hm k' l p i); [eapply wf_len; eauto|]. eapply IH; eauto.
Qed.

Lemma path_strict : forall q k l t b d, wf true k l t -> get_at q t = Some b -> In d (points t) ->
  inS n (lo b) (size b) (P d) -> In d (points b).
Proof.
  induction q as [|i q IH]; intros k l t b d H Hg Hd Hs; simpl in Hg.
  - now injection Hg as <-.
  - destruct (nth_error (children t) i) as [c|] eqn:Ec; [|discriminate].
    assert (Hne : children t <> []) by (intros E; rewrite E in Ec; destruct i; discriminate).
    destruct (wf_children _ _ _ _ _ _ _ H Hne) as (k' & -> & _ & _ & Hch). assert (Hc := Hch i c Ec).
    apply (IH k' _ c b d Hc Hg); [|exact Hs]. apply (strict_below n m P Hm (S k') true l t i c d H); auto.
    rewrite (wf_lo _ _ _ _ _ _ _ Hc), (wf_size _ _ _ _ _ _ _ Hc). eapply sub_strict; eauto.
Qed.

(** The only child with data holds everything. *)
Lemma sole_spec : forall ch i c0 c, sole ch i c0 = Some c ->
  (forall x, In x ch -> children x = []) /\
  ((c0 = Some c /\ forall x, In x ch -> (cnt x <= 0)%Z) \/
   (c0 = None /\ exists e x, c = (i + e)%nat /\ nth_error ch e = Some x /\
     forall e' y, e' <> e -> nth_error ch e' = Some y -> (cnt y <= 0)%Z)).
Proof.
  induction ch as [|x ch IH]; intros i c0 c H.
  - simpl in H. split; [intros y []|]. left. split; [auto|]. intros y [].
  - cbn [sole] in H. destruct (children x) eqn:Ex; [|discriminate].
    destruct (0 <? cnt x)%Z eqn:E0.
    + destruct c0; [discriminate|]. destruct (IH _ _ _ H) as [Hl [(Hc & Hz)|(Hc & _)]]; [|discriminate]. injection Hc as <-.
      split; [intros y [<-|Hy]; auto|]. right. split; [auto|]. exists 0%nat, x. split; [lia|]. split; [auto|].
      intros [|e'] y He Hy; [congruence|]. simpl in Hy. apply Hz. now apply nth_error_In in Hy.
    + apply Z.ltb_ge in E0. destruct (IH _ _ _ H) as [Hl [(Hc & Hz)|(Hc & e & y & -> & Hy & Hz)]].
      * split; [intros y [<-|Hy]; auto|]. left. split; [auto|]. intros y [<-|Hy]; auto.
      * split; [intros z [<-|Hz']; auto|]. right. split; [auto|]. exists (S e), y. split; [lia|]. split; [auto|].
        intros [|e'] z He Hz'; [now injection Hz' as <-|]. apply (Hz e'); auto.
Qed.

Lemma flat_map_sole : forall ch e x, nth_error ch e = Some x ->
  (forall e' y, e' <> e -> nth_error ch e' = Some y -> points y = []) -> flat_map points ch = points x.
Proof.
  induction ch as [|a ch IH]; intros [|e] x H Hz; simpl in H; try discriminate; cbn [flat_map].
  - injection H as ->. assert (E : flat_map points ch = []); [|now rewrite E, app_nil_r].
    assert (G : forall y, In y ch -> points y = []).
    { intros y Hy. apply In_nth_error in Hy. destruct Hy as [e' He']. now apply (Hz (S e')). }
    clear - G. induction ch as [|b ch IH]; [reflexivity|]. cbn [flat_map]. rewrite (G b) by now left. apply IH. intros; apply G; now right.
  - rewrite (Hz 0%nat a) by (auto; discriminate). simpl. apply (IH e); auto. intros e' y He Hy. apply (Hz (S e')); auto.
Qed.

Lemma pull_fold : forall l s lo d c ch z, fold_left (fun acc x => let* a := acc in let* a' := box_add x (fst a) in
     Val (fst a', (snd a + snd a')%Z)) l (Val (Box s lo d c ch, z)) =
  Val (Box s lo (d ++ l) (c + Z.of_nat (length l))%Z ch, (z + Z.of_nat (length l))%Z).
Proof.
  induction l as [|x l IH]; intros s lo d c ch z.
  - cbn [fold_left length]. rewrite app_nil_r. simpl. now rewrite !Z.add_0_r.
  - cbn [fold_left obind box_add fst snd]. rewrite IH. rewrite <- app_assoc. cbn [length app]. f_equal. f_equal; [f_equal|]; lia.
Qed.

Lemma pull_ok : forall k l p c, wf true k l p -> sole (children p) 0 None = Some c ->
  exists p', pull c p = Val (p', 0%Z) /\ wf true k l p' /\ Permutation (points p') (points p).
Proof.
  intros k l p c H Hs. destruct (sole_spec _ _ _ _ Hs) as [Hleaf [(Hc & _)|(_ & e & x & -> & Hx & Hz)]]; [discriminate|].
  cbn [Nat.add] in *.
  assert (Hne : children p <> []) by (intros E; rewrite E in Hx; destruct e; discriminate).
  destruct (wf_children _ _ _ _ _ _ _ H Hne) as (k' & -> & Hdat & Hlen & Hch). specialize (Hdat eq_refl).
  assert (Wx := Hch e x Hx). assert (Lx := Hleaf x (nth_error_In _ _ Hx)).
  assert (Hcx := wf_cnt _ _ _ _ _ _ _ Wx). rewrite (wf_leaf_points x Lx) in Hcx.
  assert (Hfm : flat_map points (children p) = data x).
  { rewrite <- (wf_leaf_points x Lx). apply (flat_map_sole _ e x Hx). intros e' y He Hy.
    assert (A := Hz e' y He Hy). rewrite (wf_cnt _ _ _ _ _ _ _ (Hch e' y Hy)) in A. destruct (points y); [auto|simpl in A; lia]. }
  assert (Hcc := wf_ccnt n m P _ _ _ _ H). rewrite Hfm in Hcc.
  assert (Hcp := wf_cnt _ _ _ _ _ _ _ H). rewrite points_eq, Hdat, Hfm in Hcp. simpl in Hcp.
  assert (Hpp : points p = data x) by (rewrite points_eq, Hdat, Hfm; reflexivity).
  unfold pull. rewrite Hx. rewrite all_data_ok by exact Hcx. cbn [obind].
  assert (Hsz := wf_size _ _ _ _ _ _ _ H). assert (Hlo := wf_lo _ _ _ _ _ _ _ H).
  destruct p as [s pl pd pc pch]. cbn [children data cnt size lo] in *. subst pd. rewrite pull_fold. cbn [obind fst snd box_removeChildren app].
  rewrite Hcc. eexists. split; [f_equal; f_equal; lia|]. split.
  - replace (pc + Z.of_nat (length (data x)) + - Z.of_nat (length (data x)))%Z with (Z.of_nat (length (data x))) by lia.
    subst s pl. assert (Hl := wf_len _ _ _ _ _ _ _ H). assert (Hal := wf_aligned _ _ _ _ _ _ _ H).
    split; [reflexivity|]. split; [reflexivity|]. split; [auto|]. split; [auto|]. split.
    + cbn. now rewrite app_nil_r.
    + split; [|left; reflexivity]. cbn [data]. intros y Hy. apply (wf_points n m P Hm _ _ _ _ H). now rewrite Hpp.
  - rewrite Hpp. cbn. now rewrite app_nil_r.
Qed.

Lemma get_prefix : forall q i t b, get_at (q ++ [i]) t = Some b -> exists p, get_at q t = Some p.
Proof. intros q i t b H. rewrite get_at_app in H. destruct (get_at q t) as [p|]; [eauto|discriminate]. Qed.

Lemma collapse_ok : forall rp k t p, root_ok k t -> get_at (rev rp) t = Some p ->
  exists t', collapse rp t = Val t' /\ root_ok k t' /\ Permutation (points t') (points t).
Proof.
  induction rp as [|i rest IH]; intros k t p R Hg.
  - exists t. split; [reflexivity|]. split; [auto|reflexivity].
  - cbn [collapse]. rewrite Hg. destruct (sole (children p) 0 None) as [c|] eqn:Es.
    2: { exists t. split; [reflexivity|]. split; [auto|reflexivity]. }
    destruct R as [H Hne].
    destruct (alter_ok n m P Hm _ true _ _ t p H Hg) as (kb & lb & Hw & _ & _ & _ & Halt).
    assert (Hnil : rev (i :: rest) <> []) by (simpl; intros E; apply app_eq_nil in E; destruct E; discriminate).
    assert (U : under true (rev (i :: rest)) = true) by (destruct (rev (i :: rest)); reflexivity). rewrite U in Hw, Halt.
    destruct (pull_ok _ _ _ _ Hw Es) as (p' & Ep & Wp & Pp).
    destruct (Halt (pull c) p' 0%Z Ep Wp) as (t1 & E1 & W1 & G1 & N1 & r & Q1 & Q2).
    { rewrite (wf_cnt _ _ _ _ _ _ _ Wp), (wf_cnt _ _ _ _ _ _ _ Hw), (Permutation_length Pp). lia. }
    rewrite E1. cbn [obind fst]. destruct (get_prefix (rev rest) i t1 p' G1) as [p1 Hp1].
    destruct (IH k t1 p1) as (t2 & E2 & R2 & P2); [split; [auto|now apply N1]|auto|].
    exists t2. split; [auto|]. split; [auto|]. rewrite P2, Q2, Q1, Pp. reflexivity.
Qed.

Lemma removeData_ok : forall k t d, root_ok k t ->
  (removeData P d t = UB NullDeref /\ ~ In d (points t)) \/
  (removeData P d t = Val (t, false) /\ (In d (points t) -> touches_grid m (P d))) \/
  (exists t', removeData P d t = Val (t', true) /\ root_ok k t' /\ Permutation (points t) (d :: points t')).
Proof.
  intros k t d R. assert (R' := R). destruct R' as [H Hne]. unfold removeData, search. destruct (inside t (P d)) eqn:Hi.
  2: { left. split; [reflexivity|]. intros Hin. assert (G := wf_points n m P Hm _ _ _ _ H d Hin).
       apply (wf_inside n m P _ _ _ _ _ H (HP d)) in G. congruence. }
  right. destruct (descend_ok n m P _ _ _ _ _ H (HP d) Hi) as (q & b & Eq & Gq & Cq & Iq & _ & Nq). specialize (Nq Hne).
  rewrite Eq. cbn [obind]. rewrite Gq.
  destruct (alter_ok n m P Hm q true _ _ t b H Gq) as (kb & lb & Hw & _ & _ & _ & Halt).
  assert (U : under true q = true) by (destruct q; reflexivity). rewrite U in Hw, Halt.
  destruct (find_index d (data b) 0) as [i|] eqn:F.
  - right. destruct (find_index_some _ _ _ _ F) as (e & -> & He). cbn [Nat.add] in *.
    assert (Hcb := wf_cnt _ _ _ _ _ _ _ Hw). rewrite (wf_leaf_points b Cq) in Hcb.
    assert (Hperm := swap_remove _ _ _ He).
    set (d' := removelast (upd (data b) e (nth (length (data b) - 1) (data b) 0%nat))) in *.
    set (b' := Box (size b) (lo b) d' (Z.of_nat (length d')) []).
    assert (Ef : box_remove_at e b = Val (b', (-1)%Z)).
    { assert (Hlen := Permutation_length Hperm). unfold b', d' in *. destruct b as [s bl bd bc ch]. cbn [children data size lo cnt] in *.
      subst ch. unfold box_remove_at. cbv zeta. f_equal. f_equal. f_equal. cbn [length] in Hlen. lia. }
    assert (Wb' : wf true kb lb b').
    { unfold b'. eapply wf_leaf; eauto. intros x Hx. eapply wf_data; eauto.
      apply Permutation_in with (d :: d'); [now symmetry|now right]. }
    destruct (Halt (box_remove_at e) b' (-1)%Z Ef Wb') as (t1 & E1 & W1 & G1 & N1 & r & Q1 & Q2).
    { unfold b'. cbn [cnt]. rewrite Hcb, (Permutation_length Hperm). cbn [length]. lia. }
    rewrite E1. cbn [obind fst].
    destruct (rev q) as [|i rp] eqn:Er. { apply (f_equal (@rev nat)) in Er. rewrite rev_involutive in Er. contradiction. }
    assert (Eq' : q = rev rp ++ [i]) by (rewrite <- (rev_involutive q), Er; reflexivity).
    rewrite Eq' in G1. destruct (get_prefix _ _ _ _ G1) as [p Hp].
    destruct (collapse_ok rp k t1 p) as (t2 & E2 & R2 & P2); [split; [auto|now apply N1]|auto|].
    exists t2. rewrite E2. cbn [obind]. split; [reflexivity|]. split; [auto|].
    rewrite P2, Q1, Q2. rewrite (wf_leaf_points b Cq). unfold b'. cbn [points flat_map]. rewrite app_nil_r.
    rewrite Hperm at 1. reflexivity.
  - left. split; [reflexivity|]. intros Hin. apply find_index_none in F.
    assert (HinC : inC n lb (m * pow2 kb) (P d)) by now apply (wf_inside n m P _ _ _ _ _ Hw (HP d)).
    destruct (strict_or_face _ _ _ _ HinC) as [Hs|(x & Hx & E)].
    + exfalso. apply F. rewrite <- (wf_leaf_points b Cq). apply (path_strict q _ _ t b d H Gq Hin).
      now rewrite (wf_lo _ _ _ _ _ _ _ Hw), (wf_size _ _ _ _ _ _ _ Hw).
    + exists x, (nth x (P d) 0). split.
      * apply nth_error_nth'. now rewrite HP.
      * assert (A : on_grid m (nth x lb 0)) by (apply (wf_aligned _ _ _ _ _ _ _ Hw); rewrite (wf_len _ _ _ _ _ _ _ Hw); auto).
        destruct E as [-> | ->]; [auto|]. apply grid_add; auto using grid_pow2.
Qed.
End Remove.
