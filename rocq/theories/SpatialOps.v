(** addData of the spatial index keeps the invariant and stores the point. *)
From Coq Require Import List Bool Arith ZArith QArith Qcanon Lia Permutation.
From Verif Require Import Base ListUtil QcLra SpatialModel SpatialSpec SpatialGeom SpatialTree.
Import ListNotations.
Local Open Scope Qc_scope.

Section Ops.
Variable n : nat.
Variable m : Qc.
Variable P : nat -> pos.
Hypothesis Hm : 0 < m.
Hypothesis HP : forall d, length (P d) = n.
Notation wf := (wf n m P).

Lemma eqb_true : forall a b, Qc_eq_bool a b = true -> a = b.
Proof. apply Qc_eq_bool_correct. Qed.
Lemma eqb_false : forall a b, a <> b -> Qc_eq_bool a b = false.
Proof. intros a b H. unfold Qc_eq_bool. destruct (Qc_eq_dec a b); congruence. Qed.

Lemma new_box_wf : forall st k l s, length l = n -> aligned m l -> s = m * pow2 k -> wf st k l (new_box s l).
Proof. intros st [|k] l s Hl Ha ->; (split; [reflexivity|]; split; [reflexivity|]; split; [exact Hl|]; split; [exact Ha|];
  split; [reflexivity|]; split; [intros d []|left; reflexivity]). Qed.

Lemma points_new : forall s l (f : nat -> pos) (is : list nat), flat_map points (map (fun i => new_box s (f i)) is) = [] /\ l = l :> pos.
Proof. intros s l f is. split; [|reflexivity]. induction is; simpl; auto. Qed.

Lemma branch_leaf : forall k l b, wf true (S k) l b -> children b = [] ->
  exists b1, branch n m b = (b1, true) /\ wf false (S k) l b1 /\ (data b = [] -> wf true (S k) l b1) /\
  data b1 = data b /\ points b1 = points b /\ cnt b1 = cnt b /\
  length (children b1) = (2 ^ n)%nat /\
  forall i c, nth_error (children b1) i = Some c -> c = new_box (m * pow2 k) (child_lo (m * pow2 k) l i).
Proof.
  intros k l b H Hc. destruct b as [s bl bd bc ch]. simpl in Hc. subst ch.
  assert (Hs := wf_size _ _ _ _ _ _ _ H). assert (Hlo := wf_lo _ _ _ _ _ _ _ H). assert (Hl := wf_len _ _ _ _ _ _ _ H).
  assert (Hal := wf_aligned _ _ _ _ _ _ _ H). assert (Hcnt := wf_cnt _ _ _ _ _ _ _ H).
  assert (Hdat := wf_data _ _ _ _ _ _ _ H).
  cbn [size lo data] in Hs, Hlo, Hdat. unfold branch. cbv zeta.
  rewrite eqb_false by (rewrite Hs; now apply pow2_S_neq).
  rewrite Hs, pow2_S_half, Hlo. eexists. split; [reflexivity|]. simpl app.
  set (cs := map (fun i => new_box (m * pow2 k) (child_lo (m * pow2 k) l i)) (seq 0 (2 ^ n))).
  assert (Hcs : length cs = (2 ^ n)%nat) by (unfold cs; now rewrite map_length, seq_length).
  assert (Hcn : forall i c, nth_error cs i = Some c -> c = new_box (m * pow2 k) (child_lo (m * pow2 k) l i)).
  { intros i c Hi. assert (Hlt := nth_error_lt _ _ _ _ Hi). unfold cs in Hi. rewrite nth_error_map in Hi.
    rewrite (nth_error_nth' _ 0%nat) in Hi by (rewrite seq_length; lia). rewrite seq_nth in Hi by lia.
    simpl in Hi. now injection Hi as <-. }
  assert (Hpt : flat_map points cs = []) by (apply (points_new _ l)).
  assert (W : forall st, (st = true -> bd = []) -> wf st (S k) l (Box (m * pow2 (S k)) l bd bc cs)).
  { intros st Hst. split; [reflexivity|]. split; [reflexivity|]. split; [auto|]. split; [auto|]. split.
    - rewrite points_eq. cbn [data children cnt]. rewrite Hpt. rewrite points_eq in Hcnt. exact Hcnt.
    - split; [exact Hdat|]. right. split; [exact Hst|]. split; [exact Hcs|].
      intros i c Hi. cbn [children] in Hi. rewrite (Hcn i c Hi). apply new_box_wf; auto.
      + now rewrite child_lo_length.
      + now apply aligned_child. }
  split; [apply W; discriminate|]. split; [intros E; apply W; auto|]. split; [reflexivity|]. split.
  - rewrite !points_eq. cbn [data children]. now rewrite Hpt.
  - split; [reflexivity|]. split; [exact Hcs|]. exact Hcn.
Qed.

Lemma branch_min : forall l b, wf true 0 l b -> branch n m b = (b, false).
Proof.
  intros l [s bl bd bc ch] H. assert (Hs := wf_size _ _ _ _ _ _ _ H). simpl in Hs. unfold branch.
  rewrite Hs. replace (m * 1) with m by ring. unfold Qc_eq_bool. destruct (Qc_eq_dec m m); congruence.
Qed.

Lemma wf_leaf_points : forall b, children b = [] -> points b = data b.
Proof. intros b H. rewrite points_eq, H. simpl. now rewrite app_nil_r. Qed.

(** A leaf may change its data. *)
Lemma wf_leaf : forall st st' k l b d', wf st k l b -> children b = [] ->
  (forall x, In x d' -> inC n l (m * pow2 k) (P x)) ->
  wf st' k l (Box (size b) (lo b) d' (Z.of_nat (length d')) []).
Proof.
  intros st st' k l b d' H Hc Hd. assert (Hs := wf_size _ _ _ _ _ _ _ H). assert (Hlo := wf_lo _ _ _ _ _ _ _ H).
  assert (Hl := wf_len _ _ _ _ _ _ _ H). assert (Hal := wf_aligned _ _ _ _ _ _ _ H).
  destruct k as [|k]; (split; [exact Hs|]; split; [exact Hlo|]; split; [exact Hl|]; split; [exact Hal|]; split;
    [cbn; now rewrite app_nil_r|]; split; [exact Hd|]; left; reflexivity).
Qed.

Lemma add_leaf_ok : forall st k l t q b d, wf st k l t -> get_at q t = Some b -> children b = [] ->
  inside b (P d) = true ->
  exists t', alter q (box_add d) t = Val (t', 1%Z) /\ wf st k l t' /\ Permutation (points t') (d :: points t) /\
  (q <> [] -> data t' = data t /\ children t' <> []).
Proof.
  intros st k l t q b d H Hg Hb Hi.
  destruct (alter_ok n m P Hm q st k l t b H Hg) as (kb & lb & Hwb & Hk & Hsub & _ & Halt).
  assert (Hin : inC n lb (m * pow2 kb) (P d)) by (apply (wf_inside n m P _ _ _ _ _ Hwb (HP d)); auto).
  assert (Hcnt := wf_cnt _ _ _ _ _ _ _ Hwb). rewrite (wf_leaf_points b Hb) in Hcnt.
  set (b' := Box (size b) (lo b) (data b ++ [d]) (Z.of_nat (length (data b ++ [d]))) []).
  assert (Hf : box_add d b = Val (b', 1%Z)).
  { destruct b as [s bl bd bc ch]. simpl in *. subst ch. unfold b'. rewrite Hcnt, app_length. simpl. f_equal. f_equal. f_equal. lia. }
  destruct (Halt (box_add d) b' 1%Z Hf) as (t' & H1 & H2 & H3 & H4 & rest & H5 & H6).
  - unfold b'. eapply wf_leaf; eauto. intros x Hx. apply in_app_or in Hx. destruct Hx as [Hx|[<-|[]]]; auto.
    eapply wf_data; eauto.
  - unfold b'. cbn [cnt]. rewrite Hcnt, app_length. simpl. lia.
  - exists t'. split; [auto|]. split; [auto|]. split; [|auto]. rewrite H6, H5. rewrite (wf_leaf_points b Hb).
    unfold b'. cbn [points flat_map]. rewrite app_nil_r, <- app_assoc. simpl. symmetry. apply Permutation_middle.
Qed.

Lemma all_data_ok : forall t, cnt t = Z.of_nat (length (data t)) -> all_data t = Val (data t).
Proof.
  intros t H. unfold all_data. rewrite H, Nat2Z.id.
  assert (G : forall (l : list nat) pre, fold_right (fun i r => match nth_error (pre ++ l) i with
             | Some d => let* l := r in Val (d :: l) | None => UB NullDeref end) (Val []) (seq (length pre) (length l)) = Val l).
  { induction l as [|x l IH]; intros pre; [reflexivity|]. cbn [length seq fold_right].
    rewrite nth_error_app2 by lia. rewrite Nat.sub_diag. cbn [nth_error].
    specialize (IH (pre ++ [x])). rewrite app_length in IH. cbn [length] in IH. rewrite Nat.add_1_r in IH.
    rewrite <- app_assoc in IH. cbn [app] in IH. rewrite IH. reflexivity. }
  exact (G (data t) []).
Qed.

Lemma ccnt_points : forall ch, (forall c, In c ch -> cnt c = Z.of_nat (length (points c))) ->
  ccnt ch = Z.of_nat (length (flat_map points ch)).
Proof.
  unfold ccnt. induction ch as [|c ch IH]; intros H; [reflexivity|]. cbn [map fold_right flat_map].
  rewrite app_length, (H c) by now left. rewrite IH by (intros; apply H; now right). lia.
Qed.

Lemma wf_ccnt : forall st k l t, wf st k l t -> ccnt (children t) = Z.of_nat (length (flat_map points (children t))).
Proof.
  intros st k l t H. apply ccnt_points. intros c Hc. apply In_nth_error in Hc. destruct Hc as [i Hi].
  assert (Hne : children t <> []) by (intros E; rewrite E in Hi; destruct i; discriminate).
  destruct (wf_children _ _ _ _ _ _ _ H Hne) as (k' & -> & _ & _ & Hch). eapply wf_cnt; eauto.
Qed.

Lemma split_ok : forall k l b, wf true (S k) l b -> children b = [] ->
  exists b', split n m P b = Val (b', 0%Z) /\ wf true (S k) l b' /\ children b' <> [] /\ Permutation (points b') (points b).
Proof.
  intros k l b H Hc. destruct (branch_leaf k l b H Hc) as (b1 & Eb & W1 & _ & D1 & P1 & C1 & L1 & _).
  assert (Hne1 : children b1 <> []).
  { intros E. rewrite E in L1. simpl in L1. assert (A := Nat.pow_nonzero 2 n). lia. }
  assert (HL : forall d, In d (data b) -> inC n l (m * pow2 (S k)) (P d)) by (eapply wf_data; eauto).
  assert (Hcb := wf_cnt _ _ _ _ _ _ _ H). rewrite (wf_leaf_points b Hc) in Hcb.
  unfold split. rewrite Eb. cbn [fst]. rewrite all_data_ok by (rewrite C1, D1; exact Hcb). cbn [obind]. rewrite D1.
  set (step := fun acc d => let* a := acc in let* s := search (P d) (fst a) in
      match s with None => UB NullDeref
      | Some q => let* a' := alter q (box_add d) (fst a) in Val (fst a', (snd a + snd a')%Z) end).
  assert (F : forall todo (a : tree) z done, (forall d, In d todo -> In d (data b)) ->
    wf false (S k) l a -> children a <> [] -> data a = data b -> Permutation (points a) (data b ++ done) ->
    z = Z.of_nat (length done) ->
    exists a', fold_left step todo (Val (a, z)) = Val (a', Z.of_nat (length (done ++ todo))) /\
      wf false (S k) l a' /\ children a' <> [] /\ data a' = data b /\ Permutation (points a') (data b ++ done ++ todo)).
  { induction todo as [|d todo IH]; intros a z done Hin Wa Hna Da Pa Hz.
    - exists a. rewrite app_nil_r. subst z. simpl. auto.
    - cbn [fold_left]. unfold step at 2. cbn [obind fst snd].
      assert (Hins : inside a (P d) = true) by (apply (wf_inside n m P _ _ _ _ _ Wa (HP d)), HL, Hin; now left).
      unfold search. rewrite Hins.
      destruct (descend_ok n m P _ _ _ _ _ Wa (HP d) Hins) as (q & bq & Eq & Gq & Cq & Iq & _ & Nq). rewrite Eq. cbn [obind].
      destruct (add_leaf_ok _ _ _ _ _ _ d Wa Gq Cq Iq) as (a' & Ea & Wa' & Pa' & Na'). rewrite Ea. cbn [obind fst snd].
      destruct (Na' (Nq Hna)) as [Da' Hna'].
      destruct (IH a' (z + 1)%Z (done ++ [d])) as (a2 & E2 & W2 & N2 & D2 & P2); auto.
      + intros e He. apply Hin. now right.
      + congruence.
      + rewrite Pa', Pa. rewrite app_assoc. apply Permutation_cons_append.
      + rewrite app_length. simpl. lia.
      + exists a2. rewrite <- app_assoc in E2, P2. simpl in E2, P2. auto. }
  destruct (F (data b) b1 0%Z []) as (a' & Ef & Wa & Na & Da & Pa); auto.
  { rewrite P1, (wf_leaf_points b Hc), app_nil_r. reflexivity. }
  rewrite Ef. cbn [obind fst snd]. simpl app in *.
  assert (Hcc := wf_ccnt _ _ _ _ Wa). assert (Hca := wf_cnt _ _ _ _ _ _ _ Wa).
  destruct (wf_children _ _ _ _ _ _ _ Wa Na) as (k' & Ek & _ & Hlen & Hch). injection Ek as <-.
  assert (Hs := wf_size _ _ _ _ _ _ _ Wa). assert (Hlo := wf_lo _ _ _ _ _ _ _ Wa). assert (Hl := wf_len _ _ _ _ _ _ _ Wa).
  assert (Hal := wf_aligned _ _ _ _ _ _ _ Wa).
  destruct a' as [s al ad ac ach]. cbn [data children size lo cnt] in *. subst ad al s.
  cbn [points] in Hca, Pa. rewrite app_length in Hca.
  exists (Box (m * pow2 (S k)) l [] (ac - (ac - ccnt ach))%Z ach). split; [|split; [|split]].
  - unfold box_clear. cbn [obind fst snd]. f_equal. f_equal. rewrite Hcc. lia.
  - split; [reflexivity|]. split; [reflexivity|]. split; [auto|]. split; [auto|]. split; [|split].
    + cbn [cnt points app]. lia.
    + intros d [].
    + right. split; [reflexivity|]. split; auto.
  - exact Na.
  - cbn [points app]. rewrite (wf_leaf_points b Hc). apply Permutation_app_inv_l with (data b). exact Pa.
Qed.

(** Placing a point in a leaf that already has data. *)
Lemma place_ok : forall x k l, length x = n -> forall j path root b,
  k = (length path + j)%nat -> wf true k l root -> children root <> [] ->
  get_at path root = Some b -> children b = [] -> inside b x = true ->
  exists root' path' b', (forall fuel, (j <= fuel)%nat -> place n m P fuel x path root = Val (root', path')) /\
    wf true k l root' /\ children root' <> [] /\ Permutation (points root') (points root) /\
    get_at path' root' = Some b' /\ children b' = [] /\ inside b' x = true.
Proof.
  intros x k l Hx. induction j as [j IH] using lt_wf_ind. intros path root b Hk H Hne Hg Hb Hi.
  assert (Hpath : path <> []) by (intros ->; simpl in Hg; injection Hg as <-; contradiction).
  destruct (alter_ok n m P Hm path true k l root b H Hg) as (kb & lb & Hwb & Hkb & _ & _ & Halt).
  assert (j = kb) by lia. subst kb.
  replace (under true path) with true in * by (destruct path; reflexivity).
  assert (Stop : forall r, (forall fuel, (j <= fuel)%nat -> place n m P fuel x path root = Val r) -> r = (root, path) ->
    exists root' path' b', (forall fuel, (j <= fuel)%nat -> place n m P fuel x path root = Val (root', path')) /\
    wf true k l root' /\ children root' <> [] /\ Permutation (points root') (points root) /\
    get_at path' root' = Some b' /\ children b' = [] /\ inside b' x = true).
  { intros r Hr ->. exists root, path, b. repeat (split; auto). }
  assert (Hcb := wf_cnt _ _ _ _ _ _ _ Hwb). rewrite (wf_leaf_points b Hb) in Hcb.
  destruct (0 <? cnt b)%Z eqn:E0.
  2: { apply (Stop (root, path)); auto. intros fuel _. destruct fuel; cbn [place]; rewrite Hg, E0; reflexivity. }
  destruct (data b) as [|y yr] eqn:Ed.
  { exfalso. rewrite Hcb in E0. discriminate. }
  destruct (negb (inside (small_box m (P y)) x)) eqn:E1.
  2: { apply (Stop (root, path)); auto. intros fuel _. destruct fuel; cbn [place]; rewrite Hg, E0, Ed, E1; reflexivity. }
  destruct j as [|j].
  { apply (Stop (root, path)); auto. intros fuel _. destruct fuel; cbn [place]; rewrite Hg, E0, Ed, E1, (branch_min _ _ Hwb); reflexivity. }
  destruct (branch_leaf j lb b Hwb Hb) as (b1 & Eb & _).
  destruct (split_ok j lb b Hwb Hb) as (b' & Es & Wb' & Nb' & Pb').
  destruct (Halt (split n m P) b' 0%Z Es Wb') as (root1 & Ea & W1 & G1 & N1 & rest & Q1 & Q2).
  { rewrite (wf_cnt _ _ _ _ _ _ _ Wb'), (wf_cnt _ _ _ _ _ _ _ Hwb), (Permutation_length Pb'). lia. }
  assert (Hi' : inside b' x = true).
  { apply (wf_inside n m P _ _ _ _ _ Wb' Hx). apply (wf_inside n m P _ _ _ _ _ Hwb Hx). exact Hi. }
  destruct (descend_ok n m P _ _ _ _ _ Wb' Hx Hi') as (q & bq & Eq & Gq & Cq & Iq & Lq & Nq). specialize (Nq Nb').
  assert (Lq1 : (1 <= length q)%nat) by (destruct q; [congruence|simpl; lia]).
  destruct (IH (S j - length q)%nat ltac:(lia) (path ++ q) root1 bq) as (r2 & p2 & b2 & E2 & W2 & N2 & P2 & G2 & C2 & I2); auto.
  - rewrite app_length. lia.
  - now apply N1.
  - rewrite get_at_app, G1. exact Gq.
  - exists r2, p2, b2. split.
    + intros [|fuel] Hf; [lia|]. cbn [place]. rewrite Hg, E0, Ed, E1, Eb. cbn [snd]. rewrite Ea. cbn [obind fst].
      rewrite G1. unfold search. rewrite Hi', Eq. cbn [obind]. apply E2. lia.
    + split; [auto|]. split; [auto|]. split; [|auto]. rewrite P2, Q2, Q1, Pb'. reflexivity.
Qed.

(** The root. *)
Definition root_ok (k : nat) (t : tree) : Prop := wf true (S k) (ones n (- (m * pow2 k))) t /\ children t <> [].

Lemma ones_nth : forall a d, (d < n)%nat -> nth d (ones n a) 0 = a.
Proof. intros a d Hd. unfold ones. rewrite (nth_indep _ 0 a) by now rewrite repeat_length. apply nth_repeat. Qed.
Lemma ones_len : forall a, length (ones n a) = n.
Proof. intros. apply repeat_length. Qed.
Lemma ones_aligned : forall k, aligned m (ones n (- (m * pow2 k))).
Proof. intros k d Hd. rewrite ones_len in Hd. rewrite ones_nth by auto. apply grid_opp, grid_pow2. Qed.

Lemma new_root : forall k s l, s = m * pow2 (S k) -> l = ones n (- (m * pow2 k)) ->
  exists r, branch n m (new_box s l) = (r, true) /\ root_ok k r /\ points r = [] /\
  forall i, (i < 2 ^ n)%nat -> nth_error (children r) i = Some (new_box (m * pow2 k) (child_lo (m * pow2 k) l i)).
Proof.
  intros k s l -> ->.
  destruct (branch_leaf k (ones n (- (m * pow2 k))) (new_box (m * pow2 (S k)) (ones n (- (m * pow2 k))))) as (r & E & _ & W & _ & Hp & _ & L & Hc).
  - apply new_box_wf; auto using ones_len, ones_aligned.
  - reflexivity.
  - exists r. split; [exact E|]. split; [split; [apply W; reflexivity|]|].
    + intros X. rewrite X in L. simpl in L. assert (A := Nat.pow_nonzero 2 n). lia.
    + split; [exact Hp|]. intros i Hi. destruct (nth_error_ex _ (children r) i) as [c Hcc]; [lia|]. rewrite Hcc. f_equal. now apply Hc.
Qed.

Lemma init_ok : root_ok 0 (init n m) /\ points (init n m) = [].
Proof.
  destruct (new_root 0 (m * two) (ones n (- m))) as (r & E & R & Hp & _).
  - simpl. ring.
  - simpl. f_equal. ring.
  - unfold init. rewrite E. auto.
Qed.

Lemma find_cell : forall st k l t p i, wf st (S k) l t -> children t <> [] -> length p = n -> (i < 2 ^ n)%nat ->
  inS n (child_lo (m * pow2 k) l i) (m * pow2 k) p ->
  exists c, nth_error (children t) i = Some c /\ first_child (fun c => inside c p) (children t) 0 = Some (i, c).
Proof.
  intros st k l t p i H Hne Hp Hi Hs.
  destruct (wf_children _ _ _ _ _ _ _ H Hne) as (k' & Ek & _ & Hlen & Hch). injection Ek as <-.
  destruct (nth_error_ex _ (children t) i) as [c Hc]; [lia|]. exists c. split; [auto|].
  destruct (first_child (fun c => inside c p) (children t) 0) as [[j c']|] eqn:F.
  - destruct (first_child_spec _ _ _ _ _ F) as (d & -> & Hd & Hin & _). cbn [Nat.add].
    assert (i = d); [|subst d; congruence].
    apply (unique n l (m * pow2 k) p); auto.
    + eapply wf_len; eauto.
    + rewrite <- Hlen. now apply nth_error_lt in Hd.
    + apply (wf_inside n m P _ _ _ _ _ (Hch d c' Hd) Hp). exact Hin.
  - exfalso. assert (A := first_child_none _ _ _ F c (nth_error_In _ _ Hc)). simpl in A.
    assert (B := proj2 (wf_inside n m P _ _ _ _ _ (Hch i c Hc) Hp) (inS_inC _ _ _ _ Hs)). congruence.
Qed.

Lemma replace_alter : forall j o t, (j < length (children t))%nat ->
  box_replaceChild j o t = alter [j] (fun x => Val (o, (cnt o - cnt x)%Z)) t.
Proof.
  intros j o [s l d c ch] Hj. simpl in Hj. destruct (nth_error_ex _ ch j Hj) as [x Hx].
  simpl. rewrite Hx. reflexivity.
Qed.

Lemma alter_one : forall i f t b b' dl, nth_error (children t) i = Some b -> f b = Val (b', dl) ->
  exists t', alter [i] f t = Val (t', dl) /\ children t' = upd (children t) i b'.
Proof. intros i f [s l d c ch] b b' dl Hb Hf. simpl in *. rewrite Hb, Hf. eexists. split; reflexivity. Qed.

(** The lower corner of child i of the old root, seen from the new root. *)
Lemma corner : forall k i, exists j, (j < 2 ^ n)%nat /\
  child_lo (m * pow2 k) (child_lo (m * pow2 (S k)) (ones n (- (m * pow2 (S k)))) i) j =
  child_lo (m * pow2 k) (ones n (- (m * pow2 k))) i.
Proof.
  intros k i. destruct (bits_ex n (fun d => negb (Nat.testbit i d))) as (j & Hj & Hb). exists j. split; [auto|].
  apply (nth_ext _ _ 0 0).
  - now rewrite !child_lo_length, !ones_len.
  - intros d Hd. rewrite !child_lo_length, ones_len in Hd.
    rewrite !child_lo_nth by (rewrite ?child_lo_length, ones_len; auto). rewrite !ones_nth by auto. rewrite Hb by auto.
    assert (E : m * pow2 (S k) = m * pow2 k + m * pow2 k) by (simpl; unfold two; qcnra). rewrite E.
    destruct (Nat.testbit i d); simpl negb; cbv iota; ring.
Qed.

Lemma center_strict : forall k l o, wf true k l o -> inS n l (m * pow2 k) (center o).
Proof.
  intros k l o H d Hd. unfold center. assert (Hl := wf_len _ _ _ _ _ _ _ H). rewrite (wf_lo _ _ _ _ _ _ _ H), (wf_size _ _ _ _ _ _ _ H).
  rewrite nth_map_Qc by lia. assert (G := half_two (m * pow2 k)). assert (A := mpow_pos m Hm k).
  split; qclra.
Qed.

Lemma center_len : forall k l o, wf true k l o -> length (center o) = n.
Proof. intros k l o H. unfold center. rewrite map_length, (wf_lo _ _ _ _ _ _ _ H). eapply wf_len; eauto. Qed.

Lemma child_sub_strict : forall k l p i, length l = n ->
  inS n (child_lo (m * pow2 k) l i) (m * pow2 k) p -> inS n l (m * pow2 (S k)) p.
Proof.
  intros k l p i Hl H d Hd. destruct (H d Hd) as [H1 H2]. rewrite child_lo_nth in * by lia.
  assert (E : m * pow2 (S k) = m * pow2 k + m * pow2 k) by (simpl; unfold two; qcnra). rewrite E.
  assert (A := mpow_pos m Hm k). destruct (Nat.testbit i d); split; qclra.
Qed.

Lemma adopt_ok : forall k i o r,
  let L := ones n (- (m * pow2 (S k))) in
  (i < 2 ^ n)%nat -> wf true k (child_lo (m * pow2 k) (ones n (- (m * pow2 k))) i) o ->
  root_ok (S k) r -> nth_error (children r) i = Some (new_box (m * pow2 (S k)) (child_lo (m * pow2 (S k)) L i)) ->
  exists r', adopt n m o r = Val r' /\ root_ok (S k) r' /\ Permutation (points r') (points o ++ points r) /\
  forall c, c <> i -> nth_error (children r') c = nth_error (children r) c.
Proof.
  intros k i o r L Hi Ho [Hr Hne] Hfresh.
  destruct (corner k i) as (j & Hj & Ej). fold L in Hr, Ej.
  assert (HLi : length (child_lo (m * pow2 (S k)) L i) = n) by (rewrite child_lo_length; apply ones_len).
  assert (S2 : inS n (child_lo (m * pow2 k) (child_lo (m * pow2 (S k)) L i) j) (m * pow2 k) (center o)).
  { rewrite Ej. now apply center_strict. }
  assert (S1 : inS n (child_lo (m * pow2 (S k)) L i) (m * pow2 (S k)) (center o)) by (eapply child_sub_strict; eauto).
  assert (Hcl := center_len _ _ _ Ho).
  destruct (find_cell _ _ _ _ _ _ Hr Hne Hcl Hi S1) as (c0 & Hc0 & F0). rewrite Hfresh in Hc0. injection Hc0 as <-.
  unfold adopt. rewrite F0. destruct (0 <? cnt o)%Z eqn:E0.
  2: { exists r. split; [auto|]. split; [split; auto|]. split; [|auto].
       assert (Z0 : points o = []); [|now rewrite Z0].
       apply Z.ltb_ge in E0. rewrite (wf_cnt _ _ _ _ _ _ _ Ho) in E0. destruct (points o); [auto|simpl in E0; lia]. }
  set (b := new_box (m * pow2 (S k)) (child_lo (m * pow2 (S k)) L i)) in *.
  assert (Wb : wf true (S k) (child_lo (m * pow2 (S k)) L i) b).
  { apply new_box_wf; auto. apply aligned_child, ones_aligned. }
  destruct (branch_leaf k _ b Wb) as (b1 & Eb & _ & Wb1 & _ & Pb1 & Cb1 & Lb1 & _); [reflexivity|]. specialize (Wb1 eq_refl).
  assert (Hg : get_at [i] r = Some b) by (simpl; now rewrite Hfresh).
  destruct (alter_ok n m P Hm [i] true _ _ r b Hr Hg) as (kb & lb & Hb & Hkb & _ & _ & Halt).
  assert (kb = S k) by (simpl in Hkb; lia). subst kb.
  assert (lb = child_lo (m * pow2 (S k)) L i).
  { rewrite <- (wf_lo _ _ _ _ _ _ _ Hb). reflexivity. } subst lb. cbn [under] in *.
  set (f1 := fun c => Val (fst (branch n m c), 0%Z)).
  assert (Ef1 : f1 b = Val (b1, 0%Z)) by (unfold f1; now rewrite Eb).
  destruct (Halt f1 b1 0%Z Ef1 Wb1) as (r1 & Ea1 & W1 & G1 & N1 & rest1 & Q1 & Q2); [rewrite Cb1; lia|].
  destruct (alter_one i f1 r b b1 0%Z Hfresh Ef1) as (r1' & Ea1' & Ch1). rewrite Ea1 in Ea1'. injection Ea1' as <-.
  rewrite Ea1. cbn [obind fst].
  assert (Hn1 : nth_error (children r1) i = Some b1).
  { simpl in G1. destruct (nth_error (children r1) i); [exact G1|discriminate]. }
  rewrite Hn1.
  assert (Nb1 : children b1 <> []).
  { intros X. rewrite X in Lb1. simpl in Lb1. assert (A := Nat.pow_nonzero 2 n). lia. }
  destruct (find_cell _ _ _ _ _ _ Wb1 Nb1 Hcl Hj S2) as (g & Hg2 & F2). rewrite F2.
  (* replace the grandchild *)
  assert (Hgj : get_at [j] b1 = Some g) by (simpl; now rewrite Hg2).
  destruct (alter_ok n m P Hm [j] true _ _ b1 g Wb1 Hgj) as (kg & lg & Hwg & Hkg & _ & _ & Haltg).
  assert (kg = k) by (simpl in Hkg; lia). subst kg. cbn [under] in *.
  assert (lg = child_lo (m * pow2 k) (child_lo (m * pow2 (S k)) L i) j).
  { destruct (wf_children _ _ _ _ _ _ _ Wb1 Nb1) as (k' & Ek & _ & _ & Hch). injection Ek as <-.
    rewrite <- (wf_lo _ _ _ _ _ _ _ Hwg). now rewrite (wf_lo _ _ _ _ _ _ _ (Hch j g Hg2)). } subst lg.
  rewrite Ej in Haltg. set (f2 := fun x => Val (o, (cnt o - cnt x)%Z)) in *.
  destruct (Haltg f2 o (cnt o - cnt g)%Z eq_refl Ho eq_refl) as (b2 & Eb2 & W2 & _ & _ & rest2 & Q3 & Q4).
  assert (Hg1 : get_at [i] r1 = Some b1) by exact G1.
  destruct (alter_ok n m P Hm [i] true _ _ r1 b1 W1 Hg1) as (kb & lb & Hb1 & Hkb1 & _ & _ & Halt1).
  assert (kb = S k) by (simpl in Hkb1; lia). subst kb. cbn [under] in *.
  assert (lb = child_lo (m * pow2 (S k)) L i).
  { rewrite <- (wf_lo _ _ _ _ _ _ _ Hb1). now rewrite (wf_lo _ _ _ _ _ _ _ Wb1). } subst lb.
  set (f3 := box_replaceChild j o).
  assert (Ef3 : f3 b1 = Val (b2, (cnt o - cnt g)%Z)) by (unfold f3; rewrite replace_alter by lia; exact Eb2).
  assert (Pb2 : Permutation (points b2) (points o)).
  { assert (X : points g ++ rest2 = []).
    { apply Permutation_nil. rewrite <- Q3, Pb1. reflexivity. }
    apply app_eq_nil in X. destruct X as [_ X2]. rewrite Q4, X2, app_nil_r. reflexivity. }
  assert (Cg : cnt g = 0%Z).
  { rewrite (wf_cnt _ _ _ _ _ _ _ Hwg). assert (X : points g ++ rest2 = []).
    { apply Permutation_nil. rewrite <- Q3, Pb1. reflexivity. }
    apply app_eq_nil in X. destruct X as [-> _]. reflexivity. }
  destruct (Halt1 f3 b2 (cnt o - cnt g)%Z Ef3 W2) as (r2 & Ea2 & W3 & _ & N3 & rest3 & Q5 & Q6).
  { rewrite (wf_cnt _ _ _ _ _ _ _ W2), (Permutation_length Pb2), (wf_cnt _ _ _ _ _ _ _ Ho), Cg.
    rewrite (wf_cnt _ _ _ _ _ _ _ Hb1), Pb1. simpl. lia. }
  destruct (alter_one i f3 r1 b1 b2 _ Hn1 Ef3) as (r2' & Ea2' & Ch2). rewrite Ea2 in Ea2'. injection Ea2' as <-.
  rewrite Ea2. cbn [obind fst]. exists r2. split; [reflexivity|]. split; [split; [exact W3|apply N3; discriminate]|]. split.
  - rewrite Q6, Pb2. apply Permutation_app_head.
    rewrite Q1, <- (app_nil_l rest3). rewrite Pb1 in Q2, Q5. simpl in *. rewrite <- Q5, Q2. reflexivity.
  - intros c Hc. rewrite Ch2, Ch1. rewrite !nth_error_upd_neq by auto. reflexivity.
Qed.

Lemma flat_map_firstn_S : forall (l : list tree) i o, nth_error l i = Some o ->
  flat_map points (firstn (S i) l) = flat_map points (firstn i l) ++ points o.
Proof.
  induction l as [|a l IH]; intros [|i] o H; simpl in H; try discriminate.
  - injection H as ->. simpl. now rewrite app_nil_r.
  - cbn [firstn flat_map]. rewrite <- app_assoc. f_equal. now apply IH.
Qed.

Lemma skipn_cons : forall (l : list tree) i o r, skipn i l = o :: r -> nth_error l i = Some o /\ skipn (S i) l = r.
Proof.
  induction l as [|a l IH]; intros [|i] o r H; simpl in *; try discriminate.
  - now injection H as -> ->.
  - now apply IH.
Qed.

Lemma double_ok : forall k t, root_ok k t ->
  exists t', double n m t = Val t' /\ root_ok (S k) t' /\ Permutation (points t') (points t).
Proof.
  intros k t [H Hne]. assert (Hs := wf_size _ _ _ _ _ _ _ H).
  destruct (new_root (S k) (size t * two) (ones n (- size t))) as (r0 & E0 & R0 & P0 & C0).
  { rewrite Hs. simpl. ring. } { now rewrite Hs. }
  rewrite Hs in C0.
  destruct (wf_children _ _ _ _ _ _ _ H Hne) as (k' & Ek & Hdat & Hlen & Hch). injection Ek as <-.
  assert (F : forall olds i r, skipn i (children t) = olds -> (i <= 2 ^ n)%nat -> root_ok (S k) r ->
    (forall c, (i <= c)%nat -> (c < 2 ^ n)%nat -> nth_error (children r) c =
       Some (new_box (m * pow2 (S k)) (child_lo (m * pow2 (S k)) (ones n (- (m * pow2 (S k)))) c))) ->
    Permutation (points r) (flat_map points (firstn i (children t))) ->
    exists r', fold_left (fun r o => let* x := r in adopt n m o x) olds (Val r) = Val r' /\ root_ok (S k) r' /\
      Permutation (points r') (flat_map points (children t))).
  { induction olds as [|o olds IH]; intros i r Hsk Hi R Hf Hp.
    - exists r. split; [reflexivity|]. split; [auto|]. rewrite Hp.
      rewrite <- (firstn_skipn i (children t)) at 2. rewrite Hsk, app_nil_r. reflexivity.
    - destruct (skipn_cons _ _ _ _ Hsk) as [Ho Hsk'].
      assert (Hlt : (i < 2 ^ n)%nat) by (rewrite <- Hlen; now apply nth_error_lt in Ho).
      destruct (adopt_ok k i o r Hlt (Hch i o Ho) R (Hf i (le_n i) Hlt)) as (r1 & E1 & R1 & P1 & C1).
      cbn [fold_left obind]. rewrite E1. apply (IH (S i) r1); auto.
      + intros c Hc Hc2. rewrite C1 by lia. apply Hf; lia.
      + rewrite P1, Hp, (flat_map_firstn_S _ _ _ Ho). apply Permutation_app_comm. }
  destruct (F (children t) 0%nat r0) as (r' & E1 & R1 & P1); auto.
  - apply Nat.le_0_l.
  - rewrite P0. reflexivity.
  - exists r'. unfold double. rewrite E0. cbn [fst]. split; [exact E1|]. split; [auto|].
    rewrite P1, (points_eq t), Hdat by reflexivity. reflexivity.
Qed.

Lemma root_inside : forall k t x, root_ok k t -> length x = n ->
  (inside t x = true <-> forall d, (d < n)%nat -> - (m * pow2 k) <= nth d x 0 /\ nth d x 0 <= m * pow2 k).
Proof.
  intros k t x [H _] Hx. rewrite (wf_inside n m P _ _ _ _ _ H Hx). unfold inC.
  assert (E : m * pow2 (S k) = m * pow2 k + m * pow2 k) by (simpl; unfold two; qcnra). rewrite E.
  split; intros G d Hd; specialize (G d Hd); rewrite ones_nth in * by auto; destruct G; split; qclra.
Qed.

Lemma pow2_mono : forall a b, (a <= b)%nat -> pow2 a <= pow2 b.
Proof. intros a b H. induction H; [apply Qcle_refl|]. simpl. assert (A := pow2_pos m0). unfold two. qcnra. Qed.

Lemma grow_ok : forall x, length x = n -> forall j k t, root_ok k t ->
  (forall d, (d < n)%nat -> - (m * pow2 (k + j)) <= nth d x 0 /\ nth d x 0 <= m * pow2 (k + j)) ->
  exists t' q k' b, (forall fuel, (j <= fuel)%nat -> grow n m fuel x t = Val (t', q)) /\ root_ok k' t' /\
    Permutation (points t') (points t) /\ get_at q t' = Some b /\ children b = [] /\ inside b x = true.
Proof.
  intros x Hx. induction j as [|j IH]; intros k t R Hb.
  - assert (Hi : inside t x = true) by (apply (root_inside k t x R Hx); now rewrite Nat.add_0_r in Hb).
    destruct R as [H Hne]. destruct (descend_ok n m P _ _ _ _ _ H Hx Hi) as (q & b & Eq & Gq & Cq & Iq & _ & _).
    exists t, q, k, b. split; [|repeat (split; auto)].
    intros fuel _. destruct fuel; cbn [grow]; unfold search; rewrite Hi, Eq; reflexivity.
  - destruct (inside t x) eqn:Hi.
    + destruct R as [H Hne]. destruct (descend_ok n m P _ _ _ _ _ H Hx Hi) as (q & b & Eq & Gq & Cq & Iq & _ & _).
      exists t, q, k, b. split; [|repeat (split; auto)].
      intros fuel _. destruct fuel; cbn [grow]; unfold search; rewrite Hi, Eq; reflexivity.
    + destruct (double_ok k t R) as (t1 & E1 & R1 & P1).
      destruct (IH (S k) t1 R1) as (t' & q & k' & b & Eg & R' & P' & Rest).
      { intros d Hd. specialize (Hb d Hd). rewrite Nat.add_succ_r in Hb. exact Hb. }
      exists t', q, k', b. split; [|split; [auto|split; [now rewrite P'|auto]]].
      intros [|fuel] Hf; [lia|]. cbn [grow]. unfold search. rewrite Hi. cbn [obind]. rewrite E1. cbn [obind]. apply Eg. lia.
Qed.

Lemma addData_ok : forall k t d, root_ok k t -> exists N t' k',
  (forall fuel, (N <= fuel)%nat -> addData n m P fuel d t = Val t') /\ root_ok k' t' /\ Permutation (points t') (d :: points t).
Proof.
  intros k t d R. destruct (bound_ex m (P d) Hm) as [j Hj].
  destruct (grow_ok (P d) (HP d) j k t R) as (t1 & q & k1 & b & Eg & R1 & P1 & Gb & Cb & Ib).
  { intros i _. destruct (Hj i) as [H1 H2]. assert (A := pow2_mono j (k + j) ltac:(lia)). split; qcnra. }
  assert (Hq : q <> []). { intros ->. simpl in Gb. injection Gb as <-. now destruct R1. }
  destruct R1 as [W1 N1].
  destruct (Qc_eq_bool (size b) m || (cnt b =? 0)%Z) eqn:E.
  - destruct (add_leaf_ok _ _ _ _ _ _ d W1 Gb Cb Ib) as (t2 & E2 & W2 & P2 & N2).
    exists j, t2, k1. split; [|split; [split; [auto|now apply N2]|now rewrite P2, P1]].
    intros fuel Hf. unfold addData. rewrite (Eg fuel Hf). cbn [obind fst snd]. rewrite Gb, E, E2. reflexivity.
  - destruct (alter_ok n m P Hm q true _ _ t1 b W1 Gb) as (kb & lb & _ & Hkb & _).
    destruct (place_ok (P d) _ _ (HP d) kb q t1 b Hkb W1 N1 Gb Cb Ib) as (t2 & q2 & b2 & E2 & W2 & N2 & P2 & G2 & C2 & I2).
    destruct (add_leaf_ok _ _ _ _ _ _ d W2 G2 C2 I2) as (t3 & E3 & W3 & P3 & N3).
    assert (Hq2 : q2 <> []). { intros ->. simpl in G2. injection G2 as <-. contradiction. }
    exists (j + kb)%nat, t3, k1. split; [|split; [split; [auto|now apply N3]|now rewrite P3, P2, P1]].
    intros fuel Hf. unfold addData. rewrite Eg by lia. cbn [obind fst snd]. rewrite Gb, E.
    rewrite E2 by lia. cbn [obind fst snd]. rewrite E3. reflexivity.
Qed.
End Ops.
