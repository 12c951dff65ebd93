(** Box and nearest-point queries of the spatial index. *)
From Coq Require Import List Bool Arith ZArith QArith Qcanon Lia Permutation.
From Verif Require Import Base ListUtil QcLra SpatialModel SpatialSpec SpatialGeom SpatialTree SpatialOps SpatialRemove.
Import ListNotations.
Local Open Scope Qc_scope.

(** Number of boxes. *)
Fixpoint boxes (t : tree) : nat := let 'Box _ _ _ _ ch := t in S (fold_right (fun c s => boxes c + s)%nat 0%nat ch).
Definition boxes_of (l : list tree) : nat := fold_right (fun c s => boxes c + s)%nat 0%nat l.

Lemma boxes_eq : forall t, boxes t = S (boxes_of (children t)).
Proof. intros []. reflexivity. Qed.
Lemma boxes_app : forall a b, boxes_of (a ++ b) = (boxes_of a + boxes_of b)%nat.
Proof. induction a as [|x a IH]; intros b; simpl; [reflexivity|]. rewrite IH. lia. Qed.
Lemma boxes_filter : forall (f : tree -> bool) l, (boxes_of (filter f l) <= boxes_of l)%nat.
Proof. intros f. induction l as [|x l IH]; simpl; [lia|]. destruct (f x); simpl; lia. Qed.

(** The descent to the smallest box ends at some box of the tree whose ancestors below the
    root, and itself unless it is the root, satisfy the test. *)
Lemma smallest_go : forall (f : tree -> bool) (t : tree) (l : list tree), (fix go (l : list tree) : tree :=
    match l with [] => t | c :: r => if f c then smallest f c else go r end) l =
  match first_child f l 0 with Some (_, c) => smallest f c | None => t end.
Proof.
  intros f t l. generalize 0%nat. induction l as [|c l IH]; intros i; simpl; [reflexivity|]. destruct (f c); [reflexivity|]. apply IH.
Qed.
Lemma smallest_eq : forall f t, smallest f t = match first_child f (children t) 0 with Some (_, c) => smallest f c | None => t end.
Proof. intros f [s l d c ch]. exact (smallest_go f (Box s l d c ch) ch). Qed.

Lemma in_closed_iff : forall n a b x, length a = n -> length b = n -> length x = n ->
  (in_closed a b x <-> forall d, (d < n)%nat -> nth d a 0 <= nth d x 0 /\ nth d x 0 <= nth d b 0).
Proof.
  intros n a b x Ha Hb Hx.
  assert (G : forall u v : pos, length u = length v -> (Forall2 Qcle u v <-> forall d, (d < length u)%nat -> nth d u 0 <= nth d v 0)).
  { induction u as [|y u IH]; intros [|z v] Hl; simpl in Hl; try discriminate.
    - split; [intros _ d Hd; simpl in Hd; lia|constructor].
    - split.
      + intros F. inversion F as [|? ? ? ? F1 F2]. subst. intros [|d] Hd; [exact F1|]. simpl. apply IH; auto. simpl in Hd. lia.
      + intros F. constructor; [apply (F 0%nat); simpl; lia|]. apply IH; [lia|]. intros d Hd. apply (F (S d)). simpl. lia. }
  unfold in_closed. rewrite (G a x), (G x b) by lia. rewrite Ha, Hx. split.
  - intros [H1 H2] d Hd. auto.
  - intros H. split; intros d Hd; now apply H.
Qed.

Lemma in_box_iff : forall a b x, length a = length x -> length b = length x -> (in_box a b x = true <-> in_closed a b x).
Proof.
  intros a b x Ha Hb. unfold in_box. rewrite (in_closed_iff (length x)) by auto. rewrite andb_true_iff, !le_all_iff by lia.
  rewrite Ha. split.
  - intros [H1 H2] d Hd. auto.
  - intros H. split; intros d Hd; now apply H.
Qed.

Section Query.
Variable n : nat.
Variable m : Qc.
Variable P : nat -> pos.
Hypothesis Hm : 0 < m.
Hypothesis HP : forall d, length (P d) = n.
Notation wf := (wf n m P).
Notation root_ok := (root_ok n m P).

Lemma smallest_ok : forall f k st l t, wf st k l t -> exists q b, smallest f t = b /\ get_at q t = Some b /\ (q = [] \/ f b = true).
Proof.
  intros f. induction k as [|k IH]; intros st l t H; rewrite smallest_eq;
    (destruct (first_child f (children t) 0) as [[j c]|] eqn:F; [|exists [], t; auto]);
    destruct (first_child_spec _ _ _ _ _ F) as (d & -> & Hd & Hf & _); cbn [Nat.add] in *;
    (assert (Hne : children t <> []) by (intros E; rewrite E in Hd; destruct d; discriminate));
    destruct (wf_children _ _ _ _ _ _ _ H Hne) as (k' & Ek & _ & _ & Hch); [discriminate|].
  injection Ek as <-. destruct (IH true _ c (Hch d c Hd)) as (q & b & Eq & Gq & Cq).
  exists (d :: q), b. split; [auto|]. split; [simpl; now rewrite Hd|]. right.
  destruct Cq as [-> |]; [|auto]. simpl in Gq. injection Gq as <-. exact Hf.
Qed.

Definition good (t : tree) : Prop := exists k l, wf true k l t.

Lemma good_children : forall t c, good t -> In c (children t) -> good c.
Proof.
  intros t c (k & l & H) Hc. assert (Hne : children t <> []) by (intros E; rewrite E in Hc; destruct Hc).
  destruct (wf_children _ _ _ _ _ _ _ H Hne) as (k' & -> & _ & _ & Hch). apply In_nth_error in Hc. destruct Hc as [i Hi].
  exists k'. eexists. eapply Hch; eauto.
Qed.
Lemma good_cnt : forall t, good t -> cnt t = Z.of_nat (length (points t)).
Proof. intros t (k & l & H). eapply wf_cnt; eauto. Qed.
Lemma good_clean : forall t, good t -> children t <> [] -> points t = flat_map points (children t).
Proof.
  intros t (k & l & H) Hne. destruct (wf_children _ _ _ _ _ _ _ H Hne) as (k' & -> & Hd & _). rewrite points_eq, Hd; auto.
Qed.
Lemma good_data : forall t, good t -> children t = [] -> all_data t = Val (points t).
Proof. intros t G Hc. rewrite (wf_leaf_points t Hc). apply all_data_ok. rewrite (good_cnt t G). now rewrite (wf_leaf_points t Hc). Qed.
Lemma get_good : forall q t b, good t -> get_at q t = Some b -> good b.
Proof.
  induction q as [|i q IH]; intros t b G H; simpl in H; [now injection H as <-|].
  destruct (nth_error (children t) i) as [c|] eqn:E; [|discriminate]. apply (IH c); auto. apply (good_children t); auto.
  now apply nth_error_In in E.
Qed.

Lemma filter_flat_cnt : forall ch, (forall c, In c ch -> good c) ->
  flat_map points (filter (fun c => (0 <? cnt c)%Z) ch) = flat_map points ch.
Proof.
  induction ch as [|c ch IH]; intros H; [reflexivity|]. cbn [filter flat_map].
  assert (IH' := IH (fun x Hx => H x (or_intror Hx))).
  destruct (0 <? cnt c)%Z eqn:E; [cbn [flat_map]; now rewrite IH'|].
  apply Z.ltb_ge in E. rewrite (good_cnt c) in E by (apply H; now left). rewrite IH'. destruct (points c); [reflexivity|simpl in E; lia].
Qed.

Lemma filter_all : forall (f : nat -> bool) l, (forall x, In x l -> f x = true) -> filter f l = l.
Proof. intros f. induction l as [|x l IH]; intros H; [reflexivity|]. simpl. rewrite (H x) by now left. f_equal. apply IH. intros; apply H; now right. Qed.

Lemma flat_map_rest : forall ch i c, nth_error ch i = Some c -> exists rest,
  Permutation (flat_map points ch) (points c ++ rest) /\
  forall d, In d rest -> exists j x, j <> i /\ nth_error ch j = Some x /\ In d (points x).
Proof.
  induction ch as [|a ch IH]; intros [|i] c H; simpl in H; try discriminate.
  - injection H as ->. exists (flat_map points ch). split; [reflexivity|]. intros d Hd. apply in_flat_map in Hd.
    destruct Hd as (x & Hx & Hd). apply In_nth_error in Hx. destruct Hx as [j Hj]. exists (S j), x. auto.
  - destruct (IH i c H) as (rest & H1 & H2). exists (points a ++ rest). split.
    + cbn [flat_map]. rewrite H1, !app_assoc. apply Permutation_app_tail, Permutation_app_comm.
    + intros d Hd. apply in_app_or in Hd. destruct Hd as [Hd|Hd].
      * exists 0%nat, a. auto.
      * destruct (H2 d Hd) as (j & x & Hj & Hx & Hd'). exists (S j), x. split; [congruence|auto].
Qed.

(** Points stored outside a box are not strictly inside it. *)
Lemma path_rest : forall q k l t b, wf true k l t -> get_at q t = Some b -> exists rest,
  Permutation (points t) (points b ++ rest) /\ forall d, In d rest -> ~ inS n (lo b) (size b) (P d).
Proof.
  induction q as [|i q IH]; intros k l t b H Hg; simpl in Hg.
  - injection Hg as <-. exists []. split; [now rewrite app_nil_r|]. intros d [].
  - destruct (nth_error (children t) i) as [c|] eqn:Ec; [|discriminate].
    assert (Hne : children t <> []) by (intros E; rewrite E in Ec; destruct i; discriminate).
    destruct (wf_children _ _ _ _ _ _ _ H Hne) as (k' & -> & Hd0 & Hlen & Hch). assert (Hc := Hch i c Ec).
    destruct (IH _ _ _ _ Hc Hg) as (r1 & P1 & N1). destruct (flat_map_rest _ _ _ Ec) as (r2 & P2 & N2).
    exists (r1 ++ r2). split.
    + rewrite points_eq, Hd0 by reflexivity. simpl. rewrite P2, P1, app_assoc. reflexivity.
    + intros d Hd Hs. apply in_app_or in Hd. destruct Hd as [Hd|Hd]; [now apply (N1 d)|].
      destruct (N2 d Hd) as (j & x & Hj & Hx & Hdx). apply Hj.
      assert (Hs' : inS n (child_lo (m * pow2 k') l i) (m * pow2 k') (P d)) by (eapply (sub_strict n m P Hm); eauto).
      symmetry. apply (unique n l (m * pow2 k') (P d)); auto.
      * eapply wf_len; eauto.
      * rewrite <- Hlen. now apply nth_error_lt in Ec.
      * rewrite <- Hlen. now apply nth_error_lt in Hx.
      * eapply (wf_points n m P Hm); eauto.
Qed.

(** Box query. *)
Lemma leaf_in_box_ok : forall a b t, length a = n -> length b = n -> good t -> children t = [] ->
  leaf_in_box P a b t = Val (filter (fun d => in_box a b (P d)) (points t)).
Proof.
  intros a b t Ha Hb G Hc. unfold leaf_in_box. rewrite (good_data t G Hc). cbn [obind].
  destruct (le_all (hi t) b && le_all a (hi t) && le_all (lo t) b && le_all a (lo t)) eqn:E; [|reflexivity].
  rewrite !andb_true_iff in E. destruct E as (((E1 & _) & _) & E4). f_equal. symmetry. apply filter_all.
  intros d Hd. destruct G as (k & l & H). assert (Hi := wf_points n m P Hm _ _ _ _ H d Hd).
  assert (Hl := wf_len _ _ _ _ _ _ _ H). assert (Hlo := wf_lo _ _ _ _ _ _ _ H). assert (Hs := wf_size _ _ _ _ _ _ _ H).
  rewrite le_all_iff in E1 by (unfold hi; rewrite map_length, Hlo; lia). rewrite le_all_iff in E4 by (rewrite Hlo; lia).
  apply in_box_iff; [now rewrite HP|now rewrite HP|]. apply (in_closed_iff n); auto.
  intros i Hx. destruct (Hi i Hx) as [A1 A2]. unfold hi in E1. rewrite map_length, Hlo, Hl in E1. specialize (E1 i Hx).
  rewrite nth_map_Qc, Hs in E1 by lia. rewrite Ha in E4. specialize (E4 i Hx). rewrite Hlo in E4. split; qclra.
Qed.

Lemma walk_box_ok : forall a b, length a = n -> length b = n -> forall fuel stack res,
  (forall t, In t stack -> good t) -> (boxes_of stack <= fuel)%nat ->
  walk_box P fuel a b stack res = Val (res ++ filter (fun d => in_box a b (P d)) (flat_map points stack)).
Proof.
  intros a b Ha Hb. induction fuel as [|fuel IH]; intros stack res G Hf.
  - destruct stack as [|t stack]; [simpl; now rewrite app_nil_r|]. simpl in Hf. destruct t; simpl in Hf; lia.
  - destruct stack as [|t stack]; [simpl; now rewrite app_nil_r|]. cbn [walk_box flat_map].
    cbn [boxes_of fold_right] in Hf. fold (boxes_of stack) in Hf. rewrite boxes_eq in Hf.
    assert (Gt : good t) by (apply G; now left). assert (Gs : forall x, In x stack -> good x) by (intros; apply G; now right).
    destruct (children t) as [|c ch] eqn:Ec.
    + rewrite (leaf_in_box_ok a b t Ha Hb Gt Ec). cbn [obind]. rewrite IH by (auto; lia). rewrite filter_app, app_assoc. reflexivity.
    + rewrite <- Ec in *. assert (Hne : children t <> []) by congruence. rewrite IH.
      * rewrite flat_map_app, filter_flat_cnt by (intros x Hx; now apply (good_children t)).
        rewrite (good_clean t Gt Hne). reflexivity.
      * intros x Hx. apply in_app_or in Hx. destruct Hx as [Hx|Hx]; [|auto]. apply filter_In in Hx. apply (good_children t); tauto.
      * rewrite boxes_app. assert (A := boxes_filter (fun c => (0 <? cnt c)%Z) (children t)). lia.
Qed.

Lemma filter_perm : forall (f : nat -> bool) l, Permutation l (filter f l ++ filter (fun x => negb (f x)) l).
Proof.
  intros f. induction l as [|x l IH]; [reflexivity|]. cbn [filter]. destruct (f x); simpl negb; cbv iota.
  - cbn [app]. now apply perm_skip.
  - rewrite <- Permutation_middle. now apply perm_skip.
Qed.

Lemma queryDataInBox_ok : forall k t a b, root_ok k t -> length a = n -> length b = n ->
  exists N l rest, (forall fuel, (N <= fuel)%nat -> queryDataInBox P fuel a b t = Val l) /\
  Permutation (points t) (l ++ rest) /\ (forall d, In d l -> in_closed a b (P d)) /\
  (forall d, In d rest -> in_closed a b (P d) -> touches m a b (P d)).
Proof.
  intros k t a b [H Hne] Ha Hb.
  destruct (smallest_ok (fun c => inside c a && inside c b) _ _ _ _ H) as (q & c & Es & Gc & Hq).
  assert (Gt : good t) by (eexists; eexists; eauto). assert (Gd := get_good q t c Gt Gc).
  destruct (alter_ok n m P Hm q true _ _ t c H Gc) as (kb & lb & Hw & _).
  destruct (path_rest q _ _ t c H Gc) as (rest & Hr & Hstr).
  exists (boxes c), (filter (fun d => in_box a b (P d)) (points c)),
    (filter (fun d => negb (in_box a b (P d))) (points c) ++ rest).
  split; [|split; [|split]].
  - intros fuel Hf. unfold queryDataInBox. rewrite Es. rewrite walk_box_ok; auto.
    + simpl. now rewrite app_nil_r.
    + intros x [<-|[]]. exact Gd.
    + simpl. lia.
  - rewrite app_assoc, <- filter_perm. exact Hr.
  - intros d Hd. apply filter_In in Hd. destruct Hd as [_ Hd]. apply in_box_iff in Hd; auto; now rewrite HP.
  - intros d Hd Hin.
    assert (Hc : In d (points t) /\ (In d rest)).
    { apply in_app_or in Hd. destruct Hd as [Hd|Hd].
      - exfalso. apply filter_In in Hd. destruct Hd as [_ Hd]. apply (in_box_iff a b) in Hin; [|now rewrite HP|now rewrite HP].
        rewrite Hin in Hd. discriminate.
      - split; [|auto]. apply Permutation_in with (points c ++ rest); [now symmetry|]. apply in_or_app. auto. }
    destruct Hq as [-> |Hq].
    + exfalso. simpl in Gc. injection Gc as <-. destruct Hc as [_ Hc]. assert (Hl := Permutation_length Hr). rewrite app_length in Hl.
      destruct rest; [destruct Hc|simpl in Hl; lia].
    + (* the box c contains both corners *)
      apply andb_true_iff in Hq. destruct Hq as [Qa Qb].
      apply (wf_inside n m P _ _ _ _ _ Hw Ha) in Qa. apply (wf_inside n m P _ _ _ _ _ Hw Hb) in Qb.
      assert (Hin' := Hin). rewrite (in_closed_iff n) in Hin' by auto.
      assert (HC : inC n lb (m * pow2 kb) (P d)).
      { intros x Hx. destruct (Hin' x Hx), (Qa x Hx), (Qb x Hx). split; qclra. }
      destruct (strict_or_face _ _ _ _ HC) as [Hs|(x & Hx & E)].
      * exfalso. apply (Hstr d); [tauto|]. now rewrite (wf_lo _ _ _ _ _ _ _ Hw), (wf_size _ _ _ _ _ _ _ Hw).
      * exists x, (nth x (P d) 0). split; [apply nth_error_nth'; now rewrite HP|]. 
        assert (A : on_grid m (nth x lb 0)) by (apply (wf_aligned _ _ _ _ _ _ _ Hw); rewrite (wf_len _ _ _ _ _ _ _ Hw); auto).
        destruct (Hin' x Hx) as [B1 B2], (Qa x Hx) as [C1 C2], (Qb x Hx) as [D1 D2]. split.
        -- destruct E as [-> | ->]; [auto|]. apply grid_add; auto using grid_pow2.
        -- destruct E as [E|E]; [left|right].
           ++ rewrite (nth_error_nth' _ 0) by lia. f_equal. apply Qcle_antisym; [auto|]. rewrite E. exact C1.
           ++ rewrite (nth_error_nth' _ 0) by lia. f_equal. apply Qcle_antisym; [|auto]. rewrite E. exact D2.
Qed.
End Query.
