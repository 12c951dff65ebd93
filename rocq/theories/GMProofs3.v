(** Lemmas for C05-C07 in the form used by GMProperties. *)
From Coq Require Import QArith ZArith List Bool Arith Lia Permutation Sorting.Sorted Setoid Morphisms.
From Verif Require Import Base ListUtil GMModel GMSpec GMProofs GMProofs2.
Import ListNotations.
Local Open Scope nat_scope.

Lemma filter_map : forall A B (f : A -> B) p l, filter p (map f l) = map f (filter (fun x => p (f x)) l).
Proof. induction l; simpl; auto. rewrite IHl. destruct (p (f a)); reflexivity. Qed.

Lemma desc_view : forall h l, desc l -> StronglySorted (fun a b => (vw b <= vw a)%Q) (viewl h l).
Proof.
  intros h l H. induction H; simpl; constructor; auto.
  rewrite Forall_forall in *. intros x Hx. apply in_map_iff in Hx as (s & <- & Hs). apply H0. auto.
Qed.

Lemma no_holes_count : forall g, no_holes g -> live_count g = Z.of_nat (length (gl g)).
Proof.
  intros g H. unfold live_count. f_equal. unfold no_holes in H. induction (gl g) as [|s l IH]; simpl; auto.
  destruct (sp s) eqn:E.
  - simpl. f_equal. apply IH. intros; apply H; now right.
  - exfalso. apply (H s); auto. now left.
Qed.

Lemma prune_exact : forall srt h g F t, sorter_ok srt -> good h g F ->
  exists h' g' k, prune srt h g t = Val (h', g', k) /\ good h' g' F /\
    Permutation (view h' g') (filter (fun v => Qle_bool t (vw v)) (view h g)) /\
    StronglySorted (fun a b => (vw b <= vw a)%Q) (view h' g') /\
    k = length (filter (fun v => Qltb (vw v) t) (view h g)) /\
    ((0 < t)%Q -> holes_zero g -> no_holes g' /\ getGaussianCount g' = Z.of_nat (length (view h' g'))).
Proof.
  intros srt h g F t Hs Hg. destruct (prune_ok srt h g F t Hs Hg) as (h' & g' & k & H & Hg' & Hf & HP & HD & HV & HK).
  exists h', g', k. split; [exact H|]. split; [exact Hg'|]. rewrite HV. split; [|split; [|split]].
  - unfold view, viewl. rewrite filter_map. apply Permutation_map. exact HP.
  - apply desc_view. exact HD.
  - rewrite HK. unfold view, viewl. rewrite filter_map, map_length. reflexivity.
  - intros Ht Hz. assert (no_holes g') as Hnh.
    { intros s Hin Hn. apply (Permutation_in s HP) in Hin. apply filter_In in Hin as [Hin Hk].
      destruct (Hz s Hin Hn) as [Hw _]. unfold keep in Hk. apply Qle_bool_iff in Hk.
      rewrite Hw in Hk. apply (Qlt_not_le _ _ Ht Hk). }
    split; auto. unfold getGaussianCount. rewrite (proj2 Hg'), no_holes_count by auto.
    rewrite viewl_len. reflexivity.
Qed.

Lemma merge_exact : forall md h g F t f, good h g F ->
  exists h' g' k tr, merge md h g t f = Val (h', g', k) /\ good h' g' F /\
    k = length tr /\ merges md t f (view h g) tr (view h' g') /\ NoDup (map snd tr) /\
    (getGaussianCount g' = getGaussianCount g - Z.of_nat k)%Z /\
    (total_weight (view h' g') == total_weight (view h g))%Q /\
    (forall c, moment1 c (view h' g') == moment1 c (view h g))%Q /\
    ((f == 1)%Q -> forall a b, moment2 a b (view h' g') == moment2 a b (view h g))%Q /\
    (forall i, (forall x y, In (x, y) tr -> x <> i /\ y <> i) ->
       nth_error (view h' g') i = nth_error (view h g) i).
Proof.
  intros md h g F t f Hg. destruct (merge_ok md h g F t f Hg) as (h' & g' & tr & H & Hg' & Hf & HL & Hm & Hn & _).
  exists h', g', (length tr), tr. repeat (split; auto; try apply Hg').
  - eapply merges_nodup; eauto.
  - eapply merges_weight; eauto.
  - intro c. eapply merges_moment1; eauto.
  - intros. eapply merges_moment2; eauto.
  - intros. eapply merges_untouched; eauto.
Qed.

Lemma merge_zero_iff : forall md h g F t f h' g' k, good h g F -> merge md h g t f = Val (h', g', k) ->
  (k = 0 <-> forall i j, ~ mergeable md t (view h g) i j).
Proof.
  intros md h g F t f h' g' k Hg Hm. destruct (merge_ok md h g F t f Hg) as (h2 & g2 & tr & H & _ & _ & _ & _ & _ & Hiff).
  rewrite Hm in H. inversion H; subst. rewrite <- Hiff. split; [destruct tr; [auto|discriminate]|intros ->; reflexivity].
Qed.

(** Live weights expressed on slots. *)
Lemma total_weight_slots : forall h g F, good h g F ->
  total_weight (view h g) = Qsum (map sw (filter islive (gl g))).
Proof.
  intros h g F [Ho _]. unfold total_weight, view, viewl. rewrite filter_map, map_map.
  f_equal. assert (forall l, incl (ptrsl l) (ptrs g) -> filter (fun x => vlive (vslot_of h x)) l = filter islive l) as HE.
  { induction l as [|s l IH]; intro Hi; simpl; auto.
    assert (vlive (vslot_of h s) = islive s) as ->.
    { unfold vlive, vslot_of, cell, islive. simpl. destruct (sp s) as [p|] eqn:E; auto.
      assert (In p (ptrs g ++ F)) as Hin.
      { apply in_or_app. left. apply Hi. simpl. unfold slot_ptr. rewrite E. now left. }
      apply Ho in Hin as [x Hx]. rewrite Hx. reflexivity. }
    rewrite IH; auto. intros x Hx. apply Hi. simpl. apply in_or_app. auto. }
  rewrite HE; auto. apply incl_refl.
Qed.

Lemma no_holes_filter : forall l, (forall s, In s l -> sp s <> None) -> filter islive l = l.
Proof.
  induction l as [|s l IH]; simpl; intros; auto. unfold islive at 1. destruct (sp s) eqn:E.
  - f_equal. apply IH. auto.
  - exfalso. apply (H s); auto.
Qed.

Lemma firstn_count_all : forall g, no_holes g -> gn g = live_count g ->
  firstn (Z.to_nat (gn g)) (gl g) = gl g.
Proof. intros g H Hn. rewrite Hn, no_holes_count, Nat2Z.id by auto. apply firstn_all. Qed.

Lemma weightSum_live : forall h g F, good h g F -> no_holes g ->
  exists q, getWeightSum g = Val q /\ (q == total_weight (view h g))%Q.
Proof.
  intros h g F Hg Hh. destruct (getWeightSum_ok g (proj2 Hg)) as (q & H1 & H2). exists q. split; auto.
  rewrite H2, (total_weight_slots h g F Hg), firstn_count_all, no_holes_filter by (auto; apply Hg). reflexivity.
Qed.

(** In general the sum is off by exactly what live slots at positions >= count
    and empty slots below it contribute. *)
Lemma weightSum_error : forall h g F, good h g F -> holes_zero g ->
  exists q, getWeightSum g = Val q /\
   (q + Qsum (map vw (filter vlive (skipn (Z.to_nat (getGaussianCount g)) (view h g))))
     == total_weight (view h g))%Q.
Proof.
  intros h g F Hg Hz. destruct (getWeightSum_ok g (proj2 Hg)) as (q & H1 & H2). exists q. split; auto.
  unfold getGaussianCount. rewrite H2. unfold total_weight. rewrite <- (firstn_skipn (Z.to_nat (gn g)) (view h g)) at 2.
  rewrite filter_app, map_app, Qsum_app. unfold view, viewl. rewrite firstn_map, skipn_map.
  assert (forall l, (forall s, In s l -> In s (gl g)) ->
      Qsum (map sw l) == Qsum (map vw (filter vlive (map (vslot_of h) l))))%Q as HS.
  { induction l as [|s l IH]; intro Hi; simpl; [reflexivity|].
    rewrite IH by (intros; apply Hi; now right).
    assert (vlive (vslot_of h s) = islive s) as ->.
    { unfold vlive, vslot_of, cell, islive. simpl. destruct (sp s) as [p|] eqn:E; auto.
      assert (In p (ptrs g ++ F)) as Hin.
      { apply in_or_app. left. unfold ptrs. eapply in_ptrsl; [|exact E]. apply Hi. now left. }
      apply (proj1 Hg) in Hin as [x Hx]. rewrite Hx. reflexivity. }
    unfold islive. destruct (sp s) eqn:E; simpl.
    - reflexivity.
    - destruct (Hz s) as [Hw _]; auto. { apply Hi. now left. } rewrite Hw. ring. }
  rewrite HS; [reflexivity|]. intros s Hs. apply in_firstn_nth in Hs as (i & _ & Hi). eapply nth_error_In; eauto.
Qed.

Lemma Qsum_scale : forall l q, ~ (q == 0)%Q -> (Qsum (map (fun x => x / q) l) == Qsum l / q)%Q.
Proof. induction l; simpl; intros. - field; auto. - rewrite IHl by auto. field. auto. Qed.

Lemma normalize_live : forall h g F, good h g F -> no_holes g -> ~ (total_weight (view h g) == 0)%Q ->
  exists g', normalizeWeights g = Val g' /\ good h g' F /\ (total_weight (view h g') == 1)%Q /\
    (forall i v, nth_error (view h g) i = Some v -> exists w, 
       nth_error (view h g') i = Some (fst (fst v), w, snd v) /\ (w == vw v / total_weight (view h g))%Q) /\
    length (view h g') = length (view h g).
Proof.
  intros h g F Hg Hh Hnz. pose proof (total_weight_slots h g F Hg) as HT.
  rewrite no_holes_filter in HT by exact Hh.
  pose proof (firstn_count_all g Hh (proj2 Hg)) as Hfa.
  destruct (normalize_ok g (proj2 Hg)) as (q & l & Hq & Hl & H).
  { rewrite Hfa, <- HT. exact Hnz. }
  rewrite Hfa in Hl, Hq. 
  assert (skipn (Z.to_nat (gn g)) (gl g) = []) as Hsk.
  { apply skipn_all2. rewrite (proj2 Hg), no_holes_count, Nat2Z.id by auto. lia. }
  rewrite Hsk, app_nil_r in Hl.
  exists (GM (gn g) l (gsorted g)). split; [exact H|].
  assert (good h (GM (gn g) l (gsorted g)) F) as Hg'.
  { eapply good_same_ptrs; [exact Hg| |reflexivity]. unfold ptrs. simpl. rewrite Hl. apply ptrsl_map. reflexivity. }
  split; [exact Hg'|]. rewrite <- HT in Hq. split; [|split].
  - rewrite (total_weight_slots h _ F Hg'). simpl.
    rewrite no_holes_filter.
    + rewrite Hl, map_map. simpl. rewrite <- (map_map sw (fun x => (x / q)%Q)), Qsum_scale.
      * rewrite <- HT, Hq. field. exact Hnz.
      * rewrite Hq. exact Hnz.
    + intros s Hs. rewrite Hl in Hs. apply in_map_iff in Hs as (x & <- & Hx). simpl. auto.
  - intros i v Hi. unfold view in Hi. apply viewl_nth_inv in Hi as (s & Hs & ->).
    exists (sw s / q)%Q. split.
    + unfold view. simpl. rewrite Hl. erewrite viewl_nth; [|apply map_nth_error; exact Hs]. reflexivity.
    + unfold vw. simpl. rewrite Hq. reflexivity.
  - unfold view. rewrite !viewl_len. simpl. rewrite Hl, map_length. reflexivity.
Qed.

(** An executable sorter for the examples. *)
Fixpoint insert_slot (s : slot) (l : list slot) : list slot :=
  match l with
  | [] => [s]
  | x :: r => if Qle_bool (sw x) (sw s) then s :: l else x :: insert_slot s r
  end.
Fixpoint isort (l : list slot) : list slot :=
  match l with [] => [] | s :: r => insert_slot s (isort r) end.

Lemma isort_ok : sorter_ok isort.
Proof.
  assert (forall s l, Permutation (insert_slot s l) (s :: l)) as HP.
  { induction l as [|x l IH]; simpl; auto. destruct (Qle_bool (sw x) (sw s)); auto.
    rewrite IH. apply perm_swap. }
  intro l. split.
  - induction l; simpl; auto. rewrite HP. auto.
  - induction l as [|s l IH]; simpl; [constructor|].
    revert IH. generalize (isort l) as m. induction m as [|x m IHm]; intros HS; simpl.
    + constructor; constructor.
    + inversion HS; subst. destruct (Qle_bool (sw x) (sw s)) eqn:E.
      * apply Qle_bool_iff in E. constructor; auto. constructor; auto.
        rewrite Forall_forall in *. intros y Hy. eapply Qle_trans; [apply H2; exact Hy|exact E].
      * constructor; [apply IHm; auto|]. rewrite Forall_forall in *. intros y Hy.
        apply (Permutation_in _ (HP s m)) in Hy as [<-|Hy]; auto.
        apply Qlt_le_weak, Qnot_le_lt. intro H. apply Qle_bool_iff in H. congruence.
Qed.

Lemma good_ex : forall h g F, NoDup (ptrs g ++ F) -> gn g = live_count g ->
  (forall p, In p (ptrs g ++ F) -> exists l, nth_error h p = Some (Some l)) ->
  (forall p, p < length h -> In p (ptrs g ++ F)) -> good h g F.
Proof.
  intros h g F H1 H2 H3 H4. split; auto. split; auto. intro p. split; auto.
  intros [l Hl]. apply H4. eapply nth_error_lt; eauto.
Qed.
