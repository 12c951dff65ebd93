(** Proofs about CostMatrix::reduce, part 3: completing the reduced solution;
    run<CostMatrix>; the second call. *)
From Coq Require Import ZArith List Bool Arith Lia Permutation.
From Verif Require Import Base ListUtil HungarianModel AssignSpec AssignLemmas HungarianProofs HungarianProofs3
  ReduceModel ReduceSpec ReduceProofs ReduceProofs2.
Import ListNotations.
Local Open Scope Z_scope.

(** ** write_back *)

Lemma wb_miss : forall imap jmap r ks f x, (forall k, In k ks -> nth k imap 0%nat <> x) ->
  fold_left (fun g k => fset g (nth k imap 0%nat) (Some (nth (nth k r 0%nat) jmap 0%nat))) ks f x = f x.
Proof.
  induction ks as [|k ks IH]; intros f x H; simpl; auto.
  rewrite IH by (intros; apply H; right; auto). apply fset_neq.
  apply not_eq_sym. apply H. left; auto.
Qed.

Lemma wb_hit : forall imap jmap r ks f k, In k ks ->
  (forall k', In k' ks -> nth k' imap 0%nat = nth k imap 0%nat -> k' = k) ->
  fold_left (fun g k => fset g (nth k imap 0%nat) (Some (nth (nth k r 0%nat) jmap 0%nat))) ks f
    (nth k imap 0%nat) = Some (nth (nth k r 0%nat) jmap 0%nat).
Proof.
  induction ks as [|k0 ks IH]; intros f k Hin Hu; [contradiction|]. simpl.
  destruct (in_dec Nat.eq_dec k ks) as [H|H].
  - apply IH; auto. intros; apply Hu; auto. right; auto.
  - destruct Hin as [->|Hin]; [|contradiction]. rewrite wb_miss.
    + apply fset_eq.
    + intros k' Hk' E. assert (k' = k) by (apply Hu; [right; auto|auto]). congruence.
Qed.

Lemma wb_in : forall f imap jmap r k x, NoDup imap -> length r = length imap ->
  nth_error imap k = Some x -> write_back f imap jmap r x = Some (nth (nth k r 0%nat) jmap 0%nat).
Proof.
  intros f imap jmap r k x Hnd Hl Hk. assert (Hlt := nth_error_lt _ _ _ _ Hk).
  assert (Ex : x = nth k imap 0%nat) by (symmetry; now apply nth_error_nth). rewrite Ex.
  apply wb_hit.
  - apply in_seq. lia.
  - intros k' Hk' E. apply in_seq in Hk'. apply (proj1 (NoDup_nth imap 0%nat) Hnd); lia.
Qed.

Lemma wb_out : forall f imap jmap r x, length r = length imap -> ~ In x imap ->
  write_back f imap jmap r x = f x.
Proof.
  intros f imap jmap r x Hl Hx. apply wb_miss. intros k Hk E. apply in_seq in Hk.
  apply Hx. rewrite <- E. apply nth_In. lia.
Qed.


Lemma nth_error_seq0 : forall m i, (i < m)%nat -> nth_error (seq 0 m) i = Some i.
Proof.
  intros m i Hi. rewrite (nth_error_nth' _ 0%nat) by (rewrite seq_length; lia).
  now rewrite seq_nth.
Qed.

Lemma map_nth_seq : forall (l : list nat) m, length l = m -> map (fun q => nth q l 0%nat) (seq 0 m) = l.
Proof.
  intros l m <-. induction l as [|a l IH]; simpl; auto. f_equal.
  rewrite <- seq_shift, map_map. exact IH.
Qed.

Lemma NoDup_app_disj : forall A (l1 l2 : list A) x, NoDup (l1 ++ l2) -> In x l1 -> In x l2 -> False.
Proof.
  induction l1 as [|a l1 IH]; simpl; intros l2 x Hnd H1 H2; [contradiction|].
  inversion Hnd as [|? ? Hn Hnd']; subst. destruct H1 as [->|H1]; [|eauto].
  apply Hn. apply in_app_iff. auto.
Qed.

Lemma NoDup_app_r : forall A (l1 l2 : list A), NoDup (l1 ++ l2) -> NoDup l2.
Proof. induction l1; simpl; intros; auto. inversion H; subst; auto. Qed.

Lemma zsum_pairs : forall D h ps, (forall p, In p ps -> h (fst p) = snd p) ->
  zsum (map (fun x => D x (h x)) (map fst ps)) = total D ps.
Proof.
  induction ps as [|p ps IH]; simpl; intros H; auto.
  rewrite (H p (or_introl eq_refl)). rewrite IH; auto.
Qed.

Section Split.
Variable D : mat.
Variable n : nat.
Variable f : nat -> option nat.
Variable fs : Z.
Variable nr : nat.
Variable Cr : mat.
Variable imap jmap : list nat.
Hypothesis S : splits D n f fs nr Cr imap jmap.

Lemma split_imap_nodup : NoDup imap.
Proof.
  destruct S as (_ & _ & P & _). apply Permutation_sym, Permutation_NoDup in P; [|apply seq_NoDup].
  now apply NoDup_app_r in P.
Qed.

Lemma split_out : forall x y, In (x, y) (pairs n f) -> ~ In x imap.
Proof.
  intros x y Hp Hx. destruct S as (_ & _ & P & _).
  apply Permutation_sym, Permutation_NoDup in P; [|apply seq_NoDup].
  apply (NoDup_app_disj _ _ _ x P); auto. apply in_map_iff. exists (x, y). auto.
Qed.

Definition hx (r : list nat) (x : nat) : nat :=
  match write_back f imap jmap r x with Some y => y | None => 0%nat end.

Lemma complete_ok : forall r, assignment nr r -> exists a,
  map (write_back f imap jmap r) (seq 0 n) = map Some a /\
  completes n f imap jmap r a /\ assignment n a /\ score D a = fs + score Cr r.
Proof.
  intros r Hr. assert (Hlr := assignment_length nr r Hr).
  destruct S as (Hli & Hlj & Pi & Pj & Hfs & HCr).
  assert (Hw1 : forall x y, (x < n)%nat -> f x = Some y -> write_back f imap jmap r x = Some y).
  { intros x y Hx Hf. rewrite wb_out; auto; [lia|]. apply split_out with (y := y).
    apply pairs_in. auto. }
  assert (Hq : forall k, (k < nr)%nat -> exists q y, nth_error r k = Some q /\ nth_error jmap q = Some y /\
     nth (nth k r 0%nat) jmap 0%nat = y).
  { intros k Hk. destruct (nth_error r k) as [q|] eqn:Eq; [|apply nth_error_None in Eq; lia].
    assert (Hqb : (q < nr)%nat) by (apply (assignment_bound nr r); auto; now apply nth_error_In in Eq).
    destruct (nth_error jmap q) as [y|] eqn:Ey; [|apply nth_error_None in Ey; lia].
    exists q, y. split; auto. split; auto. rewrite (nth_error_nth _ _ _ Eq). now apply nth_error_nth. }
  assert (Hw2 : forall k x, nth_error imap k = Some x ->
     write_back f imap jmap r x = Some (nth (nth k r 0%nat) jmap 0%nat)).
  { intros k x Hk. apply wb_in; auto; [apply split_imap_nodup|lia]. }
  assert (Hcover : forall x, (x < n)%nat -> (exists y, f x = Some y) \/ exists k, nth_error imap k = Some x).
  { intros x Hx. assert (Hin : In x (map fst (pairs n f) ++ imap)).
    { apply (Permutation_in _ (Permutation_sym Pi)). apply in_seq. lia. }
    apply in_app_iff in Hin. destruct Hin as [Hin|Hin].
    - apply in_map_iff in Hin. destruct Hin as ([x' y] & E & Hp). simpl in E. subst x'.
      apply pairs_in in Hp. left. exists y. tauto.
    - right. now apply In_nth_error. }
  assert (Hsome : forall x, (x < n)%nat -> write_back f imap jmap r x = Some (hx r x)).
  { intros x Hx. unfold hx. destruct (Hcover x Hx) as [(y & Hy)|(k & Hk)].
    - rewrite (Hw1 x y Hx Hy). auto.
    - rewrite (Hw2 k x Hk). auto. }
  set (a := map (hx r) (seq 0 n)).
  assert (Ha : forall x, (x < n)%nat -> nth_error a x = Some (hx r x)).
  { intros x Hx. unfold a. rewrite nth_error_map, nth_error_seq0; auto. }
  assert (Hps : forall p, In p (pairs n f) -> hx r (fst p) = snd p).
  { intros [x y] Hp. apply pairs_in in Hp. destruct Hp as [Hx Hp]. unfold hx. simpl.
    now rewrite (Hw1 x y Hx Hp). }
  assert (Him : map (hx r) imap = map (fun q => nth q jmap 0%nat) r).
  { apply list_ext. intros k. rewrite !nth_error_map.
    destruct (nth_error imap k) as [x|] eqn:Ex.
    - assert (Hk := nth_error_lt _ _ _ _ Ex). destruct (Hq k) as (q & y & E1 & E2 & E3); [lia|].
      rewrite E1. simpl. unfold hx. rewrite (Hw2 k x Ex), E3. f_equal. symmetry. now apply nth_error_nth.
    - apply nth_error_None in Ex. rewrite (proj2 (nth_error_None r k)) by lia. reflexivity. }
  exists a. split; [|split; [|split]].
  - unfold a. rewrite map_map. apply map_ext_in. intros x Hx. apply in_seq in Hx. apply Hsome. lia.
  - split.
    + intros x y Hx Hf. rewrite Ha by auto. rewrite <- Hsome by auto. now apply Hw1.
    + intros k x Hk. assert (Hlt := nth_error_lt _ _ _ _ Hk).
      destruct (Hq k) as (q & y & E1 & E2 & E3); [lia|]. exists q, y. split; auto. split; auto.
      assert (Hx : (x < n)%nat).
      { assert (Hin : In x (seq 0 n)).
        { apply (Permutation_in _ Pi). apply in_app_iff. right. now apply nth_error_In in Hk. }
        apply in_seq in Hin. lia. }
      rewrite Ha by auto. rewrite <- Hsome by auto. rewrite (Hw2 k x Hk). now f_equal.
  - unfold assignment, a. rewrite <- Pj at 2. rewrite <- Pi. rewrite map_app. apply Permutation_app.
    + rewrite map_map. apply Permutation_refl'. now apply map_ext_in.
    + rewrite Him. rewrite (Permutation_map (fun q => nth q jmap 0%nat) Hr).
      rewrite map_nth_seq; auto.
  - assert (Hla : length a = n) by (unfold a; rewrite map_length; apply seq_length).
    rewrite (score_sum D n a Hla).
    assert (E1 : map (fun x => D x (nth x a 0%nat)) (seq 0 n) = map (fun x => D x (hx r x)) (seq 0 n)).
    { apply map_ext_in. intros x Hx. apply in_seq in Hx. f_equal. apply nth_error_nth. apply Ha. lia. }
    rewrite E1. rewrite (zsum_perm _ _ (Permutation_map _ (Permutation_sym Pi))).
    rewrite map_app, zsum_app, zsum_pairs by auto. rewrite <- Hfs. f_equal.
    rewrite (score_sum Cr nr r Hlr). f_equal.
    apply list_ext. intros k. rewrite !nth_error_map.
    destruct (nth_error imap k) as [x|] eqn:Ex.
    + assert (Hk := nth_error_lt _ _ _ _ Ex). rewrite nth_error_seq0 by lia. simpl. f_equal.
      destruct (Hq k) as (q & y & E2 & E3 & E4); [lia|].
      rewrite (nth_error_nth _ _ _ E2). rewrite (HCr k q x y Ex E3).
      unfold hx. rewrite (Hw2 k x Ex), E4. reflexivity.
    + apply nth_error_None in Ex. rewrite (proj2 (nth_error_None (seq 0 nr) k)); [reflexivity|].
      rewrite seq_length. lia.
Qed.

Lemma completes_unique : forall r a b, length a = n -> length b = n ->
  completes n f imap jmap r a -> completes n f imap jmap r b -> a = b.
Proof.
  intros r a b Hla Hlb [A1 A2] [B1 B2]. destruct S as (_ & _ & Pi & _).
  apply list_ext. intros x. destruct (lt_dec x n) as [Hx|Hx].
  - assert (Hin : In x (map fst (pairs n f) ++ imap)).
    { apply (Permutation_in _ (Permutation_sym Pi)). apply in_seq. lia. }
    apply in_app_iff in Hin. destruct Hin as [Hin|Hin].
    + apply in_map_iff in Hin. destruct Hin as ([x' y] & E & Hp). simpl in E. subst x'.
      apply pairs_in in Hp. destruct Hp as [_ Hp]. rewrite (A1 x y Hx Hp), (B1 x y Hx Hp). auto.
    + apply In_nth_error in Hin. destruct Hin as [k Hk].
      destruct (A2 k x Hk) as (q & y & E1 & E2 & E3). destruct (B2 k x Hk) as (q' & y' & F1 & F2 & F3).
      congruence.
  - rewrite (proj2 (nth_error_None a x)), (proj2 (nth_error_None b x)); auto; lia.
Qed.

Lemma index_list : forall (l m : list nat), (forall y, In y l -> In y m) -> exists r, length r = length l /\
  forall k y, nth_error l k = Some y -> exists q, nth_error r k = Some q /\ nth_error m q = Some y.
Proof.
  induction l as [|a l IH]; intros m H.
  - exists []. split; auto. intros k y Hk. destruct k; discriminate.
  - destruct (IH m) as (r & Hl & Hr). { intros; apply H; right; auto. }
    destruct (In_nth_error m a (H a (or_introl eq_refl))) as [q Hq].
    exists (q :: r). split; [simpl; auto|]. intros k y Hk. destruct k; simpl in *.
    + injection Hk as <-. eauto.
    + now apply Hr.
Qed.

Lemma restrict_ok : forall b, assignment n b -> respects (pairs n f) b ->
  exists r, assignment nr r /\ completes n f imap jmap r b.
Proof.
  intros b Hb R. assert (S' := S). destruct S' as (Hli & Hlj & Pi & Pj & _).
  assert (Hlb := assignment_length n b Hb). assert (Hnb := assignment_nodup n b Hb).
  assert (Himb : forall x, In x imap -> (x < n)%nat).
  { intros x Hx. assert (Hin : In x (seq 0 n)).
    { apply (Permutation_in _ Pi). apply in_app_iff. auto. }
    apply in_seq in Hin. lia. }
  set (l := map (fun x => nth x b 0%nat) imap).
  assert (Hlk : forall k x, nth_error imap k = Some x -> nth_error l k = nth_error b x /\
      exists y, nth_error b x = Some y).
  { intros k x Hk. unfold l. rewrite nth_error_map, Hk. simpl.
    assert (Hx : (x < n)%nat) by (apply Himb; now apply nth_error_In in Hk).
    destruct (nth_error b x) as [y|] eqn:E; [|apply nth_error_None in E; lia].
    rewrite (nth_error_nth _ _ _ E). eauto. }
  destruct (index_list l jmap) as (r & Hlr & Hr).
  { intros y Hy. apply In_nth_error in Hy. destruct Hy as [k Hk].
    assert (Hkl := nth_error_lt _ _ _ _ Hk). unfold l in Hkl. rewrite map_length in Hkl.
    destruct (nth_error imap k) as [x|] eqn:Ex; [|apply nth_error_None in Ex; lia].
    destruct (Hlk k x Ex) as [E _]. rewrite Hk in E. symmetry in E.
    assert (Hin : In y (map snd (pairs n f) ++ jmap)).
    { apply (Permutation_in _ (Permutation_sym Pj)). apply in_seq.
      assert (y < n)%nat by (apply (assignment_bound n b); auto; now apply nth_error_In in E). lia. }
    apply in_app_iff in Hin. destruct Hin as [Hin|Hin]; auto. exfalso.
    apply in_map_iff in Hin. destruct Hin as ([x' y'] & E' & Hp). simpl in E'. subst y'.
    assert (Hx' := R x' y Hp).
    assert (x = x') by (apply (nth_error_nodup b x x' y); auto). subst x'.
    apply (split_out x y Hp). now apply nth_error_In in Ex. }
  exists r. split.
  - unfold l in Hlr. rewrite map_length in Hlr. apply assignment_intro.
    + lia.
    + apply NoDup_nth_error. intros k k' Hk E.
      destruct (nth_error imap k) as [x|] eqn:Ex; [|apply nth_error_None in Ex; lia].
      destruct (Hlk k x Ex) as (E1 & y & Ey). rewrite Ey in E1.
      destruct (Hr k y E1) as (q & Hq & Hjq).
      assert (Hk' : (k' < length r)%nat) by (apply nth_error_Some; congruence).
      destruct (nth_error imap k') as [x'|] eqn:Ex'; [|apply nth_error_None in Ex'; lia].
      destruct (Hlk k' x' Ex') as (E1' & y' & Ey'). rewrite Ey' in E1'.
      destruct (Hr k' y' E1') as (q' & Hq' & Hjq').
      assert (q' = q) by congruence. subst q'. assert (y' = y) by congruence. subst y'.
      assert (x = x') by (apply (nth_error_nodup b x x' y); auto). subst x'.
      apply (nth_error_nodup imap k k' x); auto. apply split_imap_nodup.
    + intros q Hq. apply In_nth_error in Hq. destruct Hq as [k Hk].
      assert (Hkl := nth_error_lt _ _ _ _ Hk).
      destruct (nth_error imap k) as [x|] eqn:Ex; [|apply nth_error_None in Ex; lia].
      destruct (Hlk k x Ex) as (E1 & y & Ey). rewrite Ey in E1.
      destruct (Hr k y E1) as (q' & Hq' & Hjq'). rewrite Hk in Hq'. injection Hq' as <-.
      apply nth_error_lt in Hjq'. lia.
  - split.
    + intros x y Hx Hf. apply R. apply pairs_in. auto.
    + intros k x Hk. destruct (Hlk k x Hk) as (E1 & y & Ey). rewrite Ey in E1.
      destruct (Hr k y E1) as (q & Hq & Hjq). exists q, y. auto.
Qed.

Lemma optimal_lift : forall mv r a, dominates D n mv (pairs n f) ->
  optimal mv nr Cr r -> completes n f imap jmap r a -> assignment n a -> optimal mv n D a.
Proof.
  intros mv r a HD [Hr Hopt] Hc Ha. split; auto. intros b Hb.
  destruct (HD b Hb) as (b1 & Hb1 & R1 & B1).
  destruct (restrict_ok b1 Hb1 R1) as (r1 & Hr1 & Hc1).
  destruct (complete_ok r1 Hr1) as (a1 & _ & Hca1 & Ha1 & Sc1).
  destruct (complete_ok r Hr) as (a0 & _ & Hca0 & Ha0 & Sc0).
  assert (a1 = b1) as -> by (apply (completes_unique r1); auto; now apply assignment_length).
  assert (a0 = a) as -> by (apply (completes_unique r); auto; now apply assignment_length).
  apply better_trans with (v := score D b1); auto.
  specialize (Hopt r1 Hr1). rewrite Sc0, Sc1. clear - Hopt. unfold better in *. destruct mv; lia.
Qed.

End Split.
