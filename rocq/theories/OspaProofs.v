(** OSPA and COLA: the cost matrix, assignments and matchings. *)
From Coq Require Import ZArith List Bool Arith QArith Qcanon Lia Permutation.
From Verif Require Import Base ListUtil QcLra HungarianModel AssignSpec AssignLemmas HungarianProofs3 OspaModel OspaSpec.
Import ListNotations.
Local Open Scope Z_scope.

Lemma tot_app : forall a b, total_of (a ++ b) = total_of a + total_of b.
Proof. induction a as [|x a IH]; intros b; simpl; [lia|]. rewrite IH. lia. Qed.

Lemma tot_perm : forall a b, Permutation a b -> total_of a = total_of b.
Proof. intros a b H. induction H; simpl; lia. Qed.

Lemma tot_const : forall {B} (f : B -> Z) v l, (forall x, In x l -> f x = v) -> total_of (map f l) = v * Z.of_nat (length l).
Proof.
  intros B f v. induction l as [|x l IH]; intros H; [simpl; lia|]. cbn [map total_of fold_right length]. fold (total_of (map f l)).
  rewrite IH by (intros; apply H; now right). rewrite (H x) by now left. lia.
Qed.

Lemma tot_le : forall {B} (f g : B -> Z) l, (forall x, In x l -> f x <= g x) -> total_of (map f l) <= total_of (map g l).
Proof.
  intros B f g. induction l as [|x l IH]; intros H; [simpl; lia|]. cbn [map total_of fold_right]. fold (total_of (map f l)) (total_of (map g l)).
  specialize (IH (fun y Hy => H y (or_intror Hy))). assert (A := H x (or_introl eq_refl)). lia.
Qed.

Lemma tot_ext : forall {B} (f g : B -> Z) l, (forall x, In x l -> f x = g x) -> total_of (map f l) = total_of (map g l).
Proof. intros B f g l H. f_equal. apply map_ext_in. exact H. Qed.

Lemma tot_nonneg : forall {B} (f : B -> Z) l, (forall x, In x l -> 0 <= f x) -> 0 <= total_of (map f l).
Proof.
  intros B f. induction l as [|x l IH]; intros H; [simpl; lia|]. cbn [map total_of fold_right]. fold (total_of (map f l)).
  specialize (IH (fun y Hy => H y (or_intror Hy))). assert (A := H x (or_introl eq_refl)). lia.
Qed.

Lemma tot_split : forall {B} (f : B -> Z) (g : B -> bool) l,
  total_of (map f l) = total_of (map f (filter g l)) + total_of (map f (filter (fun x => negb (g x)) l)).
Proof.
  intros B f g. induction l as [|x l IH]; [reflexivity|]. cbn [map filter]. destruct (g x); cbn [negb map total_of fold_right];
  fold (total_of (map f l)); rewrite IH; unfold total_of; lia.
Qed.

Lemma filter_split_len : forall {B} (g : B -> bool) l, (length (filter g l) + length (filter (fun x => negb (g x)) l) = length l)%nat.
Proof. intros B g. induction l as [|x l IH]; [reflexivity|]. simpl. destruct (g x); simpl; lia. Qed.

Lemma score_pairs_from : forall C a i, score_from C i a = total_of (map (fun ij => C (fst ij) (snd ij)) (combine (seq i (length a)) a)).
Proof. intros C. induction a as [|y a IH]; intros i; [reflexivity|]. simpl. now rewrite IH. Qed.

Lemma combine_fst : forall {B} (a : list B) i, map fst (combine (seq i (length a)) a) = seq i (length a).
Proof. intros B. induction a as [|y a IH]; intros i; [reflexivity|]. simpl. now rewrite IH. Qed.

Lemma combine_snd : forall {B} (a : list B) i, map snd (combine (seq i (length a)) a) = a.
Proof. intros B. induction a as [|y a IH]; intros i; [reflexivity|]. simpl. now rewrite IH. Qed.

Lemma combine_map : forall {B C} (l : list (B * C)), combine (map fst l) (map snd l) = l.
Proof. intros B C. induction l as [|[x y] l IH]; [reflexivity|]. simpl. now rewrite IH. Qed.

Lemma nodup_map_filter : forall {B C} (f : B -> C) g l, NoDup (map f l) -> NoDup (map f (filter g l)).
Proof.
  intros B C f g. induction l as [|x l IH]; intros H; [constructor|]. simpl in H. inversion H as [|? ? H1 H2]; subst.
  simpl. destruct (g x); [|auto]. simpl. constructor; [|auto]. intros Hc. apply H1. apply in_map_iff in Hc.
  destruct Hc as (y & <- & Hy). apply filter_In in Hy. apply in_map. tauto.
Qed.

Lemma matching_filter : forall n1 n2 M g, matching n1 n2 M -> matching n1 n2 (filter g M).
Proof.
  intros n1 n2 M g (H1 & H2 & H3). split; [now apply nodup_map_filter|]. split; [now apply nodup_map_filter|].
  intros i j H. apply filter_In in H. apply H3. tauto.
Qed.

(** An assignment is a matching of the n x n block. *)
Lemma assign_matching : forall n a, assignment n a -> matching n n (combine (seq 0 n) a).
Proof.
  intros n a H. assert (L := assignment_length _ _ H). rewrite <- L at 3. split; [|split].
  - rewrite combine_fst. apply seq_NoDup.
  - rewrite combine_snd. eapply assignment_nodup; eauto.
  - rewrite L. intros i j Hin. split.
    + apply in_combine_l in Hin. apply in_seq in Hin. lia.
    + apply in_combine_r in Hin. eapply assignment_bound; eauto.
Qed.

(** A partial matching extends to an assignment. *)
Lemma nodup_app : forall (a b : list nat), NoDup a -> NoDup b -> (forall x, In x a -> ~ In x b) -> NoDup (a ++ b).
Proof.
  induction a as [|x a IH]; intros b Ha Hb H; [exact Hb|]. simpl. inversion Ha as [|? ? H1 H2]; subst. constructor.
  - intros Hc. apply in_app_or in Hc. destruct Hc as [Hc|Hc]; [auto|]. apply (H x); [now left|auto].
  - apply IH; auto. intros y Hy. apply H. now right.
Qed.

Lemma complement : forall n l, NoDup l -> (forall x, In x l -> (x < n)%nat) ->
  exists r, Permutation (seq 0 n) (l ++ r).
Proof.
  intros n l Hn Hb. exists (filter (fun x => negb (existsb (Nat.eqb x) l)) (seq 0 n)).
  assert (E : forall x, existsb (Nat.eqb x) l = true <-> In x l).
  { intros x. rewrite existsb_exists. split; [intros (y & Hy & E); apply Nat.eqb_eq in E; now subst|]. intros H. exists x. split; [auto|apply Nat.eqb_refl]. }
  apply NoDup_Permutation.
  - apply seq_NoDup.
  - apply nodup_app; [auto|apply NoDup_filter, seq_NoDup|]. intros x Hx Hc. apply filter_In in Hc. destruct Hc as [_ Hc].
    apply negb_true_iff in Hc. apply E in Hx. congruence.
  - intros x. rewrite in_app_iff, filter_In, in_seq, negb_true_iff. split.
    + intros Hx. destruct (existsb (Nat.eqb x) l) eqn:Ex; [left; now apply E|right; auto].
    + intros [Hx|[Hx _]]; [apply Hb in Hx; lia|lia].
Qed.

Lemma extend : forall n M, matching n n M -> exists a R, assignment n a /\ Permutation (combine (seq 0 n) a) (M ++ R).
Proof.
  intros n M (H1 & H2 & H3).
  destruct (complement n (map fst M) H1) as [r1 P1]. { intros x Hx. apply in_map_iff in Hx. destruct Hx as ((i & j) & <- & Hx). now apply H3 in Hx. }
  destruct (complement n (map snd M) H2) as [r2 P2]. { intros x Hx. apply in_map_iff in Hx. destruct Hx as ((i & j) & <- & Hx). now apply H3 in Hx. }
  assert (L1 := Permutation_length P1). assert (L2 := Permutation_length P2). rewrite app_length, map_length in L1, L2.
  set (R := combine r1 r2).
  assert (F1 : map fst (M ++ R) = map fst M ++ r1).
  { rewrite map_app. f_equal. unfold R. clear - L1 L2. assert (length r1 = length r2) by lia. clear L1 L2. revert r2 H.
    induction r1 as [|x r1 IH]; intros [|y r2] H; try discriminate; auto. simpl. f_equal. apply IH. simpl in H. lia. }
  assert (F2 : map snd (M ++ R) = map snd M ++ r2).
  { rewrite map_app. f_equal. unfold R. clear - L1 L2. assert (length r1 = length r2) by lia. clear L1 L2. revert r2 H.
    induction r1 as [|x r1 IH]; intros [|y r2] H; try discriminate; auto. simpl. f_equal. apply IH. simpl in H. lia. }
  rewrite <- F1 in P1. destruct (Permutation_map_inv _ _ P1) as (L & E & PL).
  exists (map snd L), R. split.
  - unfold assignment. rewrite <- PL, F2. now symmetry.
  - rewrite E, combine_map. now symmetry.
Qed.

Section Metric.
Context {A : Type}.
Variable d : A -> A -> Z.
Variable c : Z.
Variables X Y : list A.
Notation n1 := (length X).
Notation n2 := (length Y).
Notation n := (Nat.max n1 n2).

Lemma entry_pair : forall i j, (i < n)%nat -> (j < n)%nat -> entry d c X Y i j = pair_cost d c X Y (i, j).
Proof.
  intros i j Hi Hj. unfold entry, pair_cost. cbn [fst snd].
  destruct (Nat.ltb_spec n1 n) as [H1|H1]; cbn [negb andb].
  - destruct (Nat.leb_spec n1 i) as [H2|H2].
    + rewrite (proj2 (nth_error_None X i)) by lia. reflexivity.
    + destruct (nth_error X i) as [x|] eqn:Ex; [|apply nth_error_None in Ex; lia].
      destruct (nth_error Y j) as [y|] eqn:Ey; [|apply nth_error_None in Ey; lia].
      destruct (Z.ltb_spec c (d x y)); lia.
  - destruct (Nat.ltb_spec n2 n) as [H2|H2]; cbn [negb andb].
    + destruct (Nat.leb_spec n2 j) as [H3|H3].
      * rewrite (proj2 (nth_error_None Y j)) by lia. destruct (nth_error X i); reflexivity.
      * destruct (nth_error X i) as [x|] eqn:Ex; [|apply nth_error_None in Ex; lia].
        destruct (nth_error Y j) as [y|] eqn:Ey; [|apply nth_error_None in Ey; lia].
        destruct (Z.ltb_spec c (d x y)); lia.
    + destruct (nth_error X i) as [x|] eqn:Ex; [|apply nth_error_None in Ex; lia].
      destruct (nth_error Y j) as [y|] eqn:Ey; [|apply nth_error_None in Ey; lia].
      destruct (Z.ltb_spec c (d x y)); lia.
Qed.

Lemma pair_cost_le : forall ij, pair_cost d c X Y ij <= c.
Proof. intros [i j]. unfold pair_cost. cbn [fst snd]. destruct (nth_error X i), (nth_error Y j); lia. Qed.

Definition pcost (p : nat) (L : list (nat * nat)) : Z := total_of (map (fun ij => pair_cost d c X Y ij ^ Z.of_nat p) L).

(** Dropping pairs at the cut-off changes nothing. *)
Lemma drop_cut : forall p L g, (forall ij, In ij L -> g ij = false -> pair_cost d c X Y ij = c) ->
  (length L = n)%nat -> pcost p L = match_cost d p c X Y (filter g L).
Proof.
  intros p L g H HL. unfold pcost, match_cost. rewrite (tot_split _ g L). f_equal.
  rewrite (tot_const _ (c ^ Z.of_nat p)).
  - assert (E := filter_split_len g L). f_equal. lia.
  - intros ij Hi. apply filter_In in Hi. destruct Hi as [Hi Hg]. apply negb_true_iff in Hg. now rewrite H.
Qed.

Lemma outside_cut : forall i j, ((i <? n1) && (j <? n2))%nat = false -> pair_cost d c X Y (i, j) = c.
Proof.
  intros i j H. unfold pair_cost. cbn [fst snd]. apply andb_false_iff in H. destruct H as [H|H]; apply Nat.ltb_ge in H.
  - rewrite (proj2 (nth_error_None X i)); auto.
  - rewrite (proj2 (nth_error_None Y j)); auto. destruct (nth_error X i); reflexivity.
Qed.

(** Cost of an assignment through matchings: every selection that keeps all pairs below the
    cut-off and only real pairs. *)
Lemma assign_cost : forall p a g, assignment n a ->
  (forall i j, g (i, j) = false -> pair_cost d c X Y (i, j) = c) ->
  (forall i j, In (i, j) (combine (seq 0 n) a) -> g (i, j) = true -> (i < n1)%nat /\ (j < n2)%nat) ->
  let M := filter g (combine (seq 0 n) a) in
  matching n1 n2 M /\ match_cost d p c X Y M = pcost p (combine (seq 0 n) a).
Proof.
  intros p a g Ha Hg Hr M. assert (HM := assign_matching _ _ Ha). split.
  - destruct (matching_filter _ _ _ g HM) as (H1 & H2 & _). split; [exact H1|]. split; [exact H2|].
    intros i j H. apply filter_In in H. destruct H. apply Hr; auto.
  - symmetry. apply drop_cut.
    + intros [i j] _. apply Hg.
    + rewrite combine_length, seq_length, (assignment_length _ _ Ha). lia.
Qed.

Lemma score_pcost : forall a, assignment n a -> score (entry d c X Y) a = pcost 1 (combine (seq 0 n) a).
Proof.
  intros a Ha. unfold score. rewrite score_pairs_from, (assignment_length _ _ Ha). unfold pcost. apply tot_ext.
  intros [i j] Hin. cbn [fst snd Z.of_nat Pos.of_succ_nat]. rewrite Z.pow_1_r. apply entry_pair.
  - apply in_combine_l in Hin. apply in_seq in Hin. lia.
  - apply in_combine_r in Hin. eapply assignment_bound; eauto.
Qed.

(** Every matching costs at least as much as some assignment. *)
Lemma matching_assign : forall M, matching n1 n2 M -> exists a, assignment n a /\
  forall p, (p = 1%nat \/ (0 <= c /\ forall x y, 0 <= d x y)) -> pcost p (combine (seq 0 n) a) <= match_cost d p c X Y M.
Proof.
  intros M HM. destruct (extend n M) as (a & R & Ha & HP).
  - destruct HM as (H1 & H2 & H3). split; [auto|]. split; [auto|]. intros i j Hin. apply H3 in Hin. lia.
  - exists a. split; [exact Ha|]. intros p Hp. unfold pcost. rewrite (tot_perm _ _ (Permutation_map _ HP)), map_app, tot_app.
    unfold match_cost. apply Z.add_le_mono_l.
    assert (L := Permutation_length HP). rewrite app_length, combine_length, seq_length, (assignment_length _ _ Ha), Nat.min_id in L.
    replace (c ^ Z.of_nat p * (Z.of_nat n - Z.of_nat (length M))) with (total_of (map (fun _ : nat * nat => c ^ Z.of_nat p) R)).
    + apply tot_le. intros ij _. destruct Hp as [->|[Hc Hd]].
      * change (Z.of_nat 1) with 1. rewrite !Z.pow_1_r. apply pair_cost_le.
      * apply Z.pow_le_mono_l. split; [|apply pair_cost_le]. unfold pair_cost. destruct (nth_error X (fst ij)), (nth_error Y (snd ij)); auto.
        specialize (Hd a0 a1). lia.
    + rewrite (tot_const _ (c ^ Z.of_nat p)) by auto. rewrite L. f_equal. lia.
Qed.
End Metric.
