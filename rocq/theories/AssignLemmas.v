(** Lemmas about assignments and scores (AssignSpec). *)
From Coq Require Import ZArith List Bool Arith Lia Permutation.
From Verif Require Import ListUtil AssignSpec.
Import ListNotations.
Local Open Scope Z_scope.

Definition zsum (l : list Z) : Z := fold_right Z.add 0 l.

Lemma zsum_perm : forall l l', Permutation l l' -> zsum l = zsum l'.
Proof. induction 1; simpl; lia. Qed.

Lemma zsum_app : forall l l', zsum (l ++ l') = zsum l + zsum l'.
Proof. induction l; simpl; intros; auto. rewrite IHl. lia. Qed.

Lemma assignment_length : forall n a, assignment n a -> length a = n.
Proof. intros n a H. rewrite (Permutation_length H). apply seq_length. Qed.

Lemma assignment_nodup : forall n a, assignment n a -> NoDup a.
Proof. intros n a H. apply (Permutation_NoDup (Permutation_sym H)). apply seq_NoDup. Qed.

Lemma assignment_bound : forall n a y, assignment n a -> In y a -> (y < n)%nat.
Proof. intros n a y H Hy. apply (Permutation_in _ H) in Hy. apply in_seq in Hy. lia. Qed.

Lemma assignment_in : forall n a y, assignment n a -> (y < n)%nat -> In y a.
Proof. intros n a y H Hy. apply (Permutation_in _ (Permutation_sym H)). apply in_seq. lia. Qed.

Lemma assignment_intro : forall n a, length a = n -> NoDup a -> (forall y, In y a -> (y < n)%nat) ->
  assignment n a.
Proof.
  intros n a Hl Hnd Hb. apply NoDup_Permutation_bis; auto.
  - rewrite seq_length. lia.
  - intros y Hy. apply in_seq. specialize (Hb y Hy). lia.
Qed.

Lemma score_from_sum : forall C a i,
  score_from C i a = zsum (map (fun k => C (i + k)%nat (nth k a 0%nat)) (seq 0 (length a))).
Proof.
  induction a as [|y a IH]; intros i; simpl; auto.
  rewrite IH. rewrite Nat.add_0_r. f_equal.
  rewrite <- seq_shift, map_map. f_equal. apply map_ext. intros k.
  f_equal. lia.
Qed.

Lemma score_sum : forall C n a, length a = n ->
  score C a = zsum (map (fun x => C x (nth x a 0%nat)) (seq 0 n)).
Proof. intros C n a <-. unfold score. now rewrite score_from_sum. Qed.

Lemma score_from_ext : forall C D a i,
  (forall k y, nth_error a k = Some y -> C (i + k)%nat y = D (i + k)%nat y) ->
  score_from C i a = score_from D i a.
Proof.
  induction a as [|y a IH]; intros i H; simpl; auto.
  rewrite (IH (S i)).
  - f_equal. specialize (H 0%nat y eq_refl). now rewrite Nat.add_0_r in H.
  - intros k z Hk. specialize (H (S k) z Hk). now rewrite Nat.add_succ_r in H.
Qed.

Lemma score_from_map : forall C f a i, score_from C i (map f a) = score_from (fun x y => C x (f y)) i a.
Proof. induction a; simpl; intros; auto. now rewrite IHa. Qed.

Lemma score_from_plus : forall C D a i,
  score_from (fun x y => C x y + D x y) i a = score_from C i a + score_from D i a.
Proof. induction a; simpl; intros; [lia|]. rewrite IHa. lia. Qed.

Lemma score_from_zero : forall C a i, (forall x y, In y a -> C x y = 0) -> score_from C i a = 0.
Proof.
  induction a as [|y a IH]; intros i H; simpl; auto.
  rewrite IH, H; [lia|left; reflexivity|]. intros x z Hz. apply H. right; auto.
Qed.

(** Score of a matrix that vanishes outside column j. *)
Lemma score_col : forall C j a i k, NoDup a -> nth_error a k = Some j ->
  (forall x y, y <> j -> C x y = 0) -> score_from C i a = C (i + k)%nat j.
Proof.
  induction a as [|y a IH]; intros i k Hnd Hk H0; [destruct k; discriminate|].
  inversion Hnd as [|? ? Hn Hnd']; subst. destruct k; simpl in *.
  - injection Hk as ->. rewrite score_from_zero.
    + rewrite Nat.add_0_r. lia.
    + intros x z Hz. apply H0. intros ->. contradiction.
  - rewrite (IH (S i) k) by auto. rewrite (H0 i y).
    + rewrite Nat.add_succ_r. reflexivity.
    + intros ->. apply Hn. now apply nth_error_In in Hk.
Qed.

(** Transposition of two columns. *)
Definition tau (j k y : nat) : nat := if Nat.eqb y j then k else if Nat.eqb y k then j else y.

Lemma tau_l : forall j k, tau j k j = k.
Proof. intros. unfold tau. now rewrite Nat.eqb_refl. Qed.

Lemma tau_r : forall j k, tau j k k = j.
Proof. intros. unfold tau. destruct (Nat.eqb_spec k j); [auto|]. now rewrite Nat.eqb_refl. Qed.

Lemma tau_other : forall j k y, y <> j -> y <> k -> tau j k y = y.
Proof. intros. unfold tau. apply Nat.eqb_neq in H, H0. now rewrite H, H0. Qed.

Lemma tau_inv : forall j k y, tau j k (tau j k y) = y.
Proof.
  intros. unfold tau. destruct (Nat.eqb_spec y j); subst.
  - destruct (Nat.eqb_spec k j); auto. now rewrite Nat.eqb_refl.
  - destruct (Nat.eqb_spec y k); subst.
    + now rewrite Nat.eqb_refl.
    + apply Nat.eqb_neq in n, n0. now rewrite n, n0.
Qed.

Lemma tau_assignment : forall n j k a, (j < n)%nat -> (k < n)%nat -> assignment n a ->
  assignment n (map (tau j k) a).
Proof.
  intros n j k a Hj Hk Ha. apply assignment_intro.
  - rewrite map_length. now apply assignment_length.
  - apply FinFun.Injective_map_NoDup.
    + intros x y H. rewrite <- (tau_inv j k x), <- (tau_inv j k y). now f_equal.
    + now apply assignment_nodup with (n := n).
  - intros y Hy. apply in_map_iff in Hy. destruct Hy as (z & <- & Hz).
    apply (assignment_bound n) in Hz; auto. unfold tau.
    destruct (Nat.eqb z j); auto. destruct (Nat.eqb z k); auto.
Qed.

Lemma tau_score : forall C a j k i i', NoDup a -> j <> k ->
  nth_error a i = Some k -> nth_error a i' = Some j ->
  score C (map (tau j k) a) = score C a - C i k - C i' j + C i j + C i' k.
Proof.
  intros C a j k i i' Hnd Hjk Hi Hi'. unfold score. rewrite score_from_map.
  set (G := fun (q q' : nat) x y => if Nat.eqb y q then C x q' - C x q else 0).
  rewrite (score_from_ext _ (fun x y => C x y + (G j k x y + G k j x y))).
  - rewrite score_from_plus. rewrite score_from_plus.
    rewrite (score_col (G j k) j a 0 i' Hnd Hi'), (score_col (G k j) k a 0 i Hnd Hi).
    + unfold G. rewrite !Nat.eqb_refl. simpl. lia.
    + intros x y Hy. unfold G. apply Nat.eqb_neq in Hy. now rewrite Hy.
    + intros x y Hy. unfold G. apply Nat.eqb_neq in Hy. now rewrite Hy.
  - intros m y _. unfold G, tau. destruct (Nat.eqb_spec y j); subst.
    + apply Nat.eqb_neq in Hjk. rewrite Hjk. lia.
    + destruct (Nat.eqb_spec y k); subst; lia.
Qed.
