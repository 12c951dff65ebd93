(** Proofs about class Murty: splitting an assignment at a row, and one partition. *)
From Coq Require Import ZArith List Bool Arith Lia Permutation.
From Verif Require Import Base ListUtil HungarianModel AssignSpec AssignLemmas HungarianProofs3 MurtyModel MurtySpec.
Import ListNotations.
Local Open Scope Z_scope.

(** ----- columns ----- *)
Lemma existsb_in : forall c l, existsb (Nat.eqb c) l = true <-> In c l.
Proof.
  intros c l. rewrite existsb_exists. split.
  - intros (x & Hx & E). apply Nat.eqb_eq in E. now subst.
  - intros H. exists c. split; auto. apply Nat.eqb_refl.
Qed.

Lemma free_in : forall n fixed c, In c (free_cols n fixed) <-> (c < n)%nat /\ ~ In c fixed.
Proof.
  intros. unfold free_cols. rewrite filter_In, in_seq, negb_true_iff, <- not_true_iff_false, existsb_in.
  intuition lia.
Qed.

Lemma free_nodup : forall n fixed, NoDup (free_cols n fixed).
Proof. intros. apply NoDup_filter, seq_NoDup. Qed.

Lemma NoDup_app_intro : forall (A : Type) (l m : list A), NoDup l -> NoDup m ->
  (forall x, In x l -> ~ In x m) -> NoDup (l ++ m).
Proof.
  intros A l m Hl Hm H. induction Hl as [|a l Hn Hl IH]; simpl; auto. constructor.
  - rewrite in_app_iff. intros [?|?]; [auto|]. apply (H a); simpl; auto.
  - apply IH. intros x Hx. apply H. now right.
Qed.

Lemma free_perm : forall n fixed, NoDup fixed -> (forall c, In c fixed -> (c < n)%nat) ->
  Permutation (fixed ++ free_cols n fixed) (seq 0 n).
Proof.
  intros n fixed Hnd Hb. apply NoDup_Permutation.
  - apply NoDup_app_intro; auto using free_nodup. intros x Hx Hf. apply free_in in Hf. tauto.
  - apply seq_NoDup.
  - intros c. rewrite in_app_iff, free_in, in_seq. split.
    + intros [H|H]; [apply Hb in H; lia|lia].
    + intros [_ H]. destruct (in_dec Nat.eq_dec c fixed); auto.
Qed.

Lemma free_length : forall n fixed, NoDup fixed -> (forall c, In c fixed -> (c < n)%nat) ->
  length (free_cols n fixed) = (n - length fixed)%nat.
Proof.
  intros n fixed Hnd Hb. assert (H := Permutation_length (free_perm n fixed Hnd Hb)).
  rewrite app_length, seq_length in H. lia.
Qed.

Lemma map_nth_free : forall (l : list nat), map (fun j => nth j l 0%nat) (seq 0 (length l)) = l.
Proof.
  intros l. apply list_ext. intros i. rewrite nth_error_map.
  destruct (Nat.lt_ge_cases i (length l)) as [H|H].
  - rewrite (nth_error_nth' (seq 0 (length l)) 0%nat) by (now rewrite seq_length).
    rewrite seq_nth by auto. simpl. symmetry. now apply nth_error_nth'.
  - rewrite (proj2 (nth_error_None (seq 0 (length l)) i)) by (now rewrite seq_length). simpl.
    symmetry. now apply nth_error_None.
Qed.

Lemma score_from_app : forall C a b i, score_from C i (a ++ b) = score_from C i a + score_from C (i + length a) b.
Proof.
  intros C a. induction a as [|y a IH]; intros b i; simpl.
  - now rewrite Nat.add_0_r.
  - rewrite IH. replace (S i + length a)%nat with (i + S (length a))%nat by lia. lia.
Qed.

Lemma score_from_shift : forall C a i k, score_from C (k + i) a = score_from (fun x y => C (k + x)%nat y) i a.
Proof.
  intros C a. induction a as [|y a IH]; intros i k; simpl; auto.
  rewrite <- IH. now replace (k + S i)%nat with (S (k + i)) by lia.
Qed.

Section Split.
Variables (n p : nat) (fixed : list nat).
Hypothesis Hnd : NoDup fixed.
Hypothesis Hb : forall c, In c fixed -> (c < n)%nat.
Hypothesis Hlen : length fixed = p.
Hypothesis Hp : (p <= n)%nat.
Let free := free_cols n fixed.
Let lift (t : list nat) := fixed ++ map (fun j => nth j free 0%nat) t.

Lemma split_free_length : length free = (n - p)%nat.
Proof. unfold free. rewrite free_length; congruence || auto. Qed.

Lemma lift_assignment : forall t, assignment (n - p) t -> assignment n (lift t).
Proof.
  intros t Ht. unfold lift, assignment. eapply perm_trans; [|apply (free_perm n fixed Hnd Hb)].
  apply Permutation_app_head. fold free.
  assert (H := Permutation_map (fun j => nth j free 0%nat) Ht).
  rewrite <- split_free_length, map_nth_free in H. exact H.
Qed.

Lemma lift_prefix : forall t, firstn p (lift t) = fixed.
Proof. intros t. unfold lift. rewrite firstn_app, Hlen, Nat.sub_diag. simpl. rewrite app_nil_r. rewrite <- Hlen. apply firstn_all. Qed.

Lemma lift_nth : forall t j, nth_error t 0 = Some j -> nth_error (lift t) p = Some (nth j free 0%nat).
Proof.
  intros t j H. unfold lift. rewrite nth_error_app2 by lia. rewrite Hlen, Nat.sub_diag, nth_error_map, H. reflexivity.
Qed.

Lemma lift_inv : forall b, assignment n b -> firstn p b = fixed -> exists t, assignment (n - p) t /\ b = lift t.
Proof.
  intros b Ha Hf.
  assert (H : Permutation (skipn p b) (map (fun j => nth j free 0%nat) (seq 0 (n - p)))).
  { rewrite <- split_free_length, map_nth_free. apply (Permutation_app_inv_l fixed).
    rewrite <- Hf at 1. rewrite firstn_skipn. eapply perm_trans; [exact Ha|].
    apply Permutation_sym, free_perm; auto. }
  apply Permutation_map_inv in H. destruct H as (t & E & Ht). exists t. split.
  - now apply Permutation_sym.
  - unfold lift. rewrite <- E, <- Hf. symmetry. apply firstn_skipn.
Qed.

Lemma lift_score : forall C t, score C (lift t) =
  score C fixed + score (fun i j => C (p + i)%nat (nth j free 0%nat)) t.
Proof.
  intros C t. unfold score, lift. rewrite score_from_app, Hlen. f_equal. simpl.
  rewrite <- (Nat.add_0_r p) at 1. rewrite score_from_shift, score_from_map. reflexivity.
Qed.
End Split.

Lemma row_sum_score : forall C a i, row_sum C i a = score_from C i a.
Proof. intros C a. induction a; simpl; intros; auto. Qed.

(** ----- exclusions ----- *)
Lemma index_of_some : forall c l j, index_of c l = Some j -> nth_error l j = Some c.
Proof.
  induction l as [|x l IH]; simpl; intros j H; [discriminate|].
  destruct (Nat.eqb_spec x c); [injection H as <-; simpl; congruence|].
  destruct (index_of c l) as [i|]; [|discriminate]. simpl in H. injection H as <-. simpl. auto.
Qed.

Lemma index_of_in : forall c l, In c l -> exists j, index_of c l = Some j.
Proof.
  induction l as [|x l IH]; simpl; intros H; [tauto|]. destruct (Nat.eqb_spec x c); [eauto|].
  destruct H as [H|H]; [congruence|]. destruct (IH H) as [j E]. rewrite E. simpl. eauto.
Qed.

Lemma index_of_nth : forall l j, NoDup l -> (j < length l)%nat -> index_of (nth j l 0%nat) l = Some j.
Proof.
  induction l as [|x l IH]; simpl; intros j Hnd Hj; [lia|]. inversion Hnd as [|? ? Hn Hnd']; subst.
  destruct j as [|j]; [now rewrite Nat.eqb_refl|].
  destruct (Nat.eqb_spec x (nth j l 0%nat)) as [E|E].
  - exfalso. apply Hn. rewrite E. apply nth_In. lia.
  - rewrite IH by (auto; lia). reflexivity.
Qed.

(** Columns excluded together with c0. *)
Definition xb (nC : nat) (free : list nat) (c0 c : nat) : bool :=
  Nat.eqb c c0 || match index_of c0 free, index_of c free with
                  | Some j0, Some j => Nat.leb nC j0 && Nat.leb nC j
                  | _, _ => false
                  end.

(** Positions in the list of free columns are at most the column numbers. *)
Lemma index_le : forall n fixed c j, index_of c (free_cols n fixed) = Some j -> (j <= c)%nat.
Proof.
  intros n fixed c j H. apply index_of_some in H. unfold free_cols in H.
  assert (G : forall f k r i x, nth_error (filter f (seq r k)) i = Some x -> (r + i <= x)%nat).
  { clear. induction k as [|k IH]; intros r i x H; simpl in H.
    - destruct i; discriminate.
    - destruct (f r).
      + destruct i as [|i]; simpl in H; [injection H as <-; lia|]. apply IH in H. lia.
      + apply IH in H. lia. }
  apply G in H. lia.
Qed.

Lemma forbid_all_ok : forall p m nC free big, NoDup free -> length free = m ->
  forall l Ct0, (forall rc, In rc l -> fst rc = p /\ In (snd rc) free) ->
  exists Ct, forbid_all p m nC free big Ct0 l = Val Ct /\
  forall x y, Ct x y = if Nat.eqb x 0 && Nat.ltb y m && existsb (fun rc => xb nC free (snd rc) (nth y free 0%nat)) l
                       then - big else Ct0 x y.
Proof.
  intros p m nC free big Hnd Hm. induction l as [|[r c] l IH]; intros Ct0 H.
  - exists Ct0. split; auto. intros x y. simpl. now rewrite andb_false_r.
  - destruct (H (r, c) (or_introl eq_refl)) as [Er Hc]. simpl in Er, Hc. subst r.
    cbn [forbid_all]. unfold forbid. cbn [fst snd]. destruct (index_of_in c free Hc) as [j Ej]. rewrite Ej. cbn [of_option obind].
    rewrite Nat.sub_diag.
    match goal with |- context [forbid_all _ _ _ _ _ ?D _] => set (Ct1 := D) end.
    destruct (IH Ct1) as (Ct & E & H1); [intros; apply H; now right|].
    exists Ct. split; auto. intros x y. rewrite H1. cbn [existsb snd]. unfold Ct1.
    destruct (Nat.eqb x 0) eqn:Ex; cbn [andb]; auto.
    destruct (Nat.ltb_spec y m) as [Hy|Hy]; cbn [andb].
    + assert (Ey := index_of_nth free y Hnd ltac:(lia)). unfold xb at 2. rewrite Ej, Ey.
      rewrite andb_true_r.
      assert (Eq : Nat.eqb (nth y free 0%nat) c = Nat.eqb y j).
      { apply Bool.eq_iff_eq_true. rewrite !Nat.eqb_eq. split.
        - intros Ec. rewrite Ec in Ey. congruence.
        - intros ->. apply index_of_some in Ej. now apply nth_error_nth. }
      rewrite Eq. destruct (Nat.eqb y j || (Nat.leb nC j && Nat.leb nC y)); cbn [orb]; auto.
      now destruct (existsb _ l).
    + rewrite !andb_false_r, orb_false_r. apply index_of_some, nth_error_lt in Ej.
      destruct (Nat.eqb_spec y j); [lia|reflexivity].
Qed.
