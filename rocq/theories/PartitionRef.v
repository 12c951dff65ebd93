(** A reference implementation of connected components.  It is not a model of any
    code in the repository: it stands in for boost::connected_components in the
    examples and shows that the contract [components_of] can always be met. *)
From Coq Require Import ZArith List Bool Arith Lia Relations.
From Verif Require Import ListUtil HungarianModel PartitionModel PartitionSpec.
Import ListNotations.
Local Open Scope nat_scope.

Definition relabel (lab : nat -> nat) (e : nat * nat) : nat -> nat :=
  fun v => if Nat.eqb (lab v) (lab (fst e)) then lab (snd e) else lab v.
Definition labels (es : list (nat * nat)) : nat -> nat := fold_left relabel es (fun v => v).

Fixpoint index (x : nat) (l : list nat) : nat :=
  match l with
  | [] => 0
  | y :: r => if Nat.eqb x y then 0 else S (index x r)
  end.

Definition used (C : mat) (ml : Z) (nR nC : nat) : list nat :=
  nodup Nat.eq_dec (map (labels (edges C ml nR nC)) (seq 0 (nR + nC))).
Definition ref_cc (C : mat) (ml : Z) (nR nC : nat) : nat -> nat :=
  let lab := labels (edges C ml nR nC) in let u := used C ml nR nC in fun v => index (lab v) u.
Definition ref_ncc (C : mat) (ml : Z) (nR nC : nat) : nat := length (used C ml nR nC).

Lemma index_lt : forall x l, In x l -> index x l < length l.
Proof.
  induction l as [|y l IH]; simpl; intros H; [tauto|].
  destruct (Nat.eqb_spec x y); [lia|]. destruct H as [H|H]; [congruence|]. apply IH in H. lia.
Qed.

Lemma index_inj : forall x y l, In x l -> In y l -> index x l = index y l -> x = y.
Proof.
  induction l as [|z l IH]; simpl; intros Hx Hy; [tauto|].
  destruct (Nat.eqb_spec x z), (Nat.eqb_spec y z); intros E; try congruence.
  apply IH; [intuition congruence|intuition congruence|lia].
Qed.

Lemma index_nth : forall l c, NoDup l -> c < length l -> index (nth c l 0) l = c.
Proof.
  induction l as [|z l IH]; simpl; intros c Hnd Hc; [lia|].
  inversion Hnd as [|? ? Hn Hnd']; subst. destruct c as [|c]; [now rewrite Nat.eqb_refl|].
  destruct (Nat.eqb_spec (nth c l 0) z) as [E|E].
  - exfalso. apply Hn. rewrite <- E. apply nth_In. lia.
  - f_equal. apply IH; auto. lia.
Qed.

Definition chain (es : list (nat * nat)) := clos_refl_sym_trans nat (fun a b => In (a, b) es).

Lemma chain_mono : forall es es' a b, (forall e, In e es -> In e es') -> chain es a b -> chain es' a b.
Proof.
  induction 2.
  - apply rst_step. auto.
  - apply rst_refl.
  - apply rst_sym. auto.
  - eapply rst_trans; eauto.
Qed.

Lemma labels_ok : forall es u v, labels es u = labels es v <-> chain es u v.
Proof.
  induction es as [|[x y] es IH] using rev_ind; intros u v.
  - unfold labels. simpl. split; [intros ->; apply rst_refl|].
    induction 1; simpl in *; auto; [tauto|congruence].
  - unfold labels. rewrite fold_left_app. cbn [fold_left]. fold (labels es). unfold relabel. cbn [fst snd].
    assert (Hm : forall a b, labels es a = labels es b -> chain (es ++ [(x, y)]) a b).
    { intros a b H. apply IH in H. revert H. apply chain_mono. intros e He. apply in_app_iff. auto. }
    assert (Hxy : chain (es ++ [(x, y)]) x y).
    { apply rst_step. apply in_app_iff. right. left. auto. }
    split.
    + destruct (Nat.eqb_spec (labels es u) (labels es x)) as [E1|E1],
               (Nat.eqb_spec (labels es v) (labels es x)) as [E2|E2]; intros E.
      * apply Hm. congruence.
      * eapply rst_trans; [apply Hm; exact E1|]. eapply rst_trans; [exact Hxy|]. now apply Hm.
      * apply rst_sym. eapply rst_trans; [apply Hm; exact E2|]. eapply rst_trans; [exact Hxy|]. now apply Hm.
      * now apply Hm.
    + induction 1 as [a b H| | |].
      * apply in_app_iff in H. destruct H as [H|[H|[]]].
        -- assert (E : labels es a = labels es b) by (apply IH; now apply rst_step). now rewrite E.
        -- injection H as <- <-. rewrite Nat.eqb_refl. destruct (Nat.eqb (labels es y) (labels es x)); auto.
      * auto.
      * auto.
      * congruence.
Qed.

Lemma edges_in : forall C ml nR nC a b, In (a, b) (edges C ml nR nC) <->
  exists i j, i < nR /\ j < nC /\ (ml < C i j)%Z /\ a = i /\ b = j + nR.
Proof.
  intros. unfold edges. rewrite in_flat_map. split.
  - intros (i & Hi & H). apply in_map_iff in H. destruct H as (j & E & H). injection E as <- <-.
    apply filter_In in H. destruct H as [Hj H]. apply in_seq in Hi, Hj. apply Z.ltb_lt in H.
    exists i, j. repeat split; lia.
  - intros (i & j & Hi & Hj & H & -> & ->). exists i. split; [apply in_seq; lia|].
    apply in_map_iff. exists j. split; auto. apply filter_In. split; [apply in_seq; lia|now apply Z.ltb_lt].
Qed.

Lemma num_inj : forall nR nC u v, in_range nR nC u -> in_range nR nC v -> num nR u = num nR v -> u = v.
Proof. intros nR nC [i|j] [i'|j']; simpl; intros; try (f_equal; lia); lia. Qed.

Lemma chain_conn : forall C ml nR nC u v, in_range nR nC u -> in_range nR nC v ->
  chain (edges C ml nR nC) (num nR u) (num nR v) <-> connected C ml nR nC u v.
Proof.
  intros C ml nR nC u v Hu Hv. split.
  - assert (G : forall a b, chain (edges C ml nR nC) a b -> a = b \/
      exists u v, in_range nR nC u /\ in_range nR nC v /\ num nR u = a /\ num nR v = b /\ connected C ml nR nC u v).
    { induction 1 as [a b H|a|a b H IH|a b c H1 IH1 H2 IH2].
      - apply edges_in in H. destruct H as (i & j & Hi & Hj & Hs & -> & ->). right.
        exists (Row i), (Col j). simpl. repeat split; auto. apply rst_step. constructor; auto.
      - auto.
      - destruct IH as [->|(x & y & H1 & H2 & H3 & H4 & H5)]; auto. right.
        exists y, x. repeat split; auto. now apply rst_sym.
      - destruct IH1 as [->|(x & y & A1 & A2 & A3 & A4 & A5)]; auto.
        destruct IH2 as [<-|(x' & y' & B1 & B2 & B3 & B4 & B5)]; [right; exists x, y; auto|].
        right. exists x, y'. repeat split; auto.
        assert (y = x') by (apply (num_inj nR nC); auto; congruence). subst x'.
        eapply rst_trans; eauto. }
    intros H. destruct (G _ _ H) as [E|(x & y & A1 & A2 & A3 & A4 & A5)].
    + apply (num_inj nR nC) in E; auto. subst. apply rst_refl.
    + apply (num_inj nR nC) in A3, A4; auto. subst. auto.
  - clear. induction 1 as [a b H|a|a b H IH|a b c H1 IH1 H2 IH2].
    + destruct H as [i j Hi Hj Hs]. simpl. apply rst_step. apply edges_in. exists i, j. auto.
    + apply rst_refl.
    + now apply rst_sym.
    + eapply rst_trans; eauto.
Qed.

Lemma num_range : forall nR nC u, in_range nR nC u -> num nR u < nR + nC.
Proof. intros nR nC [i|j]; simpl; lia. Qed.

Lemma num_onto : forall nR nC k, k < nR + nC -> exists u, in_range nR nC u /\ num nR u = k.
Proof.
  intros nR nC k H. destruct (Nat.lt_ge_cases k nR).
  - exists (Row k). simpl. auto.
  - exists (Col (k - nR)). simpl. split; lia.
Qed.

Theorem ref_ok : forall C ml nR nC,
  components_of C ml nR nC (ref_cc C ml nR nC) (ref_ncc C ml nR nC).
Proof.
  intros C ml nR nC. unfold ref_cc, ref_ncc.
  assert (Hin : forall k, k < nR + nC -> In (labels (edges C ml nR nC) k) (used C ml nR nC)).
  { intros k Hk. unfold used. apply nodup_In. apply in_map. apply in_seq. lia. }
  split; [|split].
  - intros u Hu. apply index_lt, Hin. now apply num_range.
  - intros c Hc.
    assert (Hx := nth_In (used C ml nR nC) 0 Hc). unfold used in Hx at 2. apply nodup_In in Hx.
    apply in_map_iff in Hx. destruct Hx as (k & Ek & Hk). apply in_seq in Hk.
    destruct (num_onto nR nC k ltac:(lia)) as (u & Hu & <-). exists u. split; auto.
    rewrite Ek. apply index_nth; auto. unfold used. apply NoDup_nodup.
  - intros u v Hu Hv. rewrite <- chain_conn by auto. rewrite <- labels_ok. split; [|intros ->; auto].
    intros H. apply index_inj in H; auto; apply Hin; now apply num_range.
Qed.
