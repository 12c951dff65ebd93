(** Geometry of the cells of the spatial index. *)
From Coq Require Import List Bool Arith ZArith QArith Qcanon Lia Permutation.
From Verif Require Import Base ListUtil QcLra SpatialModel SpatialSpec.
Import ListNotations.
Local Open Scope Qc_scope.

Lemma nth_error_nth_Qc : forall (l : pos) d a, nth_error l d = Some a -> nth d l 0 = a.
Proof. intros l d a H. now apply nth_error_nth. Qed.

Lemma le_all_iff : forall a b, length a = length b ->
  (le_all a b = true <-> forall d, (d < length a)%nat -> nth d a 0 <= nth d b 0).
Proof.
  unfold le_all. induction a as [|x a IH]; intros [|y b] H; simpl in *; try discriminate.
  - split; [intros _ d Hd; lia|auto].
  - rewrite andb_true_iff, Qcleb_true, IH by lia. split.
    + intros [H1 H2] [|d] Hd; auto. apply H2. lia.
    + intros G. split; [apply (G 0%nat); lia|]. intros d Hd. apply (G (S d)). lia.
Qed.

Lemma nth_map_Qc : forall (f : Qc -> Qc) l d, (d < length l)%nat -> nth d (map f l) 0 = f (nth d l 0).
Proof. intros f l d H. rewrite (nth_indep _ 0 (f 0)) by now rewrite map_length. apply map_nth. Qed.

(** Closed and open cells. *)
Definition inC (n : nat) (l : pos) (s : Qc) (p : pos) : Prop :=
  forall d, (d < n)%nat -> nth d l 0 <= nth d p 0 /\ nth d p 0 <= nth d l 0 + s.
Definition inS (n : nat) (l : pos) (s : Qc) (p : pos) : Prop :=
  forall d, (d < n)%nat -> nth d l 0 < nth d p 0 /\ nth d p 0 < nth d l 0 + s.

Lemma inS_inC : forall n l s p, inS n l s p -> inC n l s p.
Proof. intros n l s p H d Hd. destruct (H d Hd). split; now apply Qclt_le_weak. Qed.

Lemma inside_iff : forall n t p, length (lo t) = n -> length p = n ->
  (inside t p = true <-> inC n (lo t) (size t) p).
Proof.
  intros n t p Hl Hp. unfold inside, hi, inC. rewrite andb_true_iff.
  rewrite le_all_iff by (rewrite map_length; lia). rewrite le_all_iff by lia. rewrite Hl, Hp. split.
  - intros [H1 H2] d Hd. specialize (H1 d Hd). specialize (H2 d Hd). rewrite nth_map_Qc in H1 by lia. auto.
  - intros H. split; intros d Hd; destruct (H d Hd); auto. rewrite nth_map_Qc by lia. auto.
Qed.

Lemma child_lo_length : forall cs l i, length (child_lo cs l i) = length l.
Proof. intros. unfold child_lo. rewrite map_length, combine_length, seq_length. lia. Qed.

Lemma child_lo_nth : forall cs l i d, (d < length l)%nat ->
  nth d (child_lo cs l i) 0 = (if Nat.testbit i d then 1 else 0) * cs + nth d l 0.
Proof.
  intros cs l i d Hd. unfold child_lo.
  set (f := fun da : nat * Qc => (if Nat.testbit i (fst da) then 1 else 0) * cs + snd da).
  rewrite (nth_indep _ 0 (f (0%nat, 0))) by (rewrite map_length, combine_length, seq_length; lia).
  rewrite map_nth, combine_nth by now rewrite seq_length. rewrite seq_nth by auto. reflexivity.
Qed.

(** Numbers with given bits. *)
Lemma bits_ex : forall n (f : nat -> bool), exists j, (j < 2 ^ n)%nat /\ forall d, (d < n)%nat -> Nat.testbit j d = f d.
Proof.
  induction n as [|n IH]; intros f.
  - exists 0%nat. split; [simpl; lia|]. intros d Hd. lia.
  - destruct (IH (fun d => f (S d))) as (j & Hj & Hb).
    exists (2 * j + (if f 0%nat then 1 else 0))%nat. split.
    + simpl. destruct (f 0%nat); lia.
    + intros [|d] Hd.
      * destruct (f 0%nat); [apply Nat.testbit_odd_0|rewrite Nat.add_0_r; apply Nat.testbit_even_0].
      * rewrite <- Hb by lia. destruct (f 0%nat); [apply Nat.testbit_odd_succ; lia|rewrite Nat.add_0_r; apply Nat.testbit_even_succ; lia].
Qed.

Lemma bits_inj : forall n i j, (i < 2 ^ n)%nat -> (j < 2 ^ n)%nat ->
  (forall d, (d < n)%nat -> Nat.testbit i d = Nat.testbit j d) -> i = j.
Proof.
  intros n i j Hi Hj H. apply Nat.bits_inj. intros d. destruct (lt_dec d n) as [Hd|Hd]; [auto|].
  assert (A : forall x, (x < 2 ^ n)%nat -> Nat.testbit x d = false).
  { intros x Hx. destruct x as [|x]; [apply Nat.bits_0|]. apply Nat.bits_above_log2.
    apply Nat.lt_le_trans with n; [|lia]. apply Nat.log2_lt_pow2; lia. }
  rewrite !A; auto.
Qed.

Lemma half_two : forall s, s * half + s * half = s.
Proof. intros s. unfold half. qclra. Qed.
Lemma half_of_double : forall s, s * two * half = s.
Proof. intros s. unfold half, two. qclra. Qed.

Lemma cover : forall n l s p, length l = n -> inC n l s p ->
  exists i, (i < 2 ^ n)%nat /\ inC n (child_lo (s * half) l i) (s * half) p.
Proof.
  intros n l s p Hl H.
  destruct (bits_ex n (fun d => Qcltb (nth d l 0 + s * half) (nth d p 0))) as (i & Hi & Hb).
  exists i. split; auto. intros d Hd. rewrite child_lo_nth by lia. rewrite Hb by auto.
  destruct (H d Hd) as [H1 H2]. assert (G := half_two s). destruct (Qcltb_spec (nth d l 0 + s * half) (nth d p 0)) as [Hc|Hc].
  - split; qclra.
  - apply Qcnot_lt_le in Hc. split; qclra.
Qed.

Lemma unique : forall n l s p i j, length l = n -> (i < 2 ^ n)%nat -> (j < 2 ^ n)%nat ->
  inS n (child_lo s l i) s p -> inC n (child_lo s l j) s p -> i = j.
Proof.
  intros n l s p i j Hl Hi Hj H1 H2. apply (bits_inj n); auto. intros d Hd.
  destruct (H1 d Hd) as [A1 A2], (H2 d Hd) as [B1 B2]. rewrite !child_lo_nth in * by lia.
  destruct (Nat.testbit i d), (Nat.testbit j d); auto; exfalso.
  - assert (nth d p 0 < nth d p 0) by qclra. now apply Qclt_not_eq in H.
  - assert (nth d p 0 < nth d p 0) by qclra. now apply Qclt_not_eq in H.
Qed.

Lemma child_sub : forall n l s p i, length l = n -> 0 <= s ->
  inC n (child_lo (s * half) l i) (s * half) p -> inC n l s p.
Proof.
  intros n l s p i Hl Hs H d Hd. destruct (H d Hd) as [H1 H2]. rewrite child_lo_nth in * by lia.
  assert (G := half_two s). destruct (Nat.testbit i d); split; qclra.
Qed.

(** Powers of two. *)
Fixpoint pow2 (k : nat) : Qc := match k with O => 1 | S k' => two * pow2 k' end.

Lemma pow2_pos : forall k, 0 < pow2 k.
Proof. induction k; simpl; [reflexivity|]. unfold two. qcnra. Qed.
Lemma pow2_S_half : forall m k, m * pow2 (S k) * half = m * pow2 k.
Proof. intros m k. simpl. unfold two, half. qcnra. Qed.
Lemma pow2_ge : forall k, QcN k + 1 <= pow2 k.
Proof.
  induction k; simpl; [unfold QcN, QcZ; vm_compute; discriminate|]. rewrite QcN_S. assert (H := QcN_nonneg k). unfold two. qcnra.
Qed.
Lemma pow2_S_neq : forall m k, 0 < m -> m * pow2 (S k) <> m.
Proof.
  intros m k Hm H. assert (A := pow2_ge (S k)). rewrite QcN_S in A. assert (B := QcN_nonneg k).
  assert (m < m * pow2 (S k)) by qcnra. rewrite H in H0. now apply Qclt_not_eq in H0.
Qed.

Lemma arch : forall a : Qc, exists N, a <= QcN N.
Proof.
  intros a. exists (Z.to_nat (Qround.Qceiling a)). unfold QcN.
  assert (H := Qround.Qle_ceiling a). unfold Qcle. rewrite QcZ_this. eapply Qle_trans; [exact H|]. rewrite <- Zle_Qle.
  destruct (Z_le_dec 0 (Qround.Qceiling a)); lia.
Qed.

Lemma bound_ex : forall m x, 0 < m -> exists N, forall d, - (m * pow2 N) <= nth d x 0 /\ nth d x 0 <= m * pow2 N.
Proof.
  intros m x Hm.
  assert (E : exists N, forall d, - (m * QcN N) <= nth d x 0 /\ nth d x 0 <= m * QcN N).
  { induction x as [|a x (N & IH)].
    - exists 0%nat. intros [|d]; simpl; rewrite QcN_0; split; qclra.
    - destruct (arch (a / m)) as [N1 H1]. destruct (arch (- a / m)) as [N2 H2].
      exists (N + N1 + N2)%nat. assert (A1 := QcN_nonneg N). assert (A2 := QcN_nonneg N1). assert (A3 := QcN_nonneg N2).
      rewrite !QcN_add. apply Qcdiv_le in H1; auto. apply Qcdiv_le in H2; auto.
      intros [|d]; simpl.
      + split; qcnra.
      + destruct (IH d). split; qcnra. }
  destruct E as [N E]. exists N. intros d. destruct (E d) as [H1 H2]. assert (A := pow2_ge N). assert (B := QcN_nonneg N).
  split; qcnra.
Qed.

(** Cells of the index have their corners on the grid. *)
Definition aligned (m : Qc) (l : pos) : Prop := forall d, (d < length l)%nat -> on_grid m (nth d l 0).

Lemma grid_pow2 : forall m k, on_grid m (m * pow2 k).
Proof.
  intros m. induction k as [|k [z Hz]].
  - exists 1%Z. simpl. change (QcZ 1) with 1. ring.
  - exists (2 * z)%Z. rewrite QcZ_mul. change (QcZ 2) with two. simpl.
    transitivity (two * (m * pow2 k)); [ring|]. rewrite Hz. ring.
Qed.
Lemma grid_add : forall m a b, on_grid m a -> on_grid m b -> on_grid m (a + b).
Proof. intros m a b [x ->] [y ->]. exists (x + y)%Z. rewrite QcZ_add. ring. Qed.
Lemma grid_opp : forall m a, on_grid m a -> on_grid m (- a).
Proof. intros m a [x ->]. exists (- x)%Z. replace (- x)%Z with ((-1) * x)%Z by lia. rewrite QcZ_mul. change (QcZ (-1)) with (-(1)). ring. Qed.

Lemma aligned_child : forall m l k i, aligned m l -> aligned m (child_lo (m * pow2 k) l i).
Proof.
  intros m l k i H d Hd. rewrite child_lo_length in Hd. rewrite child_lo_nth by auto. apply grid_add; auto.
  destruct (Nat.testbit i d).
  - replace (1 * (m * pow2 k)) with (m * pow2 k) by ring. apply grid_pow2.
  - exists 0%Z. change (QcZ 0) with 0. ring.
Qed.

Lemma qle_lt_or_eq : forall a b : Qc, a <= b -> a < b \/ a = b.
Proof. intros a b H. destruct (Qclt_le_dec a b) as [|H']; [auto|right; now apply Qcle_antisym]. Qed.

(** A point of a cell either is off its boundary or has a grid coordinate there. *)
Lemma strict_or_grid : forall m n l k p, length l = n -> aligned m l -> inC n l (m * pow2 k) p ->
  forall d, (d < n)%nat -> on_grid m (nth d p 0) \/ (nth d l 0 < nth d p 0 /\ nth d p 0 < nth d l 0 + m * pow2 k).
Proof.
  intros m n l k p Hl Ha H d Hd. destruct (H d Hd) as [H1 H2].
  destruct (qle_lt_or_eq _ _ H1) as [L1|E1].
  - destruct (qle_lt_or_eq _ _ H2) as [L2|E2]; [auto|]. left. rewrite E2. apply grid_add; [apply Ha; lia|apply grid_pow2].
  - left. rewrite <- E1. apply Ha. lia.
Qed.
