(** Proofs about binary descriptors. *)
From Coq Require Import ZArith List Bool QArith Qcanon Lia Arith Permutation.
From Verif Require Import QcLra PermanentSpec PermanentProofs OrbModel OrbSpec.
Import ListNotations.

Lemma bitwise_length : forall f a b, length a = length b -> length (bitwise f a b) = length a.
Proof. intros f a. induction a as [|x a IH]; intros [|y b] H; cbn in *; try lia. rewrite IH; lia. Qed.
Lemma bitwise_nth : forall f a b i, length a = length b -> (i < length a)%nat ->
  nth i (bitwise f a b) false = f (nth i a false) (nth i b false).
Proof.
  intros f a. induction a as [|x a IH]; intros [|y b] i H L; cbn in *; try lia. destruct i; [reflexivity|]. apply IH; lia.
Qed.
Lemma count_filter : forall d, count d = length (filter (fun i => nth i d false) (seq 0 (length d))).
Proof.
  induction d as [|x d IH]; [reflexivity|].
  assert (E : length (filter (fun i => nth i (x :: d) false) (map S (seq 0 (length d)))) = count d).
  { rewrite IH. generalize (seq 0 (length d)) as l. induction l as [|i l IHl]; [reflexivity|]. cbn [map filter nth].
    destruct (nth i d false); cbn [length]; rewrite <- IHl; reflexivity. }
  change (seq 0 (length (x :: d))) with (0%nat :: seq 1 (length d)). rewrite <- seq_shift.
  change (count (x :: d) = length (if x then 0%nat :: filter (fun i => nth i (x :: d) false) (map S (seq 0 (length d)))
                                   else filter (fun i => nth i (x :: d) false) (map S (seq 0 (length d))))).
  destruct x; cbn [count length]; rewrite E; reflexivity.
Qed.
(** * Distance *)
Lemma distance_differs : forall a b, descriptor a -> descriptor b -> distance a b = differs a b.
Proof.
  intros a b A B. unfold distance, differs. unfold descriptor in *. rewrite count_filter, bitwise_length by congruence. rewrite A.
  f_equal. apply filter_ext_in. intros i Hi. apply in_seq in Hi. rewrite bitwise_nth by (rewrite ?A, ?B; lia || reflexivity).
  destruct (nth i a false), (nth i b false); reflexivity.
Qed.

Lemma count_le : forall d, (count d <= length d)%nat.
Proof. induction d as [|[] d IH]; cbn; lia. Qed.
Lemma distance_le : forall a b, descriptor a -> descriptor b -> (distance a b <= 256)%nat.
Proof.
  intros a b A B. unfold distance, descriptor in *. rewrite <- A. rewrite <- (bitwise_length xorb a b) by congruence. apply count_le.
Qed.
Lemma distance_zero : forall a b, length a = length b -> (distance a b = 0%nat <-> a = b).
Proof.
  unfold distance. induction a as [|x a IH]; intros [|y b] H; cbn in H; try lia; [split; reflexivity|].
  cbn [bitwise]. destruct (IH b ltac:(lia)) as (F & G). destruct x, y; cbn [xorb count].
  - split; [intro E; rewrite (F E); reflexivity|intro E; injection E as E; apply G; exact E].
  - split; [intro; lia|discriminate].
  - split; [intro; lia|discriminate].
  - split; [intro E; rewrite (F E); reflexivity|intro E; injection E as E; apply G; exact E].
Qed.
Lemma distance_sym : forall a b, distance a b = distance b a.
Proof. unfold distance. induction a as [|x a IH]; intros [|y b]; try reflexivity. cbn [bitwise]. destruct x, y; cbn [xorb count]; rewrite IH; reflexivity. Qed.
Lemma distance_triangle : forall a b c, length a = length b -> length b = length c ->
  (distance a c <= distance a b + distance b c)%nat.
Proof.
  unfold distance. induction a as [|x a IH]; intros [|y b] [|z c] H H'; cbn in H, H'; try lia; try (cbn; lia).
  cbn [bitwise]. specialize (IH b c ltac:(lia) ltac:(lia)). destruct x, y, z; cbn [xorb count]; lia.
Qed.

(** * Bits of a random descriptor *)
Lemma of_long_length : forall v, length (of_long v) = 256%nat.
Proof. intro v. unfold of_long. rewrite map_length, seq_length. reflexivity. Qed.
Lemma of_long_nth : forall v i, (i < 256)%nat -> nth i (of_long v) false = Z.testbit v (Z.of_nat i).
Proof.
  intros v i H. unfold of_long. rewrite nth_indep with (d' := Z.testbit v (Z.of_nat 0)) by (rewrite map_length, seq_length; exact H).
  rewrite (map_nth (fun i => Z.testbit v (Z.of_nat i))). rewrite seq_nth by exact H. reflexivity.
Qed.
Lemma shl_length : forall d, length d = 256%nat -> length (shl 32 d) = 256%nat.
Proof. intros d H. unfold shl. rewrite firstn_length, app_length, repeat_length, H. reflexivity. Qed.
Lemma nth_firstn' : forall (d : list bool) n i, (i < n)%nat -> nth i (firstn n d) false = nth i d false.
Proof. induction d as [|x d IH]; intros [|n] [|i] H; try reflexivity; try lia. cbn. apply IH. lia. Qed.
Lemma shl_nth : forall d i, length d = 256%nat -> (i < 256)%nat ->
  nth i (shl 32 d) false = if (i <? 32)%nat then false else nth (i - 32) d false.
Proof.
  intros d i H L. unfold shl. rewrite nth_firstn' by exact L. destruct (Nat.ltb_spec i 32) as [B|B].
  - rewrite app_nth1 by (rewrite repeat_length; exact B). apply nth_repeat.
  - rewrite app_nth2 by (rewrite repeat_length; exact B). rewrite repeat_length. reflexivity.
Qed.

Lemma fill_spec : forall s n k m d, length d = 256%nat -> (m + n <= 7)%nat ->
  (forall j i, (j <= m)%nat -> (i < 32)%nat -> nth (32 * j + i) d false = Z.testbit (s (k - 1 - j)%nat) (Z.of_nat i)) ->
  (forall p, (32 * S m <= p < 256)%nat -> nth p d false = false) -> (m < k)%nat -> (forall v, 0 <= s v < 2 ^ 31)%Z ->
  length (fill s n k d) = 256%nat /\
  forall j i, (j <= m + n)%nat -> (i < 32)%nat -> nth (32 * j + i) (fill s n k d) false = Z.testbit (s (k + n - 1 - j)%nat) (Z.of_nat i).
Proof.
  intros s n. induction n as [|n IH]; intros k m d L B H Z0 K R.
  - cbn [fill]. split; [exact L|]. intros j i J I. rewrite Nat.add_0_r. apply H; lia.
  - cbn [fill]. destruct (IH (S k) (S m) (bitwise orb (shl 32 d) (of_long (s k)))) as (A & E); try lia.
    + rewrite bitwise_length; rewrite shl_length by exact L; [reflexivity|rewrite of_long_length; reflexivity].
    + intros j i J I. rewrite bitwise_nth by (rewrite ?shl_length, ?of_long_length by exact L; lia).
      rewrite shl_nth by (exact L || lia). rewrite of_long_nth by lia. destruct (Nat.ltb_spec (32 * j + i) 32) as [C|C].
      * assert (j = 0)%nat by lia. subst j. replace (S k - 1 - 0)%nat with k by lia. replace (32 * 0 + i)%nat with i by lia. reflexivity.
      * assert (X : Z.testbit (s k) (Z.of_nat (32 * j + i)) = false).
        { destruct (Z.eq_dec (s k) 0) as [->|N]; [apply Z.testbit_0_l|]. apply Z.bits_above_log2; [apply (R k)|].
          apply Z.log2_lt_pow2; [pose proof (R k); lia|]. pose proof (R k). apply Z.lt_le_trans with (2 ^ 31)%Z; [lia|].
          apply Z.pow_le_mono_r; lia. }
        rewrite X, orb_false_r. destruct j as [|j]; [lia|]. replace (32 * S j + i - 32)%nat with (32 * j + i)%nat by lia.
        rewrite H by lia. f_equal. f_equal. lia.
    + intros p P. rewrite bitwise_nth by (rewrite ?shl_length, ?of_long_length by exact L; lia).
      rewrite shl_nth by (exact L || lia). rewrite of_long_nth by lia. destruct (Nat.ltb_spec p 32); [lia|].
      rewrite Z0 by lia. cbn [orb]. destruct (Z.eq_dec (s k) 0) as [->|N]; [apply Z.testbit_0_l|]. apply Z.bits_above_log2; [apply (R k)|].
      apply Z.log2_lt_pow2; [pose proof (R k); lia|]. pose proof (R k). apply Z.lt_le_trans with (2 ^ 31)%Z; [lia|].
      apply Z.pow_le_mono_r; lia.
    + exact R.
    + split; [exact A|]. intros j i J I. rewrite E by lia. f_equal. f_equal. lia.
Qed.

Lemma small_high : forall v i, (0 <= v < 2 ^ 31)%Z -> (31 <= i)%Z -> Z.testbit v i = false.
Proof.
  intros v i R I. destruct (Z.eq_dec v 0) as [->|N]; [apply Z.testbit_0_l|]. apply Z.bits_above_log2; [lia|].
  apply Z.log2_lt_pow2; [lia|]. apply Z.lt_le_trans with (2 ^ 31)%Z; [lia|]. apply Z.pow_le_mono_r; lia.
Qed.

(** Bit 32 j + i is bit i of the draw 7 - j. *)
Lemma random_bits : forall s k, (forall v, 0 <= s v < 2 ^ 31)%Z -> descriptor (random s k) /\
  forall j i, (j < 8)%nat -> (i < 32)%nat -> nth (32 * j + i) (random s k) false = Z.testbit (s (k + 7 - j)%nat) (Z.of_nat i).
Proof.
  intros s k R. unfold random, descriptor. destruct (fill_spec s 7 (S k) 0 (of_long (s k))) as (A & B).
  - apply of_long_length.
  - lia.
  - intros j i J I. assert (j = 0)%nat by lia. subst j. rewrite of_long_nth by lia. replace (S k - 1 - 0)%nat with k by lia. replace (32 * 0 + i)%nat with i by lia. reflexivity.
  - intros p P. rewrite of_long_nth by lia. apply small_high; [apply R|lia].
  - lia.
  - exact R.
  - split; [exact A|]. intros j i J I. rewrite B by lia. f_equal. f_equal. lia.
Qed.

(** A sampled bit is flipped iff the three draws agree on a one. *)
Lemma sample_bits : forall s k d, (forall v, 0 <= s v < 2 ^ 31)%Z -> descriptor d -> descriptor (sample s k d) /\
  forall j i, (j < 8)%nat -> (i < 32)%nat -> nth (32 * j + i) (sample s k d) false =
    xorb (nth (32 * j + i) d false) (Z.testbit (s (k + 7 - j)%nat) (Z.of_nat i) && Z.testbit (s (k + 15 - j)%nat) (Z.of_nat i) &&
      Z.testbit (s (k + 23 - j)%nat) (Z.of_nat i)).
Proof.
  intros s k d R D. destruct (random_bits s k R) as (A1 & B1). destruct (random_bits s (k + 8) R) as (A2 & B2).
  destruct (random_bits s (k + 16) R) as (A3 & B3). unfold sample, descriptor in *. cbv zeta.
  assert (L2 : length (bitwise andb (random s k) (random s (k + 8))) = 256%nat) by (rewrite bitwise_length; congruence).
  assert (L3 : length (bitwise andb (bitwise andb (random s k) (random s (k + 8))) (random s (k + 16))) = 256%nat) by (rewrite bitwise_length; congruence).
  split; [rewrite bitwise_length; congruence|]. intros j i J I.
  rewrite bitwise_nth by (rewrite ?D, ?L3; lia || reflexivity). rewrite bitwise_nth by (rewrite ?L2, ?A3; lia || reflexivity).
  rewrite bitwise_nth by (rewrite ?A1, ?A2; lia || reflexivity). rewrite B1, B2, B3 by lia.
  replace (k + 8 + 7 - j)%nat with (k + 15 - j)%nat by lia. replace (k + 16 + 7 - j)%nat with (k + 23 - j)%nat by lia. reflexivity.
Qed.

Lemma random_gaps : forall s k j, (forall v, 0 <= s v < 2 ^ 31)%Z -> (j < 8)%nat -> nth (32 * j + 31) (random s k) false = false.
Proof. intros s k j R J. destruct (random_bits s k R) as (_ & B). rewrite B by lia. apply small_high; [apply R|lia]. Qed.
Lemma sample_gaps : forall s k d j, (forall v, 0 <= s v < 2 ^ 31)%Z -> descriptor d -> (j < 8)%nat ->
  nth (32 * j + 31) (sample s k d) false = nth (32 * j + 31) d false.
Proof.
  intros s k d j R D J. destruct (sample_bits s k d R D) as (_ & B). rewrite B by lia.
  rewrite (small_high (s (k + 7 - j)%nat)) by (apply R || lia). cbn [andb]. apply xorb_false_r.
Qed.

(** * Likelihoods *)
Local Open Scope Qc_scope.
Lemma pow_add : forall (x : Qc) m n, x ^ (m + n) = x ^ m * x ^ n.
Proof. induction m as [|m IH]; intro n; cbn [Nat.add Qcpower]; [ring|]. rewrite IH. ring. Qed.
Lemma pow_mul : forall (x y : Qc) n, (x * y) ^ n = x ^ n * y ^ n.
Proof. induction n as [|n IH]; cbn [Qcpower]; [ring|]. rewrite IH. ring. Qed.
Lemma pow_pos : forall (x : Qc) n, 0 < x -> 0 < x ^ n.
Proof. intros x n H. induction n as [|n IH]; cbn [Qcpower]; [reflexivity|]. qcnra. Qed.

Definition pflip : Qc := Q2Qc (10 # 21).
Lemma base_val : (1 / c210) / (1 - 1 / c210) = Q2Qc (10 # 11).
Proof. apply Qc_is_canon. vm_compute. reflexivity. Qed.
Lemma odds_val : Q2Qc (10 # 11) = pflip * (1 / (1 - pflip)).
Proof. apply Qc_is_canon. vm_compute. reflexivity. Qed.
Lemma fa_val : 1 / c2 / (1 - 1 / c210) = Q2Qc (1 # 2) * (1 / (1 - pflip)).
Proof. apply Qc_is_canon. vm_compute. reflexivity. Qed.
Lemma inv_q : (1 / (1 - pflip)) * (1 - pflip) = 1.
Proof. apply Qc_is_canon. vm_compute. reflexivity. Qed.

Definition kfac : Qc := (1 / (1 - pflip)) ^ 256 * (1 / c11) ^ 32.
Lemma kfac_pos : 0 < kfac.
Proof.
  unfold kfac. assert (0 < (1 / (1 - pflip)) ^ 256) by (apply pow_pos; reflexivity).
  assert (0 < (1 / c11) ^ 32) by (apply pow_pos; reflexivity). qcnra.
Qed.

(** Likelihood and false alarms are the channel and the uniform distribution up to one factor. *)
Lemma likelihood_channel : forall a b, descriptor a -> descriptor b -> likelihood a b = kfac * channel pflip a b.
Proof.
  intros a b A B. unfold likelihood, channel, kfac. rewrite base_val, odds_val, pow_mul, <- distance_differs by assumption.
  pose proof (distance_le a b A B) as L. set (d := distance a b) in *. set (r := 1 / (1 - pflip)). set (q := 1 - pflip).
  replace 256%nat with (d + (256 - d))%nat at 1 by lia. rewrite pow_add.
  assert (E : r ^ (256 - d) * q ^ (256 - d) = 1).
  { rewrite <- pow_mul. unfold r, q. rewrite inv_q. generalize (256 - d)%nat as n. induction n as [|n IH]; cbn [Qcpower]; [reflexivity|].
    rewrite IH. ring. }
  transitivity (pflip ^ d * r ^ d * (1 / c11) ^ 32 * (r ^ (256 - d) * q ^ (256 - d))); [rewrite E; ring|ring].
Qed.
Lemma false_alarm_uniform : false_alarm = kfac * uniform.
Proof. unfold false_alarm, kfac, uniform. rewrite fa_val, pow_mul. ring. Qed.

Lemma likelihood_sym : forall a b, likelihood a b = likelihood b a.
Proof. intros. unfold likelihood. rewrite distance_sym. reflexivity. Qed.
Lemma pow_lt : forall (x : Qc) m n, 0 < x -> x < 1 -> (m < n)%nat -> x ^ n < x ^ m.
Proof.
  intros x m n P L H. induction H as [|n H IH]; cbn [Qcpower].
  - pose proof (pow_pos x m P). qcnra.
  - pose proof (pow_pos x n P). qcnra.
Qed.
Lemma likelihood_decreasing : forall a b c d, likelihood a b < likelihood c d <-> (distance c d < distance a b)%nat.
Proof.
  intros a b c d. unfold likelihood. rewrite base_val. set (x := Q2Qc (10 # 11)). set (m := distance c d). set (n := distance a b).
  assert (K : 0 < (1 / c11) ^ 32) by (apply pow_pos; reflexivity).
  assert (X : 0 < x) by reflexivity. assert (X1 : x < 1) by reflexivity.
  destruct (lt_eq_lt_dec m n) as [[L|E]|L].
  - split; [intros _; exact L|]. intros _. pose proof (pow_lt x m n X X1 L). qcnra.
  - rewrite E. split; [intro H; exfalso; apply (Qclt_not_eq _ _ H); reflexivity|lia].
  - split; [|lia]. intro H. exfalso. pose proof (pow_lt x n m X X1 L). qcnra.
Qed.
