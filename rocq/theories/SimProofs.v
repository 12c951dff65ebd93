(** Proofs about the simulators: schedules, draws, Poisson counts. *)
From Coq Require Import List Arith ZArith QArith Qcanon Lia Reals Lra.
From Verif Require Import Base QcLra SensorModel SensorProofs SimModel SimSpec.
Import ListNotations.

(** * Schedules *)
Local Open Scope Z_scope.

Lemma due_val : forall kMax n c k, 0 <= kMax -> 1 <= n -> due kMax n c k = Val (kMax / n * c <=? k).
Proof.
  intros. unfold due. destruct (n =? 0) eqn:E; [lia|]. rewrite Z.quot_div_nonneg by lia. reflexivity.
Qed.

(** After the steps first..k (k >= first) [made] items exist. *)
Definition made (s first k : Z) : Z :=
  if s =? 0 then k - first + 1 else Z.min (k - first + 1) (k / s + 1).

Lemma made_step : forall s first k, 0 <= s -> 0 <= first <= k ->
  made s first k = made s first (k - 1) + (if s * made s first (k - 1) <=? k then 1 else 0) \/ k = first.
Proof.
  intros s first k Hs Hk. destruct (Z.eq_dec k first) as [->|N]; [right; reflexivity|left].
  unfold made. destruct (Z.eqb_spec s 0) as [->|Hs0].
  - destruct (0 * _ <=? k) eqn:E; lia.
  - assert (S0 : 0 < s) by lia.
    assert (Q : k / s = (k - 1) / s \/ (k / s = (k - 1) / s + 1 /\ k = s * (k / s))).
    { pose proof (Z.div_mod k s ltac:(lia)). pose proof (Z.mod_pos_bound k s S0).
      destruct (Z.eq_dec (k mod s) 0) as [E|E].
      - right. assert ((k - 1) / s = k / s - 1); [|split; lia].
        symmetry. apply (Z.div_unique_pos _ _ _ (s - 1)); lia.
      - left. apply (Z.div_unique_pos _ _ _ (k mod s - 1)); lia. }
    pose proof (Z.div_mod k s ltac:(lia)) as D. pose proof (Z.mod_pos_bound k s S0) as M.
    destruct (Z.leb_spec (s * Z.min (k - 1 - first + 1) ((k - 1) / s + 1)) k) as [L|L].
    + destruct (Z.min_spec (k - 1 - first + 1) ((k - 1) / s + 1)) as [(A & B)|(A & B)]; rewrite B in *.
      * assert (k - 1 - first + 1 <= k / s) by nia. lia.
      * assert ((k - 1) / s + 1 <= k / s) by nia. lia.
    + destruct (Z.min_spec (k - 1 - first + 1) ((k - 1) / s + 1)) as [(A & B)|(A & B)]; rewrite B in *.
      * assert (k / s < k - 1 - first + 1) by nia. lia.
      * assert (k / s < (k - 1) / s + 1) by nia. lia.
Qed.

Lemma made_first : forall s first, 0 <= s -> 0 <= first -> made s first first = 1.
Proof.
  intros. unfold made. destruct (Z.eqb_spec s 0); [lia|].
  pose proof (Z.div_pos first s ltac:(lia) ltac:(lia)). lia.
Qed.

Definition ordered_in (lo hi : Z) (ks : list Z) : Prop :=
  increasing ks /\ (forall k, In k ks -> lo <= k < hi).

Lemma ordered_cons : forall k hi ks, ordered_in (k + 1) hi ks -> k < hi -> ordered_in k hi (k :: ks).
Proof.
  intros k hi ks (I & B) H. split.
  - intros i j a b L Ea Eb. destruct j as [|j]; [lia|]. cbn in Eb. destruct i as [|i].
    + cbn in Ea. injection Ea as <-. apply nth_error_In in Eb. specialize (B _ Eb). lia.
    + cbn in Ea. apply (I i j a b); [lia| |]; assumption.
  - intros x [->|Hx]; [lia|]. specialize (B _ Hx). lia.
Qed.
Lemma ordered_weaken : forall k hi ks, ordered_in (k + 1) hi ks -> ordered_in k hi ks.
Proof. intros k hi ks (I & B). split; [exact I|]. intros x Hx. specialize (B _ Hx). lia. Qed.

Lemma schedule_made : forall kMax n first, 0 <= kMax -> 1 <= n -> 0 <= first -> forall len k c,
  first <= k -> c = (if k =? first then 0 else made (kMax / n) first (k - 1)) ->
  exists ks, schedule kMax n len k c = Val ks /\ ordered_in k (k + Z.of_nat len) ks /\
    c + Z.of_nat (length ks) = (if k + Z.of_nat len =? first then 0 else made (kMax / n) first (k + Z.of_nat len - 1)).
Proof.
  intros kMax n first H0 Hn Hf. assert (Hs : 0 <= kMax / n) by (apply Z.div_pos; lia).
  induction len as [|len IH]; intros k c Hk Ec; cbn [schedule].
  - exists []. split; [reflexivity|]. split.
    + split; [intros i j a b _ E; destruct i; discriminate|intros ? []].
    + replace (k + Z.of_nat 0) with k by lia. cbn [length]. rewrite Ec. lia.
  - rewrite due_val by assumption. cbn [obind].
    assert (St : c + (if kMax / n * c <=? k then 1 else 0) = made (kMax / n) first k).
    { rewrite Ec. destruct (Z.eqb_spec k first) as [->|N].
      - rewrite made_first by assumption. rewrite Z.mul_0_r. destruct (Z.leb_spec 0 first); lia.
      - destruct (made_step (kMax / n) first k Hs ltac:(lia)) as [E|E]; [|contradiction]. rewrite E. reflexivity. }
    assert (Nx : (if k + 1 =? first then 0 else made (kMax / n) first (k + 1 - 1)) = made (kMax / n) first k).
    { destruct (Z.eqb_spec (k + 1) first); [lia|]. f_equal. lia. }
    replace (k + Z.of_nat (S len)) with (k + 1 + Z.of_nat len) by lia.
    destruct (kMax / n * c <=? k).
    + destruct (IH (k + 1) (c + 1) ltac:(lia) ltac:(lia)) as (ks & E & O & L).
      exists (k :: ks). rewrite E. split; [reflexivity|]. split.
      * apply ordered_cons; [exact O|lia].
      * cbn [length]. rewrite <- L. lia.
    + destruct (IH (k + 1) c ltac:(lia) ltac:(lia)) as (ks & E & O & L).
      exists ks. rewrite E. split; [reflexivity|]. split; [apply ordered_weaken; exact O|exact L].
Qed.

(** The number of items made in steps first .. kMax-1. *)
Definition items (first kMax n : Z) : Z :=
  if kMax <=? first then 0
  else if kMax / n =? 0 then kMax - first else Z.min (kMax - first) (1 + (kMax - 1) / (kMax / n)).

Lemma schedule_count : forall first kMax n, 0 <= first -> 0 <= kMax -> 1 <= n ->
  exists ks, schedule kMax n (Z.to_nat (kMax - first)) first 0 = Val ks /\
    ordered_in first (Z.max first kMax) ks /\ Z.of_nat (length ks) = items first kMax n.
Proof.
  intros first kMax n Hf H0 Hn.
  destruct (schedule_made kMax n first H0 Hn Hf (Z.to_nat (kMax - first)) first 0 ltac:(lia)) as (ks & E & O & L).
  { rewrite Z.eqb_refl. reflexivity. }
  exists ks. split; [exact E|]. replace (first + Z.of_nat (Z.to_nat (kMax - first))) with (Z.max first kMax) in * by lia.
  split; [exact O|]. unfold items.
  destruct (Z.leb_spec kMax first) as [A|A].
  - replace (Z.max first kMax) with first in L by lia. rewrite Z.eqb_refl in L. lia.
  - replace (Z.max first kMax) with kMax in L by lia. destruct (Z.eqb_spec kMax first); [lia|].
    unfold made in L. destruct (Z.eqb_spec (kMax / n) 0); lia.
Qed.

(** At least the configured number, at most twice that. *)
Lemma items_bounds : forall first kMax n, 0 <= first -> 1 <= n -> n <= kMax - first ->
  n <= items first kMax n <= 2 * n.
Proof.
  intros first kMax n Hf Hn L. unfold items. destruct (Z.leb_spec kMax first); [lia|].
  assert (S1 : 1 <= kMax / n) by (apply Z.div_le_lower_bound; lia).
  destruct (Z.eqb_spec (kMax / n) 0); [lia|].
  pose proof (Z.div_mod kMax n ltac:(lia)) as D. pose proof (Z.mod_pos_bound kMax n ltac:(lia)) as M.
  set (s := kMax / n) in *.
  pose proof (Z.div_mod (kMax - 1) s ltac:(lia)) as D'. pose proof (Z.mod_pos_bound (kMax - 1) s ltac:(lia)) as M'.
  set (q := (kMax - 1) / s) in *. split.
  - assert (n <= 1 + q) by nia. lia.
  - assert (1 + q <= 2 * n); [|lia]. assert (s * q < n * s + n) by lia.
    destruct (Z_lt_le_dec q (2 * n)); [lia|]. assert (s * (2 * n) <= s * q) by (apply Z.mul_le_mono_nonneg_l; lia). nia.
Qed.

Lemma items_divides : forall first kMax n, 0 <= first -> 1 <= n -> n <= kMax - first -> (n | kMax) -> items first kMax n = n.
Proof.
  intros first kMax n Hf Hn L (s & ->). unfold items. destruct (Z.leb_spec (s * n) first); [lia|].
  rewrite Z.div_mul by lia. assert (1 <= s) by nia. destruct (Z.eqb_spec s 0); [lia|].
  replace ((s * n - 1) / s) with (n - 1); [lia|]. symmetry. symmetry. apply (Z.div_unique_pos _ _ _ (s - 1)); lia.
Qed.

Lemma schedule_zero : forall kMax len k c, len <> O -> schedule kMax 0 len k c = UB DivByZero.
Proof. intros kMax [|len] k c H; [contradiction|reflexivity]. Qed.

(** * Draws *)
Local Close Scope Z_scope.
Local Open Scope Qc_scope.

Lemma draw_above_val : forall rnd lo hi fuel p x q, draw_above rnd fuel p lo hi = Val (x, q) ->
  exists i, (q = S (p + i))%nat /\ (i <= fuel)%nat /\ x = rnd (p + i)%nat * hi /\ lo <= x /\
    forall j, (j < i)%nat -> rnd (p + j)%nat * hi < lo.
Proof.
  intros rnd lo hi. induction fuel as [|fuel IH]; intros p x q; cbn [draw_above];
    destruct (Qcltb (rnd p * hi) lo) eqn:E; intro H; try discriminate.
  1: {
    injection H as <- <-. exists 0%nat. rewrite Nat.add_0_r. split; [reflexivity|]. split; [lia|]. split; [reflexivity|].
    split; [apply Qcltb_false; exact E|intros; lia]. }
  - destruct (IH _ _ _ H) as (i & -> & Hi & -> & L & A). exists (S i).
    replace (p + S i)%nat with (S p + i)%nat by lia. split; [lia|]. split; [lia|]. split; [reflexivity|]. split; [exact L|].
    intros [|j] Hj; [rewrite Nat.add_0_r; apply Qcltb_true; exact E|]. replace (p + S j)%nat with (S p + j)%nat by lia. apply A. lia.
  - injection H as <- <-. exists 0%nat. rewrite Nat.add_0_r. split; [reflexivity|]. split; [lia|]. split; [reflexivity|].
    split; [apply Qcltb_false; exact E|intros; lia].
Qed.

Lemma draw_above_ends : forall rnd lo hi i p, lo <= rnd (p + i)%nat * hi ->
  exists x q, draw_above rnd i p lo hi = Val (x, q).
Proof.
  intros rnd lo hi. induction i as [|i IH]; intros p H; cbn [draw_above];
    destruct (Qcltb (rnd p * hi) lo) eqn:E; eauto.
  - apply Qcltb_true in E. rewrite Nat.add_0_r in H. exfalso. qclra.
  - apply IH. replace (S p + i)%nat with (p + S i)%nat by lia. exact H.
Qed.

Lemma draw_above_stuck : forall rnd lo hi fuel p, (forall i, rnd i * hi < lo) -> draw_above rnd fuel p lo hi = OutOfFuel.
Proof.
  intros rnd lo hi. induction fuel as [|fuel IH]; intros p H; cbn [draw_above];
    (destruct (Qcltb (rnd p * hi) lo) eqn:E; [|apply Qcltb_false in E; specialize (H p); exfalso; qclra]).
  - reflexivity.
  - apply IH. exact H.
Qed.

Lemma unit_mul : forall u h, 0 <= u < 1 -> 0 < h -> 0 <= u * h < h.
Proof. intros u h (A & B) H. split; qcnra. Qed.

Lemma alarm6_val : forall rnd rmin rmax fuel p v q, alarm6 rnd fuel p rmin rmax = Val (v, q) ->
  rmax * rmax <= sqnorm v \/ sqnorm v <= rmin * rmin.
Proof.
  intros rnd rmin rmax. induction fuel as [|fuel IH]; intros p v q; cbn [alarm6];
    destruct (Qcltb (sqnorm (draw3 rnd p rmax)) (rmax * rmax) && Qcltb (rmin * rmin) (sqnorm (draw3 rnd p rmax))) eqn:E;
    intro H; try discriminate; try (apply (IH _ _ _ H));
    injection H as <- <-; apply Bool.andb_false_iff in E; destruct E as [E|E]; apply Qcltb_false in E; auto.
Qed.
Local Close Scope Qc_scope.

(** * Counts of false alarms *)
Local Open Scope R_scope.

Lemma above_R_spec : forall u c, above_R u c = true <-> c < u.
Proof. intros. unfold above_R. destruct (Rlt_dec c u); split; auto; discriminate. Qed.
Lemma above_R_false : forall u c, above_R u c = false <-> u <= c.
Proof. intros. unfold above_R. destruct (Rlt_dec c u); split; intros; try discriminate; try lra; reflexivity. Qed.

Lemma count_val : forall u cmf n, clutter_count above_R u cmf = Val n <->
  (exists c, nth_error cmf n = Some c /\ u <= c) /\ (forall i c, (i < n)%nat -> nth_error cmf i = Some c -> c < u).
Proof.
  intros u cmf. induction cmf as [|c cmf IH]; intro n; cbn [clutter_count].
  - split; [discriminate|]. intros ((c & E & _) & _). destruct n; discriminate.
  - destruct (above_R u c) eqn:E.
    + apply above_R_spec in E. split.
      * intro H. destruct (clutter_count above_R u cmf) as [k|?|] eqn:Ek; cbn in H; try discriminate.
        injection H as <-. destruct (proj1 (IH k) eq_refl) as (A & B). split; [exact A|].
        intros [|i] x Hi Ex; [cbn in Ex; injection Ex as <-; exact E|]. apply (B i x); [lia|exact Ex].
      * intros ((x & Ex & Hx) & B). destruct n as [|n]; [cbn in Ex; injection Ex as <-; lra|].
        rewrite (proj2 (IH n)); [reflexivity|]. split; [exists x; auto|]. intros i y Hi Ey. apply (B (S i) y); [lia|exact Ey].
    + apply above_R_false in E. split.
      * intro H. injection H as <-. split; [exists c; auto|intros; lia].
      * intros ((x & Ex & Hx) & B). destruct n as [|n]; [reflexivity|]. specialize (B 0%nat c ltac:(lia) eq_refl). lra.
Qed.

Lemma count_ub : forall u cmf, (forall c, In c cmf -> c < u) -> clutter_count above_R u cmf = UB OutOfBounds.
Proof.
  intros u cmf. induction cmf as [|c cmf IH]; intro H; cbn [clutter_count]; [reflexivity|].
  rewrite (proj2 (above_R_spec u c)) by (apply H; left; reflexivity). rewrite IH; [reflexivity|]. intros; apply H; right; assumption.
Qed.

Lemma cmf_tail_nth : forall mean n i j, (j < n)%nat ->
  nth_error (cmf_tail mean (exp (- mean)) n i (mean ^ i) (INR (fact i)) (poisson_cdf mean i)) j = Some (poisson_cdf mean (S (i + j))).
Proof.
  intros mean. induction n as [|n IH]; intros i j H; [lia|]. cbn [cmf_tail].
  assert (P : mean ^ i * mean = mean ^ S i) by (simpl; ring).
  assert (F : INR (fact i) * INR (S i) = INR (fact (S i))).
  { rewrite <- mult_INR. f_equal. rewrite fact_simpl. lia. }
  assert (C : poisson_cdf mean i + mean ^ i * mean / (INR (fact i) * INR (S i)) * exp (- mean) = poisson_cdf mean (S i)).
  { rewrite P, F. unfold poisson_cdf. rewrite tech5. reflexivity. }
  rewrite C, P, F. destruct j as [|j]; cbn [nth_error].
  - do 2 f_equal. lia.
  - rewrite IH by lia. do 2 f_equal. lia.
Qed.

Lemma cmf_table_nth : forall mean n, (n < 100)%nat -> nth_error (cmf_table mean) n = Some (poisson_cdf mean n).
Proof.
  intros mean n H. unfold cmf_table.
  assert (E0 : poisson_cdf mean 0 = exp (- mean)).
  { unfold poisson_cdf. cbn [sum_f_R0]. change (fact 0) with 1%nat. change (mean ^ 0) with 1. change (INR 1) with 1. field. }
  destruct n as [|n]; [cbn [nth_error]; rewrite E0; reflexivity|]. cbn [nth_error].
  pose proof (cmf_tail_nth mean 99 0 n ltac:(lia)) as T. rewrite E0 in T.
  change (mean ^ 0) with 1 in T. change (INR (fact 0)) with 1 in T. exact T.
Qed.

Lemma cmf_tail_length : forall mean e n i pw fc c, length (cmf_tail mean e n i pw fc c) = n.
Proof. intros mean e. induction n as [|n IH]; intros; cbn [cmf_tail length]; [reflexivity|]. f_equal. apply IH. Qed.
Lemma cmf_table_length : forall mean, length (cmf_table mean) = 100%nat.
Proof. intro. unfold cmf_table. cbn [length]. rewrite cmf_tail_length. reflexivity. Qed.

Lemma cdf_mono : forall mean i j, 0 <= mean -> (i <= j)%nat -> poisson_cdf mean i <= poisson_cdf mean j.
Proof.
  intros mean i j Hm H. induction H as [|j H IH]; [lra|]. eapply Rle_trans; [exact IH|].
  unfold poisson_cdf. rewrite tech5. set (s := sum_f_R0 _ j).
  enough (0 <= mean ^ S j / INR (fact (S j)) * exp (- mean)) by lra.
  apply Rmult_le_pos; [|left; apply exp_pos]. unfold Rdiv. apply Rmult_le_pos; [apply pow_le; exact Hm|].
  left. apply Rinv_0_lt_compat. apply INR_fact_lt_0.
Qed.

Lemma poisson_count : forall mean u n, 0 <= mean ->
  clutter_count above_R u (cmf_table mean) = Val n <->
  (n < 100)%nat /\ u <= poisson_cdf mean n /\ (forall i, (i < n)%nat -> poisson_cdf mean i < u).
Proof.
  intros mean u n Hm. rewrite count_val. split.
  - intros ((c & E & Hc) & B).
    assert (L : (n < 100)%nat) by (rewrite <- (cmf_table_length mean); apply nth_error_Some; rewrite E; discriminate).
    rewrite cmf_table_nth in E by exact L. injection E as <-. split; [exact L|]. split; [exact Hc|].
    intros i Hi. apply (B i); [exact Hi|]. apply cmf_table_nth. lia.
  - intros (L & Hc & B). split.
    + exists (poisson_cdf mean n). split; [apply cmf_table_nth; exact L|exact Hc].
    + intros i c Hi E. rewrite cmf_table_nth in E by lia. injection E as <-. apply B. exact Hi.
Qed.

Lemma poisson_overrun : forall mean u, 0 <= mean -> poisson_cdf mean 99 < u ->
  clutter_count above_R u (cmf_table mean) = UB OutOfBounds.
Proof.
  intros mean u Hm H. apply count_ub. intros c Hc. apply In_nth_error in Hc. destruct Hc as (i & E).
  assert (L : (i < 100)%nat) by (rewrite <- (cmf_table_length mean); apply nth_error_Some; rewrite E; discriminate).
  rewrite cmf_table_nth in E by exact L. injection E as <-. eapply Rle_lt_trans; [|exact H]. apply cdf_mono; [exact Hm|lia].
Qed.

(** The table reaches only part of the distribution when the mean is large. *)
Lemma partial_exp : forall mean n, 0 <= mean -> sum_f_R0 (fun i => mean ^ i / INR (fact i)) n <= exp mean.
Proof.
  intros mean n Hm. unfold exp. destruct (exist_exp mean) as (l & Hl). cbn.
  assert (C : Un_cv (fun N => sum_f_R0 (fun i => mean ^ i / INR (fact i)) N) l).
  { intros eps He. destruct (Hl eps He) as (N & HN). exists N. intros k Hk. specialize (HN k Hk).
    replace (sum_f_R0 (fun i => mean ^ i / INR (fact i)) k) with (sum_f_R0 (fun i => / INR (fact i) * mean ^ i) k); [exact HN|].
    apply sum_eq. intros. unfold Rdiv. ring. }
  apply sum_incr; [exact C|]. intro k. unfold Rdiv. apply Rmult_le_pos; [apply pow_le; exact Hm|].
  left. apply Rinv_0_lt_compat, INR_fact_lt_0.
Qed.

Lemma large_mean : forall mean, 300 <= mean -> poisson_cdf mean 99 < 1 / 2.
Proof.
  intros mean Hm. assert (M0 : 0 < mean) by lra.
  set (t := fun i => mean ^ i / INR (fact i)).
  assert (Tpos : forall i, 0 < t i).
  { intro i. unfold t, Rdiv. apply Rmult_lt_0_compat; [apply pow_lt; exact M0|]. apply Rinv_0_lt_compat, INR_fact_lt_0. }
  assert (Step : forall i, (i < 100)%nat -> 3 * t i <= t (S i)).
  { intros i Hi. assert (E : t (S i) = t i * (mean / INR (S i))).
    { unfold t. rewrite fact_simpl, mult_INR. simpl (mean ^ S i). field. split; [apply not_0_INR; lia|apply INR_fact_neq_0]. }
    rewrite E. rewrite (Rmult_comm 3). apply Rmult_le_compat_l; [left; apply Tpos|].
    assert (P : 0 < INR (S i)) by (apply lt_0_INR; lia).
    assert (B : INR (S i) <= 100). { replace 100 with (INR 100) by (rewrite INR_IZR_INZ; reflexivity). apply le_INR. lia. }
    apply (Rmult_le_reg_r (INR (S i))); [exact P|]. unfold Rdiv. rewrite Rmult_assoc, Rinv_l by lra. lra. }
  assert (Sum : forall i, (i <= 99)%nat -> sum_f_R0 t i <= 3 / 2 * t i).
  { induction i as [|i IH]; intro Hi; [simpl; specialize (Tpos 0%nat); lra|].
    rewrite tech5. specialize (IH ltac:(lia)). specialize (Step i ltac:(lia)). lra. }
  pose proof (partial_exp mean 100 ltac:(lra)) as PE. fold t in PE.
  change 100%nat with (S 99) in PE. rewrite tech5 in PE.
  specialize (Sum 99%nat ltac:(lia)). specialize (Step 99%nat ltac:(lia)). pose proof (Tpos 99%nat) as P99.
  assert (S3 : 3 * sum_f_R0 t 99 <= exp mean) by lra.
  unfold poisson_cdf. rewrite <- scal_sum. fold t. rewrite exp_Ropp. pose proof (exp_pos mean) as EP.
  apply (Rmult_lt_reg_l (exp mean)); [exact EP|]. rewrite <- Rmult_assoc, Rinv_r, Rmult_1_l by lra.
  assert (0 < sum_f_R0 t 99). { apply tech1. intros; apply Tpos. } lra.
Qed.
