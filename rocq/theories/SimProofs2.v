(** Proofs about the simulators: new landmarks, exported measurements, detections, delivery of
    measurements, trajectories. *)
From Coq Require Import List Arith ZArith QArith Qcanon Lia Reals Lra Bool.
From Verif Require Import Base QcLra SensorModel SensorProofs SimModel SimSpec SimProofs.
Import ListNotations.

(** * New landmarks, exported measurements *)
Local Open Scope R_scope.

Lemma landmark_rb_dist : forall p r u Rn, 0 <= r -> dist2 (new_landmark_rb p r u Rn) (p_x p, p_y p) = r.
Proof.
  intros p r u Rn Hr. unfold new_landmark_rb, inverse_rb, dist2. cbn [fst snd]. set (a := p_t p + _).
  replace ((p_x p + r * cos a - p_x p) ^ 2 + (p_y p + r * sin a - p_y p) ^ 2) with (r ^ 2 * ((sin a)² + (cos a)²)) by (unfold Rsqr; ring).
  rewrite sin2_cos2, Rmult_1_r. rewrite <- Rsqr_pow2. apply sqrt_Rsqr. exact Hr.
Qed.

Lemma landmark_xy_dist : forall p r u Rn, dist2 (new_landmark_xy p r u Rn) (p_x p, p_y p) = sqrt (r ^ 2 + (u * 2 * PI) ^ 2).
Proof.
  intros p r u Rn. unfold new_landmark_xy, inverse_xy, dist2. cbn [fst snd]. f_equal. set (b := u * 2 * PI). set (t := p_t p).
  replace ((p_x p + cos t * r - sin t * b - p_x p) ^ 2 + (p_y p + sin t * r + cos t * b - p_y p) ^ 2)
    with ((r ^ 2 + b ^ 2) * ((sin t)² + (cos t)²)) by (unfold Rsqr; ring).
  rewrite sin2_cos2. ring.
Qed.

Lemma exported_xy : forall x y, 0 < x ^ 2 + y ^ 2 ->
  0 <= fst (exported (x, y)) /\ - PI < snd (exported (x, y)) <= PI /\
  x = fst (exported (x, y)) * cos (snd (exported (x, y))) /\ y = fst (exported (x, y)) * sin (snd (exported (x, y))).
Proof.
  intros x y H. unfold exported. cbn [fst snd]. replace (x * x + y * y) with (x ^ 2 + y ^ 2) by ring.
  destruct (atan2_spec y x H) as (A & B & C). split; [apply sqrt_pos|]. split; [exact C|]. split; symmetry; assumption.
Qed.

Lemma exported_rb : forall r b, 0 < r -> exported (r, b) = (r, b) <-> b = 0.
Proof.
  intros r b Hr. unfold exported. cbn [fst snd]. split.
  - intro H. injection H as H1 _. apply (f_equal (fun x => x * x)) in H1. rewrite sqrt_sqrt in H1 by nra. nra.
  - intros ->. rewrite Rmult_0_l, Rplus_0_r. rewrite sqrt_square by lra. unfold atan2. destruct (Rlt_dec 0 r); [|contradiction].
    unfold Rdiv. rewrite Rmult_0_l, atan_0. reflexivity.
Qed.
Local Close Scope R_scope.

(** * Detections *)
Local Open Scope Z_scope.
Section Detect.
Variables seen kept : Z -> nat -> bool.

Lemma nth_combine_seq : forall {A : Type} (l : list A) m x, nth_error l m = Some x ->
  nth_error (combine (seq 0 (length l)) l) m = Some (m, x).
Proof.
  intros A l. assert (G : forall s m x, nth_error l m = Some x -> nth_error (combine (seq s (length l)) l) m = Some ((s + m)%nat, x)).
  { induction l as [|y l IH]; intros s m x H; [destruct m; discriminate|]. cbn [length seq combine]. destruct m as [|m]; cbn [nth_error] in *.
    - injection H as <-. rewrite Nat.add_0_r. reflexivity.
    - rewrite (IH (S s) m x H). do 2 f_equal. lia. }
  intros m x H. exact (G 0%nat m x H).
Qed.

Lemma detect_step_first : forall t k first m f, nth_error first m = Some f ->
  nth_error (snd (detect_step seen kept t k first)) m = Some (if seen k m && (f =? -1) then t else f).
Proof.
  intros t k first m f H. cbn [detect_step snd]. rewrite nth_error_map, (nth_combine_seq _ _ _ H). reflexivity.
Qed.
Lemma detect_step_length : forall t k first, length (snd (detect_step seen kept t k first)) = length first.
Proof. intros. cbn [detect_step snd]. rewrite map_length, combine_length, seq_length. lia. Qed.
Lemma detect_step_in : forall t k first t' m, In (t', m) (fst (detect_step seen kept t k first)) <->
  t' = t /\ (m < length first)%nat /\ seen k m = true /\ kept k m = true.
Proof.
  intros t k first t' m. cbn [detect_step fst]. rewrite in_flat_map. split.
  - intros (x & Hx & H). apply in_seq in Hx. destruct (seen k x && kept k x) eqn:E; [|destruct H].
    destruct H as [H|[]]. injection H as <- <-. apply andb_true_iff in E. destruct E. repeat split; auto; lia.
  - intros (-> & L & A & B). exists m. split; [apply in_seq; lia|]. rewrite A, B. left. reflexivity.
Qed.

Lemma detect_length : forall dT len k t first, length (snd (detect seen kept dT len k t first)) = length first.
Proof.
  intros dT. induction len as [|len IH]; intros k t first; cbn [detect]; [reflexivity|].
  destruct (detect_step seen kept (t + dT) k first) as (zs, f1) eqn:E1.
  destruct (detect seen kept dT len (k + 1) (t + dT) f1) as (zs', f2) eqn:E2. cbn [snd].
  specialize (IH (k + 1) (t + dT) f1). rewrite E2 in IH. cbn [snd] in IH. rewrite IH.
  pose proof (detect_step_length (t + dT) k first) as L. rewrite E1 in L. exact L.
Qed.

Lemma detect_in : forall dT len k t first t' m, In (t', m) (fst (detect seen kept dT len k t first)) <->
  exists i, 0 <= i < Z.of_nat len /\ t' = t + (i + 1) * dT /\ (m < length first)%nat /\ seen (k + i) m = true /\ kept (k + i) m = true.
Proof.
  intros dT. induction len as [|len IH]; intros k t first t' m; cbn [detect].
  - cbn [fst]. split; [intros []|intros (i & H & _); lia].
  - destruct (detect_step seen kept (t + dT) k first) as (zs, f1) eqn:E1.
    destruct (detect seen kept dT len (k + 1) (t + dT) f1) as (zs', f2) eqn:E2. cbn [fst]. rewrite in_app_iff.
    pose proof (detect_step_in (t + dT) k first t' m) as S1. rewrite E1 in S1. cbn [fst] in S1.
    specialize (IH (k + 1) (t + dT) f1 t' m). rewrite E2 in IH. cbn [fst] in IH.
    pose proof (detect_step_length (t + dT) k first) as L. rewrite E1 in L. cbn [snd] in L. rewrite S1, IH, L. split.
    + intros [(A & B & C & D)|(i & Hi & A & B & C & D)].
      * exists 0. replace (k + 0) with k by lia. repeat split; auto; lia.
      * exists (i + 1). replace (k + (i + 1)) with (k + 1 + i) by lia. repeat split; auto; lia.
    + intros (i & Hi & A & B & C & D). destruct (Z.eq_dec i 0) as [->|N].
      * left. replace (k + 0) with k in * by lia. repeat split; auto; lia.
      * right. exists (i - 1). replace (k + 1 + (i - 1)) with (k + i) by lia. repeat split; auto; lia.
Qed.

(** A first-observation time already set stays. *)
Lemma detect_kept : forall dT len k t first m f, nth_error first m = Some f -> f <> -1 ->
  nth_error (snd (detect seen kept dT len k t first)) m = Some f.
Proof.
  intros dT. induction len as [|len IH]; intros k t first m f H N; cbn [detect]; [exact H|].
  pose proof (detect_step_first (t + dT) k first m f H) as S1.
  destruct (detect_step seen kept (t + dT) k first) as (zs, f1). cbn [snd] in S1.
  replace (if seen k m && (f =? -1) then t + dT else f) with f in S1
    by (destruct (Z.eqb_spec f (-1)); [contradiction|rewrite andb_false_r; reflexivity]).
  specialize (IH (k + 1) (t + dT) f1 m f S1 N). destruct (detect seen kept dT len (k + 1) (t + dT) f1) as (zs', f2). exact IH.
Qed.

Lemma detect_first : forall dT len k t first m, nth_error first m = Some (-1) -> 0 <= t -> 0 < dT ->
  (forall i, 0 <= i < Z.of_nat len -> seen (k + i) m = true -> (forall j, 0 <= j < i -> seen (k + j) m = false) ->
     nth_error (snd (detect seen kept dT len k t first)) m = Some (t + (i + 1) * dT)) /\
  ((forall i, 0 <= i < Z.of_nat len -> seen (k + i) m = false) -> nth_error (snd (detect seen kept dT len k t first)) m = Some (-1)).
Proof.
  intros dT. induction len as [|len IH]; intros k t first m H Ht HdT; cbn [detect].
  - split; [intros; lia|intros _; exact H].
  - pose proof (detect_step_first (t + dT) k first m (-1) H) as S1.
    destruct (detect_step seen kept (t + dT) k first) as (zs, f1). cbn [snd] in S1. rewrite Z.eqb_refl, andb_true_r in S1.
    destruct (seen k m) eqn:Sk.
    + pose proof (detect_kept dT len (k + 1) (t + dT) f1 m (t + dT) S1 ltac:(lia)) as K.
      destruct (detect seen kept dT len (k + 1) (t + dT) f1) as (zs', f2). cbn [snd] in *. split.
      * intros i Hi _ B. destruct (Z.eq_dec i 0) as [->|N]; [rewrite K; f_equal; lia|].
        specialize (B 0 ltac:(lia)). replace (k + 0) with k in B by lia. congruence.
      * intro B. specialize (B 0 ltac:(lia)). replace (k + 0) with k in B by lia. congruence.
    + destruct (IH (k + 1) (t + dT) f1 m S1 ltac:(lia) HdT) as (I1 & I2).
      destruct (detect seen kept dT len (k + 1) (t + dT) f1) as (zs', f2). cbn [snd] in *. split.
      * intros i Hi A B. destruct (Z.eq_dec i 0) as [->|N]; [replace (k + 0) with k in A by lia; congruence|].
        rewrite (I1 (i - 1)); [f_equal; lia|lia| |].
        -- replace (k + 1 + (i - 1)) with (k + i) by lia. exact A.
        -- intros j Hj. replace (k + 1 + j) with (k + (j + 1)) by lia. apply B. lia.
      * intro B. apply I2. intros i Hi. replace (k + 1 + i) with (k + (i + 1)) by lia. apply B. lia.
Qed.

Lemma detections_in : forall kMax dT nLm t m, In (t, m) (fst (detections seen kept kMax dT nLm)) <->
  exists k, 1 <= k < kMax /\ t = k * dT /\ (m < nLm)%nat /\ seen k m = true /\ kept k m = true.
Proof.
  intros kMax dT nLm t m. unfold detections. rewrite detect_in, repeat_length. split.
  - intros (i & H & -> & L & A & B). exists (1 + i). repeat split; auto; lia.
  - intros (k & H & -> & L & A & B). exists (k - 1). replace (1 + (k - 1)) with k by lia. repeat split; auto; lia.
Qed.

Lemma nth_repeat : forall (A : Type) (x : A) n m, (m < n)%nat -> nth_error (repeat x n) m = Some x.
Proof. induction n as [|n IH]; intros [|m] H; try lia; cbn; [reflexivity|apply IH; lia]. Qed.

Lemma detections_first : forall kMax dT nLm m, (m < nLm)%nat -> 0 < dT ->
  (forall k, 1 <= k < kMax -> seen k m = true -> (forall j, 1 <= j < k -> seen j m = false) ->
     nth_error (snd (detections seen kept kMax dT nLm)) m = Some (k * dT)) /\
  ((forall k, 1 <= k < kMax -> seen k m = false) -> nth_error (snd (detections seen kept kMax dT nLm)) m = Some (-1)).
Proof.
  intros kMax dT nLm m Hm HdT. unfold detections.
  destruct (detect_first dT (Z.to_nat (kMax - 1)) 1 0 (repeat (-1) nLm) m (nth_repeat _ _ _ _ Hm) ltac:(lia) HdT) as (A & B). split.
  - intros k Hk S1 Hj. rewrite (A (k - 1)); [f_equal; lia|lia| |].
    + replace (1 + (k - 1)) with k by lia. exact S1.
    + intros j H. apply Hj. lia.
  - intro H. apply B. intros i Hi. apply H. lia.
Qed.

(** The first step of [len] steps from [k] with property [P], if any. *)
Lemma first_step : forall (P : Z -> bool) len k, (exists i, k <= i < k + Z.of_nat len /\ P i = true /\ forall j, k <= j < i -> P j = false)
  \/ (forall i, k <= i < k + Z.of_nat len -> P i = false).
Proof.
  intros P. induction len as [|len IH]; intro k; [right; intros; lia|]. destruct (P k) eqn:E.
  - left. exists k. repeat split; auto; lia.
  - destruct (IH (k + 1)) as [(i & Hi & A & B)|B].
    + left. exists i. split; [lia|]. split; [exact A|]. intros j Hj. destruct (Z.eq_dec j k) as [->|]; [exact E|apply B; lia].
    + right. intros i Hi. destruct (Z.eq_dec i k) as [->|]; [exact E|apply B; lia].
Qed.

Lemma detections_length : forall kMax dT nLm, length (snd (detections seen kept kMax dT nLm)) = nLm.
Proof. intros. unfold detections. rewrite detect_length, repeat_length. reflexivity. Qed.

(** When every landmark in range is measured the table is right. *)
Lemma first_right : forall kMax dT nLm m f, (m < nLm)%nat -> 0 < dT ->
  (forall k, 1 <= k < kMax -> seen k m = true -> kept k m = true) ->
  nth_error (snd (detections seen kept kMax dT nLm)) m = Some f ->
  (f = -1 /\ never_measured (fst (detections seen kept kMax dT nLm)) m) \/ first_measured (fst (detections seen kept kMax dT nLm)) m f.
Proof.
  intros kMax dT nLm m f Hm HdT K E. destruct (detections_first kMax dT nLm m Hm HdT) as (A & B).
  destruct (first_step (fun k => seen k m) (Z.to_nat (kMax - 1)) 1) as [(k & Hk & S1 & Hj)|N].
  - rewrite (A k ltac:(lia) S1) in E by (intros; apply Hj; lia). injection E as <-. right. split.
    + apply detections_in. exists k. repeat split; auto; try lia. apply K; auto; lia.
    + intros t H. apply detections_in in H. destruct H as (k' & Hk' & -> & _ & S' & _).
      destruct (Z_lt_le_dec k' k) as [L|L]; [rewrite (Hj k') in S' by lia; discriminate|]. nia.
  - rewrite B in E by (intros; apply N; lia). injection E as <-. left. split; [reflexivity|].
    intros t H. apply detections_in in H. destruct H as (k' & Hk' & -> & _ & S' & _). rewrite (N k') in S' by lia. discriminate.
Qed.

(** In general it is the first time in range. *)
Lemma observable_count : forall kMax dT nLm t, 0 < dT -> 0 <= t ->
  observable t (snd (detections seen kept kMax dT nLm)) =
  length (filter (fun m => negb (existsb (fun i => seen (Z.of_nat i) m) (seq 1 (Z.to_nat (kMax - 1))))
                           || existsb (fun i => seen (Z.of_nat i) m && (Z.of_nat i * dT <=? t)) (seq 1 (Z.to_nat (kMax - 1)))) (seq 0 nLm)).
Proof.
  intros kMax dT nLm t HdT Ht. unfold observable.
  assert (G : forall (l : list Z) (g : nat -> bool) s, (forall m f, nth_error l m = Some f -> (f <=? t) = g (s + m)%nat) ->
     length (filter (fun f => f <=? t) l) = length (filter g (seq s (length l)))).
  { induction l as [|f l IH]; intros g s H; [reflexivity|]. cbn [filter seq length]. pose proof (H 0%nat f eq_refl) as H0.
    rewrite Nat.add_0_r in H0. rewrite H0. specialize (IH g (S s)).
    assert (IH' : length (filter (fun f0 => f0 <=? t) l) = length (filter g (seq (S s) (length l)))).
    { apply IH. intros m x E. specialize (H (S m) x E). rewrite H. f_equal. lia. }
    destruct (g s); cbn [length]; rewrite IH'; reflexivity. }
  rewrite (G _ (fun m => negb (existsb (fun i => seen (Z.of_nat i) m) (seq 1 (Z.to_nat (kMax - 1))))
                           || existsb (fun i => seen (Z.of_nat i) m && (Z.of_nat i * dT <=? t)) (seq 1 (Z.to_nat (kMax - 1)))) 0%nat).
  - rewrite detections_length. reflexivity.
  - intros m f E. cbn [Nat.add].
    assert (Hm : (m < nLm)%nat) by (rewrite <- (detections_length kMax dT nLm); apply nth_error_Some; rewrite E; discriminate).
    destruct (detections_first kMax dT nLm m Hm HdT) as (A & B).
    destruct (first_step (fun k => seen k m) (Z.to_nat (kMax - 1)) 1) as [(k & Hk & S1 & Hj)|N].
    + rewrite (A k ltac:(lia) S1) in E by (intros; apply Hj; lia). injection E as <-.
      assert (X : existsb (fun i => seen (Z.of_nat i) m) (seq 1 (Z.to_nat (kMax - 1))) = true).
      { apply existsb_exists. exists (Z.to_nat k). split; [apply in_seq; lia|]. rewrite Z2Nat.id by lia. exact S1. }
      rewrite X. cbn [negb orb]. symmetry. destruct (Z.leb_spec (k * dT) t) as [L|L].
      * apply existsb_exists. exists (Z.to_nat k). split; [apply in_seq; lia|]. rewrite Z2Nat.id by lia. rewrite S1. cbn [andb]. apply Z.leb_le. exact L.
      * apply not_true_is_false. intro Y. apply existsb_exists in Y. destruct Y as (i & Hi & Y). apply in_seq in Hi.
        apply andb_true_iff in Y. destruct Y as (Y1 & Y2). apply Z.leb_le in Y2.
        destruct (Z_lt_le_dec (Z.of_nat i) k) as [L'|L']; [rewrite (Hj (Z.of_nat i)) in Y1 by lia; discriminate|]. nia.
    + rewrite B in E by (intros; apply N; lia). injection E as <-.
      assert (X : existsb (fun i => seen (Z.of_nat i) m) (seq 1 (Z.to_nat (kMax - 1))) = false).
      { apply not_true_is_false. intro Y. apply existsb_exists in Y. destruct Y as (i & Hi & Y). apply in_seq in Hi. rewrite N in Y by lia. discriminate. }
      rewrite X. cbn [negb orb]. apply Z.leb_le. lia.
Qed.
End Detect.
Local Close Scope Z_scope.
