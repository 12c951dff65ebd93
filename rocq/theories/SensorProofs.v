(** Proofs about the measurement models: round trip, limits, detection, covariance. *)
From Coq Require Import Reals List Bool Lra Lia.
From Verif Require Import Base AngleModel AngleProofs SensorModel.
Import ListNotations.
Local Open Scope R_scope.

(** ** atan2 *)
Lemma sq_nonneg : forall x : R, 0 <= x ^ 2.
Proof. intros. apply pow2_ge_0. Qed.

Lemma atan2_spec : forall y x, 0 < x ^ 2 + y ^ 2 ->
  sqrt (x ^ 2 + y ^ 2) * cos (atan2 y x) = x /\ sqrt (x ^ 2 + y ^ 2) * sin (atan2 y x) = y /\
  - PI < atan2 y x <= PI.
Proof.
  intros y x H. pose proof PI_RGT_0 as HP. unfold atan2.
  assert (Main : x <> 0 -> sqrt (x ^ 2 + y ^ 2) = Rabs x * sqrt (1 + (y / x)²)).
  { intro Hx. replace (x ^ 2 + y ^ 2) with (x² * (1 + (y / x)²)) by (unfold Rsqr; field; exact Hx).
    rewrite sqrt_mult_alt by apply Rle_0_sqr. rewrite sqrt_Rsqr_abs. reflexivity. }
  assert (Hs : 0 < sqrt (1 + (y / x)²)).
  { apply sqrt_lt_R0. pose proof (Rle_0_sqr (y / x)). lra. }
  pose proof (atan_bound (y / x)) as Hb.
  destruct (Rlt_dec 0 x) as [Hx|Hx].
  - rewrite Main by lra. rewrite cos_atan, sin_atan. rewrite (Rabs_right x) by lra.
    split; [field; lra|]. split; [field; split; lra|]. lra.
  - destruct (Rlt_dec x 0) as [Hx'|Hx'].
    + rewrite Main by lra. rewrite (Rabs_left x) by lra.
      assert (Hyx : y < 0 -> 0 < atan (y / x)).
      { intro Hy. rewrite <- atan_0. apply atan_increasing. unfold Rdiv.
        replace (y * / x) with ((- y) * / (- x)) by (field; lra).
        apply Rmult_lt_0_compat; [lra|]. apply Rinv_0_lt_compat. lra. }
      assert (Hyx' : 0 <= y -> atan (y / x) <= 0).
      { intro Hy. destruct (Req_dec y 0) as [->|Hn].
        - unfold Rdiv. rewrite Rmult_0_l, atan_0. lra.
        - left. rewrite <- atan_0. apply atan_increasing. unfold Rdiv.
          replace (y * / x) with (- (y * / (- x))) by (field; lra).
          assert (0 < y * / - x); [|lra]. apply Rmult_lt_0_compat; [lra|].
          apply Rinv_0_lt_compat. lra. }
      destruct (Rlt_dec y 0) as [Hy|Hy].
      * assert (Ec : cos (atan (y / x) - PI) = - cos (atan (y / x))).
        { rewrite <- (cos_neg (atan (y / x) - PI)). replace (- (atan (y / x) - PI)) with (- atan (y / x) + PI) by ring.
          rewrite neg_cos, cos_neg. reflexivity. }
        assert (Es : sin (atan (y / x) - PI) = - sin (atan (y / x))).
        { replace (atan (y / x) - PI) with (- (- atan (y / x) + PI)) by ring.
          rewrite sin_neg, neg_sin, sin_neg. ring. }
        rewrite Ec, Es, cos_atan, sin_atan.
        split; [field; lra|]. split; [field; split; lra|].
        specialize (Hyx Hy). lra.
      * rewrite neg_cos, neg_sin, cos_atan, sin_atan.
        split; [field; lra|]. split; [field; split; lra|].
        assert (0 <= y) by lra. specialize (Hyx' H0). lra.
    + assert (x = 0) by lra. subst x. replace (0 ^ 2 + y ^ 2) with (y²) in * by (unfold Rsqr; ring).
      rewrite sqrt_Rsqr_abs.
      destruct (Rlt_dec 0 y) as [Hy|Hy].
      * rewrite cos_PI2, sin_PI2, (Rabs_right y) by lra. lra.
      * destruct (Rlt_dec y 0) as [Hy'|Hy'].
        -- rewrite cos_neg, sin_neg, cos_PI2, sin_PI2, (Rabs_left y) by lra. lra.
        -- assert (y = 0) by lra. subst y. rewrite Rsqr_0 in H. lra.
Qed.

(** Whole turns do not change sine and cosine. *)
Lemma cos_turns : forall x k, cos (x + IZR k * (2 * PI)) = cos x.
Proof.
  intros x k. destruct (Z_le_gt_dec 0 k) as [Hk|Hk].
  - rewrite <- (Z2Nat.id k Hk), <- INR_IZR_INZ. replace (INR (Z.to_nat k) * (2 * PI)) with (2 * INR (Z.to_nat k) * PI) by ring.
    apply cos_period.
  - assert (Hk' : (0 <= - k)%Z) by lia. rewrite <- (cos_period (x + IZR k * (2 * PI)) (Z.to_nat (- k))).
    f_equal. rewrite INR_IZR_INZ, Z2Nat.id by exact Hk'. rewrite opp_IZR. ring.
Qed.
Lemma sin_turns : forall x k, sin (x + IZR k * (2 * PI)) = sin x.
Proof.
  intros x k. destruct (Z_le_gt_dec 0 k) as [Hk|Hk].
  - rewrite <- (Z2Nat.id k Hk), <- INR_IZR_INZ. replace (INR (Z.to_nat k) * (2 * PI)) with (2 * INR (Z.to_nat k) * PI) by ring.
    apply sin_period.
  - assert (Hk' : (0 <= - k)%Z) by lia. rewrite <- (sin_period (x + IZR k * (2 * PI)) (Z.to_nat (- k))).
    f_equal. rewrite INR_IZR_INZ, Z2Nat.id by exact Hk'. rewrite opp_IZR. ring.
Qed.

(** Angles with equal sine and cosine differ by whole turns. *)
Lemma same_angle : forall a b, cos a = cos b -> sin a = sin b -> exists k : Z, a = b + IZR k * (2 * PI).
Proof.
  intros a b Hc Hs.
  assert (C : cos (a - b) = 1).
  { rewrite cos_minus, Hc, Hs. pose proof (sin2_cos2 b) as E. unfold Rsqr in E. lra. }
  assert (S0 : sin ((a - b) / 2) = 0).
  { replace (a - b) with (2 * ((a - b) / 2)) in C by field. rewrite cos_2a_sin in C.
    assert (sin ((a - b) / 2) * sin ((a - b) / 2) = 0) by lra.
    destruct (Rmult_integral _ _ H); assumption. }
  apply sin_eq_0_0 in S0. destruct S0 as [k Hk]. exists k. lra.
Qed.

(** ** Round trips *)

Lemma in_limits_iff : forall c r, in_limits c r = true <-> s_min c <= r <= s_max c.
Proof.
  intros c r. unfold in_limits. destruct (Rlt_dec (s_max c) r); [split; [discriminate|lra]|].
  destruct (Rlt_dec r (s_min c)); [split; [discriminate|lra]|]. split; [lra|reflexivity].
Qed.

Lemma trip_1d : forall c x PS LS Rn z,
  let e := measure_1d c x PS (fst (inverse_1d x z Rn)) LS Rn in
  x_mean e = z /\ (x_ok e = true <-> s_min c <= Rabs z <= s_max c).
Proof.
  intros. unfold e, measure_1d, inverse_1d. cbn [fst x_mean x_ok].
  replace (x + z - x) with z by ring. split; [reflexivity|apply in_limits_iff].
Qed.

Lemma cs1 : forall t, cos t * cos t + sin t * sin t = 1.
Proof. intro t. pose proof (sin2_cos2 t) as E. unfold Rsqr in E. lra. Qed.

Lemma trip_xy : forall c p PS LS Rn z,
  let e := measure_xy c p PS (fst (inverse_xy p z Rn)) LS Rn in
  x_mean e = z /\ (x_ok e = true <-> s_min c <= sqrt (fst z ^ 2 + snd z ^ 2) <= s_max c).
Proof.
  intros c p PS LS Rn [a b] e. unfold e, measure_xy, inverse_xy. cbn [fst snd x_mean x_ok].
  pose proof (cs1 (p_t p)) as E. set (cc := cos (p_t p)) in *. set (ss := sin (p_t p)) in *. clearbody cc ss.
  replace (p_x p + cc * a - ss * b - p_x p) with (cc * a - ss * b) by ring.
  replace (p_y p + ss * a + cc * b - p_y p) with (ss * a + cc * b) by ring.
  split.
  - f_equal.
    + transitivity ((cc * cc + ss * ss) * a); [ring|rewrite E; ring].
    + transitivity ((cc * cc + ss * ss) * b); [ring|rewrite E; ring].
  - replace ((cc * a - ss * b) ^ 2 + (ss * a + cc * b) ^ 2) with (a ^ 2 + b ^ 2); [apply in_limits_iff|].
    transitivity ((cc * cc + ss * ss) * (a ^ 2 + b ^ 2)); [rewrite E; ring|ring].
Qed.

(** What measure does with the range-bearing model: the bearing is the direction of the
    landmark in the frame of the pose. *)
Lemma measure_rb_ok : forall c p PS l LS Rn,
  let dx := fst l - p_x p in let dy := snd l - p_y p in let r := sqrt (dx ^ 2 + dy ^ 2) in
  exists n e, (forall fuel, (n < fuel)%nat -> measure_rb fuel c p PS l LS Rn = Val e) /\
    fst (x_mean e) = r /\ - PI <= snd (x_mean e) <= PI /\
    (x_ok e = true <-> s_min c <= r <= s_max c) /\
    (0 < r -> r * cos (snd (x_mean e)) = cos (p_t p) * dx + sin (p_t p) * dy /\
              r * sin (snd (x_mean e)) = - sin (p_t p) * dx + cos (p_t p) * dy).
Proof.
  intros c p PS l LS Rn dx dy r.
  destruct (wrap_ok (atan2 dy dx - p_t p)) as (n & b & Hw & Hb & (k & Hk) & _).
  exists n. eexists. split; [intros fuel Hf; unfold measure_rb; fold dx dy; rewrite (Hw fuel Hf); cbn [obind]; reflexivity|].
  cbn [x_mean fst snd x_ok]. fold r. split; [reflexivity|]. split; [exact Hb|]. split; [apply in_limits_iff|].
  intro Hr. assert (H2 : 0 < dx ^ 2 + dy ^ 2).
  { destruct (Rle_lt_dec (dx ^ 2 + dy ^ 2) 0) as [H0|H0]; [|exact H0].
    unfold r in Hr. rewrite sqrt_neg_0 in Hr by exact H0. lra. }
  destruct (atan2_spec dy dx H2) as (Ec & Es & _). fold r in Ec, Es.
  rewrite Hk, cos_turns, sin_turns, cos_minus, sin_minus.
  set (a := atan2 dy dx) in *. clearbody a r. split.
  - transitivity (cos (p_t p) * (r * cos a) + sin (p_t p) * (r * sin a)); [ring|rewrite Ec, Es; reflexivity].
  - transitivity (- sin (p_t p) * (r * cos a) + cos (p_t p) * (r * sin a)); [ring|rewrite Ec, Es; reflexivity].
Qed.

(** The value does not depend on the fuel. *)
Lemma measure_rb_fun : forall f f' c p PS l LS Rn e e',
  measure_rb f c p PS l LS Rn = Val e -> measure_rb f' c p PS l LS Rn = Val e' -> e = e'.
Proof.
  intros f f' c p PS l LS Rn e e' H H'. unfold measure_rb in H, H'.
  apply obind_val in H. destruct H as (b & Hb & H). apply obind_val in H'. destruct H' as (b' & Hb' & H').
  assert (b = b').
  { pose proof (wrap_mono f (f + f') _ _ Hb ltac:(lia)) as A. pose proof (wrap_mono f' (f + f') _ _ Hb' ltac:(lia)) as B.
    congruence. }
  subst b'. congruence.
Qed.

Lemma trip_rb : forall c p PS LS Rn r b, 0 < r ->
  exists n e, (forall fuel, (n < fuel)%nat -> measure_rb fuel c p PS (fst (inverse_rb p (r, b) Rn)) LS Rn = Val e) /\
    fst (x_mean e) = r /\ - PI <= snd (x_mean e) <= PI /\
    (exists k : Z, snd (x_mean e) = b + IZR k * (2 * PI)) /\
    (- PI < b < PI -> snd (x_mean e) = b) /\
    (x_ok e = true <-> s_min c <= r <= s_max c).
Proof.
  intros c p PS LS Rn r b Hr.
  destruct (measure_rb_ok c p PS (fst (inverse_rb p (r, b) Rn)) LS Rn) as (n & e & He & Hm & Hb & Hok & Hcs).
  assert (Edx : fst (fst (inverse_rb p (r, b) Rn)) - p_x p = r * cos (p_t p + b)) by (cbn; ring).
  assert (Edy : snd (fst (inverse_rb p (r, b) Rn)) - p_y p = r * sin (p_t p + b)) by (cbn; ring).
  rewrite Edx, Edy in *.
  assert (Er : sqrt ((r * cos (p_t p + b)) ^ 2 + (r * sin (p_t p + b)) ^ 2) = r).
  { replace ((r * cos (p_t p + b)) ^ 2 + (r * sin (p_t p + b)) ^ 2)
      with (r * r * (cos (p_t p + b) * cos (p_t p + b) + sin (p_t p + b) * sin (p_t p + b))) by ring.
    rewrite cs1, Rmult_1_r. apply sqrt_square. lra. }
  rewrite Er in *. destruct (Hcs Hr) as [Hc Hs].
  assert (K : exists k : Z, snd (x_mean e) = b + IZR k * (2 * PI)).
  { apply same_angle.
    - apply (Rmult_eq_reg_l r); [|lra]. rewrite Hc, cos_plus, sin_plus.
      transitivity (r * ((cos (p_t p) * cos (p_t p) + sin (p_t p) * sin (p_t p)) * cos b)); [ring|rewrite cs1; ring].
    - apply (Rmult_eq_reg_l r); [|lra]. rewrite Hs, cos_plus, sin_plus.
      transitivity (r * ((cos (p_t p) * cos (p_t p) + sin (p_t p) * sin (p_t p)) * sin b)); [ring|rewrite cs1; ring]. }
  exists n, e. split; [exact He|]. split; [exact Hm|]. split; [exact Hb|]. split; [exact K|]. split; [|exact Hok].
  intro Hin. destruct K as [k Hk]. exact (turn_unique _ _ k Hb Hin Hk).
Qed.

(** ** Quaternions *)
Definition unit_quat (q : quat) : Prop := q_x q ^ 2 + q_y q ^ 2 + q_z q ^ 2 + q_w q ^ 2 = 1.

Lemma rot_inv : forall q v i, unit_quat q -> (i < 3)%nat ->
  mapp 3 (to_matrix (conjugate q)) (mapp 3 (to_matrix q) v) i = v i.
Proof.
  intros [x y z w] v i U Hi. unfold unit_quat in U. cbn [q_x q_y q_z q_w] in U.
  assert (W : w ^ 2 = 1 - x ^ 2 - y ^ 2 - z ^ 2) by lra.
  destruct i as [|[|[|]]]; [| | |lia]; unfold mapp, to_matrix, conjugate, mx_of; cbn; ring [W].
Qed.

Lemma rot_norm : forall q v, unit_quat q -> norm3 (mapp 3 (to_matrix (conjugate q)) v) = norm3 v.
Proof.
  intros [x y z w] v U. unfold unit_quat in U. cbn [q_x q_y q_z q_w] in U.
  assert (W : w ^ 2 = 1 - x ^ 2 - y ^ 2 - z ^ 2) by lra.
  unfold norm3. f_equal. unfold mapp, to_matrix, conjugate, mx_of. cbn. ring [W].
Qed.

Lemma mapp_ext : forall n A v w i, (forall j, (j < n)%nat -> v j = w j) -> mapp n A v i = mapp n A w i.
Proof.
  intros n A v w i H. unfold mapp. induction n as [|n IH]; [reflexivity|]. cbn [dot].
  rewrite IH by (intros; apply H; lia). rewrite (H n) by lia. reflexivity.
Qed.

Lemma norm3_ext : forall v w, (forall i, (i < 3)%nat -> v i = w i) -> norm3 v = norm3 w.
Proof. intros v w H. unfold norm3. rewrite !H by lia. reflexivity. Qed.

Lemma trip_6d : forall c p q PS LS Rn z, unit_quat q ->
  let e := measure_6d c p q PS (fst (inverse_6d p q z Rn)) LS Rn in
  (forall i, (i < 3)%nat -> x_mean e i = z i) /\ (x_ok e = true <-> s_min c <= norm3 z <= s_max c).
Proof.
  intros c p q PS LS Rn z U e.
  assert (M : forall i, (i < 3)%nat -> x_mean e i = z i).
  { intros i Hi. unfold e, measure_6d, inverse_6d. cbn [fst x_mean].
    rewrite (mapp_ext _ _ _ (mapp 3 (to_matrix q) z)) by (intros; ring). apply rot_inv; assumption. }
  split; [exact M|]. rewrite <- (norm3_ext _ _ M). unfold e, measure_6d. cbn [x_ok x_mean]. apply in_limits_iff.
Qed.

(** ** Detection *)
Lemma leb_iff : forall a b, leb a b = true <-> a <= b.
Proof. intros. unfold leb. destruct (Rle_dec a b); split; intro; try reflexivity; try discriminate; assumption || contradiction. Qed.

Lemma detection_ok : forall c r, s_min c <= s_max c ->
  (fst (detection c r) = if leb (s_min c) r && leb r (s_max c) then s_pd c else 0) /\
  (snd (detection c r) = true <-> Rabs (r - s_max c) <= s_buf c \/ Rabs (r - s_min c) <= s_buf c).
Proof.
  intros c r H. unfold detection, leb.
  destruct (Rle_dec r (s_max c)), (Rle_dec (s_min c) r); cbn [andb fst snd orb]; (split; [reflexivity|]);
  unfold Rabs; destruct (Rcase_abs _), (Rcase_abs _);
  repeat match goal with |- context [Rle_dec ?a ?b] => destruct (Rle_dec a b) end; cbn [andb orb];
  split; intro; try discriminate; try reflexivity; try lra.
Qed.

Lemma detection_1d_ok : forall c r,
  (fst (detection_1d c r) = if leb (s_min c) r && leb r (s_max c) then s_pd c else 0) /\
  (snd (detection_1d c r) = true <-> Rabs (r - s_max c) <= s_buf c \/ Rabs (r - s_min c) <= s_buf c).
Proof.
  intros c r. unfold detection_1d, leb. cbn [fst snd]. split.
  - destruct (Rle_dec r (s_max c)), (Rle_dec (s_min c) r); reflexivity.
  - unfold Rabs; destruct (Rcase_abs _), (Rcase_abs _);
    repeat match goal with |- context [Rle_dec ?a ?b] => destruct (Rle_dec a b) end; cbn [andb orb];
    split; intro; try discriminate; try reflexivity; try lra.
Qed.

(** measure accepts exactly the landmarks that can be detected. *)
Lemma detection_fst : forall c r, fst (detection c r) = if in_limits c r then s_pd c else 0.
Proof.
  intros c r. unfold detection, leb, in_limits.
  destruct (Rle_dec r (s_max c)), (Rle_dec (s_min c) r), (Rlt_dec (s_max c) r), (Rlt_dec r (s_min c));
    cbn [andb fst]; try reflexivity; exfalso; lra.
Qed.

Lemma agree_1d : forall c x PS m LS Rn,
  fst (pd_1d c x m) = if x_ok (measure_1d c x PS m LS Rn) then s_pd c else 0.
Proof.
  intros. unfold pd_1d, measure_1d. cbn [x_ok]. rewrite <- detection_fst. unfold detection_1d, detection.
  cbn [fst]. destruct (leb _ _ && leb _ _); reflexivity.
Qed.
Lemma agree_xy : forall c p PS l LS Rn,
  fst (pd_2d c p l) = if x_ok (measure_xy c p PS l LS Rn) then s_pd c else 0.
Proof. intros. unfold pd_2d. rewrite detection_fst. reflexivity. Qed.
Lemma agree_rb : forall fuel c p PS l LS Rn e, measure_rb fuel c p PS l LS Rn = Val e ->
  fst (pd_2d c p l) = if x_ok e then s_pd c else 0.
Proof.
  intros fuel c p PS l LS Rn e H. unfold measure_rb in H. apply obind_val in H. destruct H as (b & _ & H).
  inversion H; subst e. cbn [x_ok]. unfold pd_2d. apply detection_fst.
Qed.
Lemma agree_6d : forall c p q PS l LS Rn, unit_quat q ->
  fst (pd_6d c p l) = if x_ok (measure_6d c p q PS l LS Rn) then s_pd c else 0.
Proof.
  intros. unfold pd_6d, measure_6d. cbn [x_ok]. rewrite detection_fst, rot_norm by assumption. reflexivity.
Qed.

(** ** Covariance of an inverted measurement *)
Definition ident (i j : nat) : R := if Nat.eqb i j then 1 else 0.

Lemma sandwich2_comp : forall A B P i j, sandwich 2 A (sandwich 2 B P) i j = sandwich 2 (mmul 2 A B) P i j.
Proof. intros. unfold sandwich, mmul, tr. cbn [dot]. ring. Qed.
Lemma sandwich3_comp : forall A B P i j, sandwich 3 A (sandwich 3 B P) i j = sandwich 3 (mmul 3 A B) P i j.
Proof. intros. unfold sandwich, mmul, tr. cbn [dot]. ring. Qed.
Lemma sandwich2_id : forall A P i j, (forall i j, (i < 2)%nat -> (j < 2)%nat -> A i j = ident i j) ->
  (i < 2)%nat -> (j < 2)%nat -> sandwich 2 A P i j = P i j.
Proof.
  intros A P i j H Hi Hj. unfold sandwich, mmul, tr. cbn [dot]. rewrite !H by lia.
  destruct i as [|[|]]; [| |lia]; (destruct j as [|[|]]; [| |lia]); unfold ident; cbn [Nat.eqb]; ring.
Qed.
Lemma sandwich3_id : forall A P i j, (forall i j, (i < 3)%nat -> (j < 3)%nat -> A i j = ident i j) ->
  (i < 3)%nat -> (j < 3)%nat -> sandwich 3 A P i j = P i j.
Proof.
  intros A P i j H Hi Hj. unfold sandwich, mmul, tr. cbn [dot]. rewrite !H by lia.
  destruct i as [|[|[|]]]; [| | |lia]; (destruct j as [|[|[|]]]; [| | |lia]); unfold ident; cbn [Nat.eqb]; ring.
Qed.

Lemma cov_xy : forall c p PS Rn z, let inv := inverse_xy p z Rn in
  exists L, x_lin (measure_xy c p PS (fst inv) (snd inv) Rn) = Some L /\
    forall i j, (i < 2)%nat -> (j < 2)%nat ->
      l_cov L i j = Rn i j + sandwich 3 (l_pose L) PS i j + Rn i j.
Proof.
  intros c p PS Rn z inv. eexists. split; [reflexivity|]. intros i j Hi Hj. cbn [l_cov l_pose].
  unfold expected_cov, madd at 1. unfold madd. f_equal. f_equal.
  unfold inv, inverse_xy. cbn [snd]. rewrite sandwich2_comp. apply sandwich2_id; [|exact Hi|exact Hj].
  intros a b Ha Hb. pose proof (cs1 (p_t p)) as E. unfold mmul, mx_of, ident.
  destruct a as [|[|]]; [| |lia]; (destruct b as [|[|]]; [| |lia]); cbn; lra.
Qed.

Lemma cov_rb : forall fuel c p PS Rn r b e, 0 < r -> let inv := inverse_rb p (r, b) Rn in
  measure_rb fuel c p PS (fst inv) (snd inv) Rn = Val e ->
  exists L, x_lin e = Some L /\
    forall i j, (i < 2)%nat -> (j < 2)%nat ->
      l_cov L i j = Rn i j + sandwich 3 (l_pose L) PS i j + Rn i j.
Proof.
  intros fuel c p PS Rn r b e Hr inv H. unfold measure_rb in H.
  assert (Edx : fst (fst inv) - p_x p = r * cos (p_t p + b)) by (cbn; ring).
  assert (Edy : snd (fst inv) - p_y p = r * sin (p_t p + b)) by (cbn; ring).
  rewrite Edx, Edy in H.
  assert (E2 : (r * cos (p_t p + b)) ^ 2 + (r * sin (p_t p + b)) ^ 2 = r * r).
  { transitivity (r * r * (cos (p_t p + b) * cos (p_t p + b) + sin (p_t p + b) * sin (p_t p + b))); [ring|].
    rewrite cs1. ring. }
  rewrite E2, sqrt_square in H by lra. apply obind_val in H. destruct H as (w & _ & H).
  destruct (Req_EM_T r 0) as [H0|_]; [lra|]. inversion H; subst e. clear H. cbn [x_lin].
  eexists. split; [reflexivity|]. intros i j Hi Hj. cbn [l_cov l_pose].
  unfold expected_cov, madd at 1. unfold madd. f_equal. f_equal.
  unfold inv, inverse_rb. cbn [fst snd]. rewrite sandwich2_comp. apply sandwich2_id; [|exact Hi|exact Hj].
  intros a' b' Ha Hb. pose proof (cs1 (p_t p + b)) as E. unfold mmul, mx_of, ident.
  set (C := cos (p_t p + b)) in *. set (S := sin (p_t p + b)) in *. clearbody C S.
  destruct a' as [|[|]]; [| |lia]; (destruct b' as [|[|]]; [| |lia]); cbn [dot nth Nat.eqb].
  - transitivity (C * C + S * S); [field; lra|exact E].
  - field. lra.
  - field. lra.
  - transitivity (C * C + S * S); [field; lra|exact E].
Qed.

Lemma cov_6d : forall c p q PS Rn z, unit_quat q -> let inv := inverse_6d p q z Rn in
  exists L, x_lin (measure_6d c p q PS (fst inv) (snd inv) Rn) = Some L /\
    forall i j, (i < 3)%nat -> (j < 3)%nat ->
      l_cov L i j = Rn i j + sandwich 7 (l_pose L) PS i j + Rn i j.
Proof.
  intros c p q PS Rn z U inv. eexists. split; [reflexivity|]. intros i j Hi Hj. cbn [l_cov l_pose].
  unfold expected_cov, madd at 1. unfold madd. f_equal. f_equal.
  unfold inv, inverse_6d. cbn [snd]. rewrite sandwich3_comp. apply sandwich3_id; [|exact Hi|exact Hj].
  intros a b Ha Hb. destruct q as [x y zz w]. unfold unit_quat in U. cbn [q_x q_y q_z q_w] in U.
  assert (W : w ^ 2 = 1 - x ^ 2 - y ^ 2 - zz ^ 2) by lra.
  unfold mmul, to_matrix, conjugate, mx_of, ident.
  destruct a as [|[|[|]]]; [| | |lia]; (destruct b as [|[|[|]]]; [| | |lia]); cbn; ring [W].
Qed.

Lemma cov_1d : forall c x PS Rn z, let inv := inverse_1d x z Rn in
  exists L, x_lin (measure_1d c x PS (fst inv) (snd inv) Rn) = Some L /\
    l_cov L 0%nat 0%nat = Rn 0%nat 0%nat + PS 0%nat 0%nat + Rn 0%nat 0%nat.
Proof. intros. eexists. split; [reflexivity|]. reflexivity. Qed.

Lemma measure_rb_lin : forall fuel c p PS l LS Rn e, measure_rb fuel c p PS l LS Rn = Val e ->
  let dx := fst l - p_x p in let dy := snd l - p_y p in
  let r2 := dx ^ 2 + dy ^ 2 in let r := sqrt r2 in
  let Hl := mx_of [[dx / r; dy / r]; [- dy / r2; dx / r2]] in
  let Hr := mx_of [[- dx / r; - dy / r; 0]; [dy / r2; - dx / r2; -1]] in
  x_lin e = if Req_EM_T r 0 then None else Some (Lin Hl Hr (expected_cov 2 3 Hl Hr LS PS Rn)).
Proof.
  intros fuel c p PS l LS Rn e H. unfold measure_rb in H. apply obind_val in H. destruct H as (b & _ & H).
  inversion H; subst e. reflexivity.
Qed.

(** Detection, model by model. *)
Lemma pd_case : forall c r, (if leb (s_min c) r && leb r (s_max c) then s_pd c else 0) = fst (detection c r) ->
  (s_min c <= r <= s_max c -> fst (detection c r) = s_pd c) /\ (r < s_min c \/ s_max c < r -> fst (detection c r) = 0).
Proof.
  intros c r E. rewrite <- E. unfold leb. split; intro H.
  - destruct (Rle_dec (s_min c) r); [|lra]. destruct (Rle_dec r (s_max c)); [reflexivity|lra].
  - destruct (Rle_dec (s_min c) r); [|reflexivity]. destruct (Rle_dec r (s_max c)); [lra|reflexivity].
Qed.
Lemma pd_2d_ok : forall c p l, s_min c <= s_max c ->
  let r := sqrt ((fst l - p_x p) ^ 2 + (snd l - p_y p) ^ 2) in
  (s_min c <= r <= s_max c -> fst (pd_2d c p l) = s_pd c) /\
  (r < s_min c \/ s_max c < r -> fst (pd_2d c p l) = 0) /\
  (snd (pd_2d c p l) = true <-> Rabs (r - s_max c) <= s_buf c \/ Rabs (r - s_min c) <= s_buf c).
Proof.
  intros c p l H r. destruct (detection_ok c r H) as [A B]. destruct (pd_case c r (eq_sym A)) as [C D].
  exact (conj C (conj D B)).
Qed.
Lemma pd_6d_ok : forall c p l, s_min c <= s_max c ->
  let r := sqrt ((l 0%nat - p 0%nat) ^ 2 + (l 1%nat - p 1%nat) ^ 2 + (l 2%nat - p 2%nat) ^ 2) in
  (s_min c <= r <= s_max c -> fst (pd_6d c p l) = s_pd c) /\
  (r < s_min c \/ s_max c < r -> fst (pd_6d c p l) = 0) /\
  (snd (pd_6d c p l) = true <-> Rabs (r - s_max c) <= s_buf c \/ Rabs (r - s_min c) <= s_buf c).
Proof.
  intros c p l H r. destruct (detection_ok c r H) as [A B]. destruct (pd_case c r (eq_sym A)) as [C D].
  exact (conj C (conj D B)).
Qed.
Lemma pd_1d_ok : forall c x m,
  let r := Rabs (m - x) in
  (s_min c <= r <= s_max c -> fst (pd_1d c x m) = s_pd c) /\
  (r < s_min c \/ s_max c < r -> fst (pd_1d c x m) = 0) /\
  (snd (pd_1d c x m) = true <-> Rabs (r - s_max c) <= s_buf c \/ Rabs (r - s_min c) <= s_buf c).
Proof.
  intros c x m r. destruct (detection_1d_ok c r) as [A B]. unfold pd_1d. fold r. rewrite A. unfold leb.
  split; [|split]; [| |exact B]; intro H.
  - destruct (Rle_dec (s_min c) r); [|lra]. destruct (Rle_dec r (s_max c)); [reflexivity|lra].
  - destruct (Rle_dec (s_min c) r); [|reflexivity]. destruct (Rle_dec r (s_max c)); [lra|reflexivity].
Qed.
