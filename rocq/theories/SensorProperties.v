(** Theorems about the measurement models. *)
From Coq Require Import Reals List Bool Lra Lia.
From Coquelicot Require Import Coquelicot.
From Verif Require Import Base AngleModel AngleProofs SensorModel SensorSpec SensorProofs SensorDeriv SensorClutter.
Import ListNotations.
Local Open Scope R_scope.

(** Values of the constructors, e.g. src/MeasurementModel_RngBrg.cpp:61-65. *)
Definition cfg_def : scfg := SCfg (95 / 100) (1 / 10) 5 (3 / 10) (1 / 4).
Definition no_cov : mx := fun _ _ => 0.

(** * C50 *)

(** One dimension and Cartesian: every measurement is reproduced, and accepted exactly when it
    is within the limits. *)
Theorem C50_1d_partial : forall c x PS LS Rn z,
  let e := measure_1d c x PS (fst (inverse_1d x z Rn)) LS Rn in
  x_mean e = z /\ (x_ok e = true <-> s_min c <= Rabs z <= s_max c).
Proof. exact trip_1d. Qed.
Print Assumptions C50_1d_partial.

Theorem C50_xy_partial : forall c p PS LS Rn z,
  let e := measure_xy c p PS (fst (inverse_xy p z Rn)) LS Rn in
  x_mean e = z /\ (x_ok e = true <-> s_min c <= sqrt (fst z ^ 2 + snd z ^ 2) <= s_max c).
Proof. exact trip_xy. Qed.
Print Assumptions C50_xy_partial.

Example C50_xy_ex : fst (inverse_xy (P2 1 2 0) (3, 4) no_cov) = (4, 6).
Proof. unfold inverse_xy. cbn [fst snd p_x p_y p_t]. rewrite cos_0, sin_0. f_equal; ring. Qed.

(** Range and bearing: every positive range is reproduced, and the bearing up to whole turns;
    exactly, when it is inside the principal interval. *)
Theorem C50_rb_partial : forall c p PS LS Rn r b, 0 < r ->
  exists n e, (forall fuel, (n < fuel)%nat -> measure_rb fuel c p PS (fst (inverse_rb p (r, b) Rn)) LS Rn = Val e) /\
    fst (x_mean e) = r /\ - PI <= snd (x_mean e) <= PI /\
    (exists k : Z, snd (x_mean e) = b + IZR k * (2 * PI)) /\
    (- PI < b < PI -> snd (x_mean e) = b) /\
    (x_ok e = true <-> s_min c <= r <= s_max c).
Proof. exact trip_rb. Qed.
Print Assumptions C50_rb_partial.

Example C50_rb_ex : fst (inverse_rb (P2 1 2 0) (3, PI / 2) no_cov) = (1, 5) /\ - PI < PI / 2 < PI.
Proof.
  unfold inverse_rb. cbn [fst snd p_x p_y p_t]. rewrite Rplus_0_l, cos_PI2, sin_PI2.
  split; [f_equal; ring|]. pose proof PI_RGT_0. lra.
Qed.

(** Three dimensions, with a unit quaternion. *)
Theorem C50_6d_partial : forall c p q PS LS Rn z,
  q_x q ^ 2 + q_y q ^ 2 + q_z q ^ 2 + q_w q ^ 2 = 1 ->
  let e := measure_6d c p q PS (fst (inverse_6d p q z Rn)) LS Rn in
  (forall i, (i < 3)%nat -> x_mean e i = z i) /\ (x_ok e = true <-> s_min c <= norm3 z <= s_max c).
Proof. exact trip_6d. Qed.
Print Assumptions C50_6d_partial.

Example C50_6d_ex : let q := Q4 (3 / 5) 0 0 (4 / 5) in
  q_x q ^ 2 + q_y q ^ 2 + q_z q ^ 2 + q_w q ^ 2 = 1 /\
  fst (inverse_6d (vec_of [1; 2; 3]) q (vec_of [0; 1; 0]) no_cov) 2%nat = 3 + 24 / 25.
Proof. cbn. split; field. Qed.

(** Bearing pi comes back as -pi. *)
Theorem C50_refuted : exists p r b e, 0 < r /\ - PI <= b <= PI /\
  measure_rb 1 cfg_def p no_cov (fst (inverse_rb p (r, b) no_cov)) no_cov no_cov = Val e /\ snd (x_mean e) <> b.
Proof.
  pose proof PI_RGT_0 as HP. exists (P2 0 0 (PI / 2)), 1, PI. eexists. split; [lra|]. split; [lra|].
  unfold inverse_rb, measure_rb. cbn [fst snd p_x p_y p_t].
  rewrite neg_cos, neg_sin, cos_PI2, sin_PI2.
  replace (0 + 1 * - 0 - 0) with 0 by ring. replace (0 + 1 * - (1) - 0) with (-1) by ring.
  unfold atan2. destruct (Rlt_dec 0 0); [exfalso; lra|]. destruct (Rlt_dec 0 (-1)); [exfalso; lra|]. destruct (Rlt_dec (-1) 0); [|exfalso; lra].
  replace (- (PI / 2) - PI / 2) with (- PI) by field.
  unfold wrap. cbn [wrap_down]. destruct (Rlt_dec PI (- PI)); [exfalso; lra|]. cbn [obind wrap_up].
  destruct (Rlt_dec (- PI) (- PI)); [exfalso; lra|]. cbn [obind]. split; [reflexivity|]. cbn [x_mean snd]. lra.
Qed.
Print Assumptions C50_refuted.

(** At range zero the bearing is lost. *)
Theorem C50_zero_refuted : exists p b e, - PI < b < PI /\
  measure_rb 1 cfg_def p no_cov (fst (inverse_rb p (0, b) no_cov)) no_cov no_cov = Val e /\ snd (x_mean e) <> b.
Proof.
  pose proof PI_RGT_0 as HP. assert (P3 : 3 < PI) by (pose proof PI2_3_2; lra). exists (P2 0 0 1), 0. eexists. split; [lra|].
  unfold inverse_rb, measure_rb. cbn [fst snd p_x p_y p_t].
  replace (0 + 0 * cos (1 + 0) - 0) with 0 by ring. replace (0 + 0 * sin (1 + 0) - 0) with 0 by ring.
  unfold atan2. destruct (Rlt_dec 0 0); [exfalso; lra|]. unfold wrap. cbn [wrap_down].
  destruct (Rlt_dec PI (0 - 1)); [exfalso; lra|]. cbn [obind wrap_up].
  destruct (Rlt_dec (0 - 1) (- PI)); [exfalso; lra|]. cbn [obind]. split; [reflexivity|]. cbn [x_mean snd]. lra.
Qed.
Print Assumptions C50_zero_refuted.

(** A quaternion that is not normalised, which Pose6d accepts. *)
Theorem C50_quat_refuted : exists p q z, q_w q = 1 /\
  x_mean (measure_6d cfg_def p q no_cov (fst (inverse_6d p q z no_cov)) no_cov no_cov) 1%nat <> z 1%nat.
Proof. exists (vec_of []), (Q4 1 0 0 1), (vec_of [0; 1; 0]). split; [reflexivity|]. cbn. lra. Qed.
Print Assumptions C50_quat_refuted.

(** * C51 *)

(** Range of every model (1D: absolute difference), detection probability and flag. *)
Theorem C51_2d : forall c p l, s_min c <= s_max c ->
  let r := sqrt ((fst l - p_x p) ^ 2 + (snd l - p_y p) ^ 2) in
  (s_min c <= r <= s_max c -> fst (pd_2d c p l) = s_pd c) /\
  (r < s_min c \/ s_max c < r -> fst (pd_2d c p l) = 0) /\
  (snd (pd_2d c p l) = true <-> Rabs (r - s_max c) <= s_buf c \/ Rabs (r - s_min c) <= s_buf c).
Proof. exact pd_2d_ok. Qed.
Print Assumptions C51_2d.

Theorem C51_6d : forall c p l, s_min c <= s_max c ->
  let r := sqrt ((l 0%nat - p 0%nat) ^ 2 + (l 1%nat - p 1%nat) ^ 2 + (l 2%nat - p 2%nat) ^ 2) in
  (s_min c <= r <= s_max c -> fst (pd_6d c p l) = s_pd c) /\
  (r < s_min c \/ s_max c < r -> fst (pd_6d c p l) = 0) /\
  (snd (pd_6d c p l) = true <-> Rabs (r - s_max c) <= s_buf c \/ Rabs (r - s_min c) <= s_buf c).
Proof. exact pd_6d_ok. Qed.
Print Assumptions C51_6d.

Theorem C51_1d : forall c x m,
  let r := Rabs (m - x) in
  (s_min c <= r <= s_max c -> fst (pd_1d c x m) = s_pd c) /\
  (r < s_min c \/ s_max c < r -> fst (pd_1d c x m) = 0) /\
  (snd (pd_1d c x m) = true <-> Rabs (r - s_max c) <= s_buf c \/ Rabs (r - s_min c) <= s_buf c).
Proof. exact pd_1d_ok. Qed.
Print Assumptions C51_1d.

(** Landmark at distance 5 = rangeLimMax_: detectable, and close to the limit. *)
Example C51_ex : pd_2d cfg_def (P2 0 0 0) (3, 4) = (95 / 100, true).
Proof.
  unfold pd_2d, detection, leb. cbn [fst snd p_x p_y s_max s_min s_buf s_pd cfg_def].
  replace ((3 - 0) ^ 2 + (4 - 0) ^ 2) with (5 * 5) by ring. rewrite sqrt_square by lra.
  destruct (Rle_dec 5 5); [|exfalso; lra]. destruct (Rle_dec (3 / 10) 5); [|exfalso; lra]. cbn [andb].
  destruct (Rle_dec (5 - 1 / 4) 5); [|exfalso; lra]. reflexivity.
Qed.

(** * C77 *)

(** Along any motion of pose and landmark the measured range and bearing change as the two
    Jacobians say, for a positive range and a bearing inside the principal interval. *)
Theorem C77_rb_partial : forall c PS LS Rn w t0 dp dl (h : R -> R * R) fuel e L,
  moves w t0 dp dl ->
  measure_rb fuel c (pose_at w t0) PS (lmk_at w t0) LS Rn = Val e -> x_lin e = Some L ->
  - PI < snd (x_mean e) < PI ->
  locally t0 (fun t => exists f e', measure_rb f c (pose_at w t) PS (lmk_at w t) LS Rn = Val e' /\ x_mean e' = h t) ->
  is_derive (fun t => fst (h t)) t0 (dot 3 (l_pose L 0%nat) dp + dot 2 (l_lmk L 0%nat) dl) /\
  is_derive (fun t => snd (h t)) t0 (dot 3 (l_pose L 1%nat) dp + dot 2 (l_lmk L 1%nat) dl).
Proof. exact rb_jac. Qed.
Print Assumptions C77_rb_partial.

(** A pose that turns in place with the landmark ahead: range 2, bearing -t. *)
Example C77_rb_ex :
  let w := Path2 (fun _ => 0) (fun _ => 0) (fun t => t) (fun _ => 2) (fun _ => 0) in
  moves w 0 (vec_of [0; 0; 1]) (vec_of [0; 0]) /\
  (exists e L, measure_rb 1 cfg_def (pose_at w 0) no_cov (lmk_at w 0) no_cov no_cov = Val e /\ x_lin e = Some L /\
     - PI < snd (x_mean e) < PI /\
     dot 3 (l_pose L 1%nat) (vec_of [0; 0; 1]) + dot 2 (l_lmk L 1%nat) (vec_of [0; 0]) = -1) /\
  locally 0 (fun t => exists f e', measure_rb f cfg_def (pose_at w t) no_cov (lmk_at w t) no_cov no_cov = Val e' /\
     x_mean e' = (2, - t)).
Proof.
  pose proof PI_RGT_0 as HP. intro w.
  assert (M : forall t, - PI < t < PI -> exists e, measure_rb 1 cfg_def (pose_at w t) no_cov (lmk_at w t) no_cov no_cov = Val e /\
     x_mean e = (2, - t)).
  { intros t Ht. unfold measure_rb, pose_at, lmk_at, w. cbn [w_x w_y w_t w_u w_v fst snd p_x p_y p_t].
    replace ((2 - 0) ^ 2 + (0 - 0) ^ 2) with (2 * 2) by ring. rewrite sqrt_square by lra.
    unfold atan2. destruct (Rlt_dec 0 (2 - 0)); [|exfalso; lra].
    replace ((0 - 0) / (2 - 0)) with 0 by field. rewrite atan_0.
    unfold wrap. cbn [wrap_down]. destruct (Rlt_dec PI (0 - t)); [exfalso; lra|]. cbn [obind wrap_up].
    destruct (Rlt_dec (0 - t) (- PI)); [exfalso; lra|]. cbn [obind].
    eexists. split; [reflexivity|]. cbn [x_mean]. f_equal. ring. }
  split.
  { unfold moves, w. cbn [w_x w_y w_t w_u w_v]. unfold vec_of. cbn [nth].
    (split; [|split; [|split; [|split]]]); auto_derive; trivial; ring. }
  split.
  - destruct (M 0 ltac:(lra)) as (e & He & Em). exists e.
    pose proof (measure_rb_lin _ _ _ _ _ _ _ _ He) as HL. unfold pose_at, lmk_at, w in HL.
    cbn [w_x w_y w_t w_u w_v fst snd p_x p_y p_t] in HL.
    replace ((2 - 0) ^ 2 + (0 - 0) ^ 2) with (2 * 2) in HL by ring. rewrite sqrt_square in HL by lra.
    destruct (Req_EM_T 2 0) as [H0|_]; [exfalso; lra|]. eexists. split; [exact He|]. split; [exact HL|].
    rewrite Em. cbn [snd]. split; [lra|]. cbn [l_pose l_lmk]. unfold mx_of, vec_of. cbn [dot nth]. field.
  - exists (mkposreal PI HP). intros t Ht. exists 1%nat. apply M.
    unfold ball in Ht. cbn in Ht. unfold AbsRing_ball, abs, minus, plus, opp in Ht. cbn in Ht.
    apply Rabs_lt_between in Ht. lra.
Qed.

Theorem C77_xy_partial : forall c PS LS Rn w t0 dp dl, moves w t0 dp dl ->
  exists L, x_lin (measure_xy c (pose_at w t0) PS (lmk_at w t0) LS Rn) = Some L /\
  is_derive (fun t => fst (x_mean (measure_xy c (pose_at w t) PS (lmk_at w t) LS Rn))) t0
    (dot 3 (l_pose L 0%nat) dp + dot 2 (l_lmk L 0%nat) dl) /\
  is_derive (fun t => snd (x_mean (measure_xy c (pose_at w t) PS (lmk_at w t) LS Rn))) t0
    (dot 3 (l_pose L 1%nat) dp + dot 2 (l_lmk L 1%nat) dl).
Proof. exact xy_jac. Qed.
Print Assumptions C77_xy_partial.

Theorem C77_1d_partial : forall c PS LS Rn (x m : R -> R) t0 x' m', is_derive x t0 x' -> is_derive m t0 m' ->
  exists L, x_lin (measure_1d c (x t0) PS (m t0) LS Rn) = Some L /\
  is_derive (fun t => x_mean (measure_1d c (x t) PS (m t) LS Rn)) t0
    (l_pose L 0%nat 0%nat * x' + l_lmk L 0%nat 0%nat * m').
Proof. exact d1_jac. Qed.
Print Assumptions C77_1d_partial.

(** Three dimensions: for a fixed orientation. *)
Theorem C77_6d_partial : forall c PS LS Rn q (p l : R -> vec) t0 dp dl,
  (forall i, (i < 3)%nat -> is_derive (fun t => p t i) t0 (dp i) /\ is_derive (fun t => l t i) t0 (dl i)) ->
  exists L, x_lin (measure_6d c (p t0) q PS (l t0) LS Rn) = Some L /\
  forall i, (i < 3)%nat ->
  is_derive (fun t => x_mean (measure_6d c (p t) q PS (l t) LS Rn) i) t0
    (dot 3 (l_pose L i) dp + dot 3 (l_lmk L i) dl).
Proof. exact d6_jac. Qed.
Print Assumptions C77_6d_partial.

Example C77_motion_ex :
  let w := Path2 (fun t => t) (fun _ => 0) (fun t => 2 * t) (fun t => 1 - t) (fun _ => 1) in
  moves w 0 (vec_of [1; 0; 2]) (vec_of [-1; 0]).
Proof.
  unfold moves. cbn [w_x w_y w_t w_u w_v]. unfold vec_of. cbn [nth].
  (split; [|split; [|split; [|split]]]); auto_derive; trivial; ring.
Qed.

(** Turning the pose: the reported entries have the wrong sign.  The quaternions
    (sin t, 0, 0, cos t) are unit quaternions through the identity with velocity (1, 0, 0, 0). *)
Theorem C77_refuted :
  let q := fun t => Q4 (sin t) 0 0 (cos t) in
  let e := fun t => measure_6d cfg_def (vec_of []) (q t) no_cov (vec_of [0; 1; 0]) no_cov no_cov in
  exists L, x_lin (e 0) = Some L /\
  is_derive (fun t => q_x (q t)) 0 1 /\ is_derive (fun t => q_w (q t)) 0 0 /\
  is_derive (fun t => x_mean (e t) 2%nat) 0 (-2) /\
  l_pose L 2%nat 3%nat * 1 + l_pose L 2%nat 6%nat * 0 = 2.
Proof.
  intros q e. eexists. split; [reflexivity|].
  split; [cbn; auto_derive; [trivial|rewrite cos_0; ring]|].
  split; [cbn; auto_derive; [trivial|rewrite sin_0; ring]|].
  split.
  - apply (is_derive_ext (fun t => - 2 * (sin t * cos t))); [intro t; cbn; ring|].
    auto_derive; [trivial|]. rewrite sin_0, cos_0. ring.
  - cbn. rewrite sin_0, cos_0. ring.
Qed.
Print Assumptions C77_refuted.

(** * C78 *)

Theorem C78_rb_partial : forall c, clutter_integral_2d c = over_rb c (fun _ _ => clutter c).
Proof. exact clutter_rb_ok. Qed.
Print Assumptions C78_rb_partial.

Theorem C78_6d_partial : forall c, clutter_integral_6d c = over_shell c (fun _ _ _ => clutter c).
Proof. exact clutter_6d_ok. Qed.
Print Assumptions C78_6d_partial.

(** With amplitudes, which have no upper limit. *)
Theorem C78_amplitude_partial : forall c,
  is_lim (fun A => RInt (fun a => over_rb c (fun _ _ => clutter_amp c a)) 0 A) p_infty (clutter_integral_2d c).
Proof. exact clutter_amp_ok. Qed.
Print Assumptions C78_amplitude_partial.

(** Cartesian and one-dimensional models: exactly when the value is right. *)
Theorem C78_xy_partial : forall c,
  clutter_integral_2d c = over_ring c (fun _ _ => clutter c) <->
  s_clutter c = 0 \/ s_max c = s_min c \/ s_max c + s_min c = 2.
Proof. exact clutter_xy_iff. Qed.
Print Assumptions C78_xy_partial.

Theorem C78_1d_partial : forall c,
  clutter_integral_1d c = over_1d c (fun _ => clutter c) <-> s_clutter c = 0 \/ s_max c = s_min c.
Proof. exact clutter_1d_iff. Qed.
Print Assumptions C78_1d_partial.

Example C78_ex : clutter_integral_2d cfg_def = 2 * PI * (47 / 100).
Proof. unfold clutter_integral_2d. cbn. field. Qed.

(** With the values of the constructors the Cartesian and the one-dimensional one are wrong. *)
Theorem C78_refuted : exists c, 0 < s_clutter c /\ 0 < s_min c < s_max c /\
  clutter_integral_2d c <> over_ring c (fun _ _ => clutter c) /\
  clutter_integral_1d c <> over_1d c (fun _ => clutter c).
Proof.
  exists cfg_def. split; [cbn; lra|]. split; [cbn; lra|].
  split; [rewrite clutter_xy_iff|rewrite clutter_1d_iff]; cbn; lra.
Qed.
Print Assumptions C78_refuted.

(** * C79 *)

Theorem C79_1d : forall c x PS Rn z, let inv := inverse_1d x z Rn in
  exists L, x_lin (measure_1d c x PS (fst inv) (snd inv) Rn) = Some L /\
    l_cov L 0%nat 0%nat = Rn 0%nat 0%nat + PS 0%nat 0%nat + Rn 0%nat 0%nat.
Proof. exact cov_1d. Qed.
Print Assumptions C79_1d.

Theorem C79_xy : forall c p PS Rn z, let inv := inverse_xy p z Rn in
  exists L, x_lin (measure_xy c p PS (fst inv) (snd inv) Rn) = Some L /\
    forall i j, (i < 2)%nat -> (j < 2)%nat ->
      l_cov L i j = Rn i j + sandwich 3 (l_pose L) PS i j + Rn i j.
Proof. exact cov_xy. Qed.
Print Assumptions C79_xy.

Theorem C79_rb : forall fuel c p PS Rn r b e, 0 < r -> let inv := inverse_rb p (r, b) Rn in
  measure_rb fuel c p PS (fst inv) (snd inv) Rn = Val e ->
  exists L, x_lin e = Some L /\
    forall i j, (i < 2)%nat -> (j < 2)%nat ->
      l_cov L i j = Rn i j + sandwich 3 (l_pose L) PS i j + Rn i j.
Proof. exact cov_rb. Qed.
Print Assumptions C79_rb.

Theorem C79_6d : forall c p q PS Rn z, q_x q ^ 2 + q_y q ^ 2 + q_z q ^ 2 + q_w q ^ 2 = 1 ->
  let inv := inverse_6d p q z Rn in
  exists L, x_lin (measure_6d c p q PS (fst inv) (snd inv) Rn) = Some L /\
    forall i j, (i < 3)%nat -> (j < 3)%nat ->
      l_cov L i j = Rn i j + sandwich 7 (l_pose L) PS i j + Rn i j.
Proof. exact cov_6d. Qed.
Print Assumptions C79_6d.

(** The landmark covariance of a measurement at range 2 straight ahead: the bearing noise is
    stretched by the square of the range. *)
Example C79_ex : snd (inverse_rb (P2 0 0 0) (2, 0) (mx_of [[1; 0]; [0; 1 / 4]])) 1%nat 1%nat = 1.
Proof. cbn. rewrite !Rplus_0_l, cos_0, sin_0. field. Qed.

(** * C80 *)

Theorem C80_1d_partial : forall c x PS m LS Rn,
  fst (pd_1d c x m) = if x_ok (measure_1d c x PS m LS Rn) then s_pd c else 0.
Proof. exact agree_1d. Qed.
Print Assumptions C80_1d_partial.

Theorem C80_xy_partial : forall c p PS l LS Rn,
  fst (pd_2d c p l) = if x_ok (measure_xy c p PS l LS Rn) then s_pd c else 0.
Proof. exact agree_xy. Qed.
Print Assumptions C80_xy_partial.

Theorem C80_rb_partial : forall fuel c p PS l LS Rn e, measure_rb fuel c p PS l LS Rn = Val e ->
  fst (pd_2d c p l) = if x_ok e then s_pd c else 0.
Proof. exact agree_rb. Qed.
Print Assumptions C80_rb_partial.

Theorem C80_6d_partial : forall c p q PS l LS Rn, q_x q ^ 2 + q_y q ^ 2 + q_z q ^ 2 + q_w q ^ 2 = 1 ->
  fst (pd_6d c p l) = if x_ok (measure_6d c p q PS l LS Rn) then s_pd c else 0.
Proof. exact agree_6d. Qed.
Print Assumptions C80_6d_partial.

(** A landmark at distance 3, a quaternion that is not normalised: detectable, not accepted. *)
Theorem C80_refuted : exists p q l,
  fst (pd_6d cfg_def p l) = s_pd cfg_def /\ x_ok (measure_6d cfg_def p q no_cov l no_cov no_cov) = false.
Proof.
  exists (vec_of []), (Q4 1 0 0 1), (vec_of [0; 3; 0]). split.
  - unfold pd_6d. rewrite detection_fst. unfold in_limits, norm3, vec_of. cbn [nth s_max s_min s_pd cfg_def].
    replace ((0 - 0) ^ 2 + (3 - 0) ^ 2 + (0 - 0) ^ 2) with (3 * 3) by ring. rewrite sqrt_square by lra.
    destruct (Rlt_dec 5 3); [exfalso; lra|]. destruct (Rlt_dec 3 (3 / 10)); [lra|reflexivity].
  - unfold measure_6d. cbn [x_ok]. unfold in_limits. cbn [s_max s_min cfg_def].
    destruct (Rlt_dec 5 (norm3 _)) as [|Hn]; [reflexivity|]. exfalso. apply Hn. unfold norm3.
    apply Rlt_le_trans with (sqrt (6 * 6)); [rewrite sqrt_square; lra|]. apply sqrt_le_1_alt. cbn. lra.
Qed.
Print Assumptions C80_refuted.
