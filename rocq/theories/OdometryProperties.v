(** Theorems about the process models and motion likelihoods. *)
From Coq Require Import Reals Lra Lia ZArith List Bool.
From Coquelicot Require Import Coquelicot.
From Verif Require Import Base SensorModel OdometryModel OdometrySpec OdometryProofs OdometryProofs2 OdometryWitness.
Import ListNotations.
Local Open Scope R_scope.

(** C52: two displacements in turn are the composed displacement.

    In one dimension the displacements add. *)
Theorem C52_1d_partial : forall o1 o2 o3 s u w d1 d2 d3 b1 b2 b3 s1 h1 s2 h2 s3 h3,
  step_1d o1 s u d1 b1 = Val (s1, h1) -> step_1d o2 s1 w d2 b2 = Val (s2, h2) ->
  step_1d o3 s (u + w) d3 b3 = Val (s3, h3) -> v_x s2 = v_x s3 /\ (u + w = 0 -> v_x s3 = v_x s).
Proof. exact compose_1d. Qed.
Print Assumptions C52_1d_partial.

Example C52_1d_example : exists s1 s2, step_1d (Rv 5 zero_mx 0%Z) (Rv 1 zero_mx 0%Z) 2 7 false = Val (s1, None) /\
  step_1d s1 s1 (-2) 7 false = Val (s2, None) /\ v_x s1 = 3 /\ v_x s2 = 1.
Proof. eexists. eexists. split; [reflexivity|]. split; [reflexivity|]. cbn [v_x]. split; ring. Qed.

(** In the plane: pose, covariance, time and Jacobian are those of one step with the composed
    displacement. *)
Theorem C52_2d_partial : forall o1 o2 o3 s u w d1 d2 b1 b2 s1 h1 r2,
  step_2d o1 s u d1 b1 = Val (s1, h1) -> step_2d o2 s1 w d2 b2 = Val r2 ->
  step_2d o3 s (compose2 u w) (d1 + d2) b2 = Val r2.
Proof. exact compose_2d. Qed.
Print Assumptions C52_2d_partial.

(** Any number of steps in place. *)
Theorem C52_2d_run_partial : forall l s u d, run step_2d s ((u, d) :: l) =
  omap fst (step_2d s s (compose_all u (map fst l)) (sum_z (map snd ((u, d) :: l))) false).
Proof. exact run_2d. Qed.
Print Assumptions C52_2d_run_partial.

(** What a step means: a point fixed to the robot goes where the rigid motions say, and the
    heading is the one in the half-open interval. *)
Theorem C52_2d_rigid_partial : forall o s u d b s1 h, step_2d o s u d b = Val (s1, h) ->
  (forall pt, place (p_x (v_x s1)) (p_y (v_x s1)) (p_t (v_x s1)) pt =
     place (p_x (v_x s)) (p_y (v_x s)) (p_t (v_x s)) (place (o_x u) (o_y u) (o_t u) pt)) /\
  - PI < p_t (v_x s1) <= PI.
Proof. exact place_2d. Qed.
Print Assumptions C52_2d_rigid_partial.

Example C52_2d_example : exists s1 h, step_2d (Rv (P2 9 9 9) zero_mx 0%Z) (Rv (P2 1 2 (PI / 2)) zero_mx 5%Z) (O2 3 1 PI) 4 true = Val (s1, h) /\
  p_x (v_x s1) = 0 /\ p_y (v_x s1) = 5 /\ p_t (v_x s1) = - (PI / 2) /\ v_time s1 = 9%Z.
Proof.
  pose proof PI_RGT_0 as P. eexists. eexists. split; [reflexivity|]. cbn [v_x v_time]. rewrite move_2d_eq. cbn [p_x p_y p_t o_x o_y o_t].
  rewrite cos_PI2, sin_PI2. split; [ring|]. split; [ring|]. split; [|reflexivity].
  destruct (principal_spec (PI / 2 + PI)) as (A & B & C). apply angle_unique; [exact C|lra| |].
  - rewrite A, neg_cos, cos_neg. rewrite cos_PI2. ring.
  - rewrite B, neg_sin, sin_neg. rewrite sin_PI2. ring.
Qed.

(** Nothing happens to the pose without a displacement when its heading is in the interval. *)
Theorem C52_2d_zero_partial : forall o s d b s1 h, step_2d o s (O2 0 0 0) d b = Val (s1, h) ->
  - PI < p_t (v_x s) <= PI -> v_x s1 = v_x s.
Proof. exact zero_2d. Qed.
Print Assumptions C52_2d_zero_partial.

Example C52_2d_zero_example : - PI < p_t (P2 1 2 3) <= PI.
Proof. pose proof pi_bounds. cbn. lra. Qed.

(** In space, for a pose with a unit quaternion. *)
Theorem C52_6d_partial : forall o1 o2 o3 s u w d1 d2 s1 h1 r2, unit (r_q (v_x s)) -> not_zero (r_q u) -> not_zero (r_q w) ->
  step_6d o1 s u d1 false = Val (s1, h1) -> step_6d o2 s1 w d2 false = Val r2 ->
  let n := normalize (r_q u) in
  step_6d o3 s (P6 (place6 (P6 (r_p u) n) (r_p w)) (qmul n (normalize (r_q w)))) (d1 + d2) false = Val r2.
Proof. exact compose_6d. Qed.
Print Assumptions C52_6d_partial.

Theorem C52_6d_rigid_partial : forall o s u d s1 h, unit (r_q (v_x s)) -> not_zero (r_q u) -> step_6d o s u d false = Val (s1, h) ->
  (forall pt, place6 (v_x s1) pt = place6 (v_x s) (place6 (P6 (r_p u) (normalize (r_q u))) pt)) /\ unit (r_q (v_x s1)).
Proof. exact place_6d. Qed.
Print Assumptions C52_6d_rigid_partial.

Theorem C52_6d_zero_partial : forall o s d s1 h k, 0 < k -> step_6d o s (P6 (V3 0 0 0) (Q4 0 0 0 k)) d false = Val (s1, h) ->
  v_x s1 = v_x s.
Proof. exact zero_6d. Qed.
Print Assumptions C52_6d_zero_partial.

(** Half a turn about the vertical, then one forward, from (1, 2, 3). *)
Example C52_6d_example : exists s1 s2, unit (Q4 0 0 0 1) /\ not_zero (r_q half_turn) /\ not_zero (r_q forward) /\
  step_6d (Rv half_turn zero_mx 0%Z) (Rv (P6 (V3 1 2 3) (Q4 0 0 0 1)) zero_mx 0%Z) half_turn 1 false = Val (s1, None) /\
  step_6d s1 s1 forward 1 false = Val (s2, None) /\ r_p (v_x s2) = V3 0 2 3.
Proof.
  eexists. eexists. split; [unfold unit, qnorm2; cbn [q_x q_y q_z q_w]; ring|].
  split; [unfold not_zero, qnorm2, half_turn; cbn [r_q q_x q_y q_z q_w]; lra|].
  split; [unfold not_zero, qnorm2, forward; cbn [r_q q_x q_y q_z q_w]; lra|].
  split; [reflexivity|]. split; [reflexivity|]. cbn [v_x]. unfold move_6d. cbn [r_p r_q half_turn forward].
  rewrite normalize_id by (unfold unit, qnorm2; cbn [q_x q_y q_z q_w]; ring).
  assert (Q1 : qmul (Q4 0 0 0 1) (Q4 0 0 1 0) = Q4 0 0 1 0) by (unfold qmul; cbn [q_x q_y q_z q_w]; f_equal; ring).
  assert (T1 : transform (Q4 0 0 0 1) (V3 0 0 0) = V3 0 0 0)
    by (unfold transform, cross, add3, scale3; cbn [a_x a_y a_z q_x q_y q_z q_w]; f_equal; ring).
  assert (T2 : transform (Q4 0 0 1 0) (V3 1 0 0) = V3 (-1) 0 0)
    by (unfold transform, cross, add3, scale3; cbn [a_x a_y a_z q_x q_y q_z q_w]; f_equal; ring).
  rewrite Q1, T1, T2. unfold add3. cbn [a_x a_y a_z]. f_equal; ring.
Qed.

(** Without displacement the heading jumps by whole turns when it was outside the interval, and
    the covariance is lost. *)
Theorem C52_refuted : exists s s1 h, step_2d s s (O2 0 0 0) 1 false = Val (s1, h) /\ v_x s1 <> v_x s.
Proof. exact zero_turn. Qed.
Print Assumptions C52_refuted.
Theorem C52_cov_refuted : exists s s1 h, - PI < p_t (v_x s) <= PI /\
  step_2d s s (O2 0 0 0) 1 false = Val (s1, h) /\ v_cov s 0%nat 0%nat = 1 /\ v_cov s1 0%nat 0%nat = 0.
Proof. exact zero_cov. Qed.
Print Assumptions C52_cov_refuted.

(** From a pose whose quaternion has length two, half a turn and one forward ends at -7, the
    composed displacement at -1. *)
Theorem C52_quat_refuted : exists p : pose6, r_q p = Q4 0 0 0 2 /\
  let n := normalize (r_q half_turn) in
  r_p (move_6d (move_6d p half_turn) forward) = V3 (-7) 0 0 /\
  r_p (move_6d p (P6 (place6 (P6 (r_p half_turn) n) (r_p forward)) (qmul n (normalize (r_q forward))))) = V3 (-1) 0 0.
Proof. exact scaled_6d. Qed.
Print Assumptions C52_quat_refuted.

(** C81: steps advance the time by the sum of the time steps. *)
Theorem C81_2d_partial : forall l s s1, run step_2d s l = Val s1 -> v_time s1 = (v_time s + sum_z (map snd l))%Z.
Proof. exact time_2d. Qed.
Print Assumptions C81_2d_partial.
Theorem C81_6d_partial : forall l s s1, run step_6d s l = Val s1 -> v_time s1 = (v_time s + sum_z (map snd l))%Z.
Proof. exact time_6d. Qed.
Print Assumptions C81_6d_partial.
Theorem C81_car_partial : forall c l s s1, run (step_car c) s l = Val s1 -> v_time s1 = (v_time s + sum_z (map snd l))%Z.
Proof. exact time_car. Qed.
Print Assumptions C81_car_partial.

Example C81_example : exists s1, run step_2d (Rv (P2 0 0 0) zero_mx 10%Z) [(O2 1 0 0, 3%Z); (O2 1 0 1, 4%Z)] = Val s1 /\ v_time s1 = 17%Z.
Proof. eexists. split; reflexivity. Qed.

(** In one dimension the time stands still. *)
Theorem C81_refuted : exists s s1, run step_1d s [(1, 1000%Z); (1, 1000%Z)] = Val s1 /\ v_x s1 = v_x s + 2 /\ v_time s1 = v_time s.
Proof. exact time_stands. Qed.
Print Assumptions C81_refuted.

(** C82: the Jacobian is the derivative of the new pose by the old one.

    In the plane what the Jacobian leaves out is exactly the turn of the displacement: it is
    right along motions that keep the heading and for displacements that only turn. *)
Theorem C82_2d_partial : forall (x y a : R -> R) t d u o S1 z dT s1 H, moves3 x y a t d ->
  step_2d o (Rv (P2 (x t) (y t) (a t)) S1 z) u dT true = Val (s1, Some H) ->
  p_t (v_x s1) <> PI ->
  let new := fun s => move_2d (P2 (x s) (y s) (a s)) u in
  is_derive (fun s => p_x (new s)) t (mapp 3 H d 0%nat - (sin (a t) * o_x u + cos (a t) * o_y u) * d 2%nat) /\
  is_derive (fun s => p_y (new s)) t (mapp 3 H d 1%nat + (cos (a t) * o_x u - sin (a t) * o_y u) * d 2%nat) /\
  is_derive (fun s => p_t (new s)) t (mapp 3 H d 2%nat).
Proof. exact jac_2d. Qed.
Print Assumptions C82_2d_partial.

Theorem C82_1d_partial : forall (x : R -> R) (t x' u : R) o S1 z dT s1 H, is_derive x t x' ->
  step_1d o (Rv (x t) S1 z) u dT true = Val (s1, Some H) ->
  is_derive (fun s => match step_1d o (Rv (x s) S1 z) u dT false with Val r => v_x (fst r) | _ => 0 end) t (H 0%nat 0%nat * x').
Proof. exact jac_1d. Qed.
Print Assumptions C82_1d_partial.

(** Driving in a straight line with a displacement of 2 ahead. *)
Example C82_example : let x := fun s : R => s in let y := fun _ : R => 0 in let a := fun _ : R => 0 in
  moves3 x y a 0 (vec_of [1; 0; 0]) /\
  exists s1 H, step_2d (Rv (P2 0 0 0) zero_mx 0%Z) (Rv (P2 (x 0) (y 0) (a 0)) zero_mx 0%Z) (O2 2 0 0) 1 true = Val (s1, Some H) /\
    p_t (v_x s1) <> PI /\ mapp 3 H (vec_of [1; 0; 0]) 0%nat = 1.
Proof.
  intros x y a. pose proof pi_bounds as P. split.
  - split; [apply (is_derive_id (K := R_AbsRing))|]. split; apply (is_derive_const (V := R_NormedModule)).
  - eexists. eexists. split; [reflexivity|]. split.
    + cbn [v_x]. rewrite move_2d_eq. cbn [p_t o_t]. unfold a. rewrite principal_id; lra.
    + unfold mapp, id_mx, vec_of, dot. cbn [nth Nat.eqb]. ring.
Qed.

(** Turning the robot by a little moves the point it drives to, yet the entry is zero. *)
Theorem C82_refuted : exists s s1 H, step_2d s s (O2 1 0 0) 1 true = Val (s1, Some H) /\
  is_derive (fun t => p_y (move_2d (P2 0 0 t) (O2 1 0 0))) 0 1 /\ H 1%nat 2%nat = 0.
Proof. exact jac_wrong. Qed.
Print Assumptions C82_refuted.

(** The 6D and car models end the program when asked. *)
Theorem C82_exit_refuted : (forall o s u d, step_6d o s u d true = UB Aborted) /\
  (forall c o s u d, step_car c o s u d true = UB Aborted).
Proof. exact jac_exit. Qed.
Print Assumptions C82_exit_refuted.

(** C83: the heading stays within half a turn either way.

    For the car when no single step turns by more than a whole turn; the heading is always the
    sum of the turns up to whole turns. *)
Theorem C83_car_partial : forall k l s s1, - PI <= p_t (v_x s) <= PI ->
  List.Forall (fun ud => Rabs (seconds (snd ud) * (u_v (fst ud) / (1 - tan (u_r (fst ud)) * k_h k / k_l k)) / k_l k * tan (u_r (fst ud))) <= 2 * PI) l ->
  run (step_car (Some k)) s l = Val s1 -> - PI <= p_t (v_x s1) <= PI.
Proof. exact car_heading. Qed.
Print Assumptions C83_car_partial.

Theorem C83_car_turns_partial : forall k l s s1, run (step_car (Some k)) s l = Val s1 ->
  exists n : Z, p_t (v_x s1) = p_t (v_x s) +
    fold_right (fun ud a => seconds (snd ud) * (u_v (fst ud) / (1 - tan (u_r (fst ud)) * k_h k / k_l k)) / k_l k * tan (u_r (fst ud)) + a) 0 l +
    IZR n * (2 * PI).
Proof. exact car_turns. Qed.
Print Assumptions C83_car_turns_partial.

(** One second at speed 3 with 45 degrees of steering and wheels one apart, twice: 6 - 2 PI. *)
Example C83_car_example : exists s1, let k := Car 0 1 0 0 in let u := Steer 3 (PI / 4) in
  run (step_car (Some k)) (Rv (P2 0 0 0) zero_mx 0%Z) [(u, 1000000000%Z); (u, 1000000000%Z)] = Val s1 /\
  p_t (v_x s1) = 6 - 2 * PI /\
  Rabs (seconds 1000000000 * (3 / (1 - tan (PI / 4) * 0 / 1)) / 1 * tan (PI / 4)) <= 2 * PI.
Proof. exact car_case. Qed.

Theorem C83_2d_partial : forall l u d s s1, run step_2d s (l ++ [(u, d)]) = Val s1 -> - PI < p_t (v_x s1) <= PI.
Proof. exact heading_2d. Qed.
Print Assumptions C83_2d_partial.

(** A car that turns by 13 in one step. *)
Theorem C83_refuted : exists k s u s1, - PI <= p_t (v_x s) <= PI /\
  run (step_car (Some k)) s [(u, 1000000000%Z)] = Val s1 /\ PI < p_t (v_x s1).
Proof. exact car_leaves. Qed.
Print Assumptions C83_refuted.

(** Additive noise on the heading. *)
Theorem C83_noise_refuted : exists w s s1, - PI < p_t (v_x s) <= PI /\
  sample step_2d (fun u => u) (shift_heading w) 3 (Some id_mx) s s (O2 0 0 0) 1 true false = Val s1 /\ PI < p_t (v_x s1).
Proof. exact noise_leaves. Qed.
Print Assumptions C83_noise_refuted.

(** C84: whole turns make no difference to the likelihood of a motion.

    True for the heading before and for the turn of the input. *)
Theorem C84_partial : forall Sinv det s_k x y a dx dy b (j k : Z),
  motion_likelihood Sinv det s_k (P2 x y (a + IZR j * (2 * PI))) (O2 dx dy (b + IZR k * (2 * PI))) =
  motion_likelihood Sinv det s_k (P2 x y a) (O2 dx dy b).
Proof. exact likelihood_turns. Qed.
Print Assumptions C84_partial.

Example C84_example : motion_likelihood id_mx 1 (P2 1 0 0) (P2 0 0 0) (O2 1 0 0) = 1 / sqrt ((2 * PI) ^ 3 * 1).
Proof.
  unfold motion_likelihood, gauss. rewrite move_2d_eq. cbn [p_x p_y p_t o_x o_y o_t]. rewrite cos_0, sin_0.
  pose proof pi_bounds. rewrite principal_id by lra.
  replace (-1 / 2 * _) with 0; [rewrite exp_0; reflexivity|].
  unfold maha_n, mapp, id_mx, vec2, vec_of, dot. cbn [nth p_x p_y p_t Nat.eqb]. field.
Qed.

(** False for the heading after: -3 is predicted from 3 to be further away than -3 + 2 PI. *)
Theorem C84_refuted : exists s_km u, let L := fun h => motion_likelihood id_mx 1 (P2 0 0 h) s_km u in
  L (-3) < L (-3 + 2 * PI).
Proof. exact turn_likelihood. Qed.
Print Assumptions C84_refuted.

(** C85: sampling reads only what was configured.

    With noise set, or without asking for it; with noise zero the sample is the step. *)
Theorem C85_partial : forall (St In : Type) (step : rv St -> rv St -> In -> Z -> bool -> outcome (rv St * option mx))
    di dr n Q old s u dT additive input,
  (forall u', step old s u' dT false <> UB Uninit) -> (additive = true -> Q <> None) ->
  sample step di dr n Q old s u dT additive input <> UB Uninit.
Proof. exact sample_defined. Qed.
Print Assumptions C85_partial.

Theorem C85_exact_partial : forall (St In : Type) (step : rv St -> rv St -> In -> Z -> bool -> outcome (rv St * option mx))
    di dr n Q old s u dT additive,
  (additive = true -> exists M, Q = Some M /\ forall i j, (i < n)%nat -> (j < n)%nat -> M i j = 0) ->
  sample step di dr n Q old s u dT additive false = omap fst (step old s u dT false).
Proof. exact sample_exact. Qed.
Print Assumptions C85_exact_partial.

Example C85_example : (forall o s (u : odo2) d, step_2d o s u d false <> UB Uninit) /\
  exists M : mx, Some zero_mx = Some M /\ forall i j, (i < 3)%nat -> (j < 3)%nat -> M i j = 0.
Proof. split; [intros; unfold step_2d; discriminate|]. exists zero_mx. split; [reflexivity|]. intros. reflexivity. Qed.

(** A default constructed model, sampled with the default arguments. *)
Theorem C85_refuted : forall di dr s u dT, sample step_2d di dr 3 None s s u dT true false = UB Uninit.
Proof. exact sample_uninit. Qed.
Print Assumptions C85_refuted.
(** A car constructed from its noise only. *)
Theorem C85_car_refuted : forall s u dT, step_car None s s u dT false = UB Uninit.
Proof. exact car_uninit. Qed.
Print Assumptions C85_car_refuted.

(** C86: pose_grad is the gradient of the returned value by the pose.

    For the log-likelihood, in every direction. *)
Theorem C86_log_partial : forall n S det pred (x : R -> vec) (t : R) (dx : vec),
  (forall i j, (i < n)%nat -> (j < n)%nat -> S i j = S j i) ->
  (forall i, (i < n)%nat -> is_derive (fun s => x s i) t (dx i)) ->
  is_derive (fun s => fst (log_likelihood_grad n S det pred (x s))) t (dot n (snd (log_likelihood_grad n S det pred (x t))) dx).
Proof. exact grad_log. Qed.
Print Assumptions C86_log_partial.

(** For the likelihood it is the gradient of the logarithm: the factor is missing. *)
Theorem C86_lik_partial : forall n S det pred (x : R -> vec) (t : R) (dx : vec),
  (forall i j, (i < n)%nat -> (j < n)%nat -> S i j = S j i) ->
  (forall i, (i < n)%nat -> is_derive (fun s => x s i) t (dx i)) ->
  let r := likelihood_grad n S det pred (x t) in
  is_derive (fun s => fst (likelihood_grad n S det pred (x s))) t (fst r * dot n (snd r) dx).
Proof. exact grad_lik. Qed.
Print Assumptions C86_lik_partial.

(** Two dimensions, not diagonal: the gradient at (1, 1) is (-3, -4). *)
Example C86_example : let S := mx_of [[2; 1]; [1; 3]] in let x := fun t i => vec_of [1; 1] i + t in
  (forall i j, (i < 2)%nat -> (j < 2)%nat -> S i j = S j i) /\
  snd (log_likelihood_grad 2 S 1 (fun _ => 0) (x 0)) 0%nat = -3 /\
  snd (log_likelihood_grad 2 S 1 (fun _ => 0) (x 0)) 1%nat = -4.
Proof.
  intros S x. split.
  - intros i j Hi Hj. destruct i as [|[|]]; destruct j as [|[|]]; try lia; reflexivity.
  - unfold log_likelihood_grad, mapp, S, x, mx_of, vec_of, dot. cbn [fst snd nth]. split; ring.
Qed.

Theorem C86_refuted : exists (x : vec), let r := likelihood_grad 1 id_mx 1 (fun _ => 0) x in
  is_derive (fun t => fst (likelihood_grad 1 id_mx 1 (fun _ => 0) (fun i => x i + t))) 0 (fst r * snd r 0%nat) /\
  fst r * snd r 0%nat <> snd r 0%nat.
Proof. exact grad_wrong. Qed.
Print Assumptions C86_refuted.

(** C87: the log-likelihood is the logarithm of the likelihood.

    For a regular covariance, also when the squared distance overflows. *)
Theorem C87_partial : forall n det m, 0 < det -> m <> NaN -> m <> Inf true -> xexp (xloglik n det m) = xlik n det m.
Proof. exact xlog_agree. Qed.
Print Assumptions C87_partial.

Theorem C87_value_partial : forall n det m, 0 < det ->
  xlik n det (Fin m) = Fin (exp (-1 / 2 * m) / sqrt ((2 * PI) ^ n * det)) /\
  xloglik n det (Fin m) = Fin (-1 / 2 * m - ln (sqrt ((2 * PI) ^ n * det))).
Proof. exact xlik_fin. Qed.
Print Assumptions C87_value_partial.

Example C87_example : xexp (xloglik 2 3 (Inf false)) = Fin 0 /\ xmaha1 1 4 5 = Fin 4.
Proof. exact xlog_case. Qed.

(** With a variance of zero both are zero wherever they are evaluated: the likelihood says
    impossible, its logarithm says a density of one. *)
Theorem C87_refuted : forall x at_, xlik 1 0 (xmaha1 x 0 at_) = Fin 0 /\ xloglik 1 0 (xmaha1 x 0 at_) = Fin 0.
Proof. exact xlog_singular. Qed.
Print Assumptions C87_refuted.

(** C88: the rotation of a pose in space keeps length one. *)
Theorem C88_partial : forall l s s1, unit (r_q (v_x s)) -> List.Forall (fun ud => not_zero (r_q (fst ud))) l ->
  run step_6d s l = Val s1 -> unit (r_q (v_x s1)).
Proof. exact run_6d_unit. Qed.
Print Assumptions C88_partial.

Example C88_example : unit (Q4 0 0 0 1) /\ List.Forall (fun ud : pose6 * Z => not_zero (r_q (fst ud))) [(P6 (V3 1 0 0) (Q4 1 2 3 4), 1%Z)].
Proof.
  split; [unfold unit, qnorm2; cbn [q_x q_y q_z q_w]; ring|]. constructor; [|constructor].
  unfold not_zero, qnorm2. cbn [fst r_q q_x q_y q_z q_w]. lra.
Qed.

(** Additive noise breaks it. *)
Theorem C88_refuted : exists w s s1, unit (r_q (v_x s)) /\
  sample step_6d (fun u => u) (shift_rot w) 7 (Some id_mx) s s (P6 (V3 0 0 0) (Q4 0 0 0 1)) 1 true false = Val s1 /\
  ~ unit (r_q (v_x s1)).
Proof. exact noise_unit. Qed.
Print Assumptions C88_refuted.
