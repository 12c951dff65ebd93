(** Witnesses: what does not hold of the process models. *)
From Coq Require Import Reals Lra Lia ZArith List Bool.
From Coquelicot Require Import Coquelicot.
From Verif Require Import Base SensorModel SensorProofs SensorDeriv OdometryModel OdometrySpec OdometryProofs OdometryProofs2.
Import ListNotations.
Local Open Scope R_scope.

Lemma pi_bounds : 3 < PI <= 4.
Proof. pose proof PI2_3_2. pose proof PI_4. lra. Qed.

Lemma zero_turn : exists s s1 h, step_2d s s (O2 0 0 0) 1 false = Val (s1, h) /\ v_x s1 <> v_x s.
Proof.
  pose proof pi_bounds as P.
  exists (Rv (P2 0 0 7) zero_mx 0%Z). eexists. eexists. split; [reflexivity|]. cbn [v_x]. rewrite move_2d_eq.
  intro E. apply (f_equal p_t) in E. cbn [p_t o_t] in E. destruct (principal_spec (7 + 0)) as (_ & _ & B). lra.
Qed.

Lemma zero_cov : exists s s1 h, - PI < p_t (v_x s) <= PI /\
  step_2d s s (O2 0 0 0) 1 false = Val (s1, h) /\ v_cov s 0%nat 0%nat = 1 /\ v_cov s1 0%nat 0%nat = 0.
Proof.
  pose proof pi_bounds as P. exists (Rv (P2 0 0 0) id_mx 0%Z). eexists. eexists.
  split; [cbn; lra|]. split; [reflexivity|]. split; reflexivity.
Qed.

Definition half_turn : pose6 := P6 (V3 0 0 0) (Q4 0 0 1 0).
Definition forward : pose6 := P6 (V3 1 0 0) (Q4 0 0 0 1).

Lemma scaled_6d : exists p : pose6, r_q p = Q4 0 0 0 2 /\
  let n := normalize (r_q half_turn) in
  r_p (move_6d (move_6d p half_turn) forward) = V3 (-7) 0 0 /\
  r_p (move_6d p (P6 (place6 (P6 (r_p half_turn) n) (r_p forward)) (qmul n (normalize (r_q forward))))) = V3 (-1) 0 0.
Proof.
  exists (P6 (V3 0 0 0) (Q4 0 0 0 2)). split; [reflexivity|]. intro n.
  assert (N : n = Q4 0 0 1 0) by (apply normalize_id; unfold unit, qnorm2, half_turn; cbn; ring).
  assert (F : normalize (r_q forward) = Q4 0 0 0 1) by (apply normalize_id; unfold unit, qnorm2, forward; cbn; ring).
  assert (N' : normalize (Q4 0 0 1 0) = Q4 0 0 1 0) by exact N.
  assert (Q1 : qmul (Q4 0 0 0 2) (Q4 0 0 1 0) = Q4 0 0 2 0) by (unfold qmul; cbn [q_x q_y q_z q_w]; f_equal; ring).
  assert (T1 : forall a, transform (Q4 0 0 0 2) (V3 a 0 0) = V3 a 0 0)
    by (intro a; unfold transform, cross, add3, scale3; cbn [a_x a_y a_z q_x q_y q_z q_w]; f_equal; ring).
  assert (T2 : transform (Q4 0 0 2 0) (V3 1 0 0) = V3 (-7) 0 0)
    by (unfold transform, cross, add3, scale3; cbn [a_x a_y a_z q_x q_y q_z q_w]; f_equal; ring).
  assert (R1 : rotate (Q4 0 0 1 0) (V3 1 0 0) = V3 (-1) 0 0)
    by (unfold rotate, mapp, to_matrix, mx_of, vec_of, dot; cbn [nth a_x a_y a_z q_x q_y q_z q_w]; f_equal; ring).
  assert (A0 : forall v, add3 (V3 0 0 0) v = v)
    by (intros [x y z]; unfold add3; cbn [a_x a_y a_z]; f_equal; ring).
  split.
  - unfold move_6d. cbn [r_p r_q half_turn forward]. rewrite N', Q1, T1, T2, !A0. reflexivity.
  - rewrite N. unfold move_6d, place6. cbn [r_p r_q half_turn forward]. rewrite R1, !A0, T1. reflexivity.
Qed.

Lemma time_stands : exists s s1, run step_1d s [(1, 1000%Z); (1, 1000%Z)] = Val s1 /\ v_x s1 = v_x s + 2 /\ v_time s1 = v_time s.
Proof.
  exists (Rv 0 zero_mx 0%Z). eexists. split; [reflexivity|]. cbn [v_x v_time fst]. split; [ring|reflexivity].
Qed.

Lemma jac_wrong : exists s s1 H, step_2d s s (O2 1 0 0) 1 true = Val (s1, Some H) /\
  is_derive (fun t => p_y (move_2d (P2 0 0 t) (O2 1 0 0))) 0 1 /\ H 1%nat 2%nat = 0.
Proof.
  exists (Rv (P2 0 0 0) zero_mx 0%Z). eexists. eexists. split; [reflexivity|]. split; [|reflexivity].
  apply is_derive_ext with (f := fun t => sin t).
  - intro t. rewrite move_2d_eq. eqr. cbn [p_x p_y p_t o_x o_y o_t]. ring.
  - evar_last; [apply is_derive_sin|]. apply cos_0.
Qed.

Lemma jac_exit : (forall o s u d, step_6d o s u d true = UB Aborted) /\ (forall c o s u d, step_car c o s u d true = UB Aborted).
Proof. split; reflexivity. Qed.

Lemma tan_quarter : tan (PI / 4) = 1.
Proof. apply tan_PI4. Qed.

Lemma car_leaves : exists k s u s1, - PI <= p_t (v_x s) <= PI /\
  run (step_car (Some k)) s [(u, 1000000000%Z)] = Val s1 /\ PI < p_t (v_x s1).
Proof.
  pose proof pi_bounds as P.
  exists (Car 0 1 0 0), (Rv (P2 0 0 0) zero_mx 0%Z), (Steer 13 (PI / 4)).
  assert (N2 : 1 - tan (PI / 4) * 0 / 1 <> 0) by (rewrite tan_quarter; lra).
  eexists. split; [cbn; lra|]. split.
  - cbn [run]. unfold step_car. cbn [k_l k_h u_r]. destruct (Req_EM_T 1 0); [lra|].
    destruct (Req_EM_T (1 - tan (PI / 4) * 0 / 1) 0); [contradiction|]. cbn [obind fst run]. reflexivity.
  - cbn [v_x]. unfold move_car. cbn [p_t u_v u_r k_l k_h]. rewrite tan_quarter. unfold seconds.
    replace (0 + 1000000000 / 1000000000 * (13 / (1 - 1 * 0 / 1)) / 1 * 1) with 13 by field.
    unfold wrap_once. destruct (Rlt_dec PI 13); [lra|lra].
Qed.

Definition shift_heading (w : R) (_ : mx) (p : pose2) : pose2 := P2 (p_x p) (p_y p) (p_t p + w).

Lemma noise_leaves : exists w s s1, - PI < p_t (v_x s) <= PI /\
  sample step_2d (fun u => u) (shift_heading w) 3 (Some id_mx) s s (O2 0 0 0) 1 true false = Val s1 /\ PI < p_t (v_x s1).
Proof.
  pose proof pi_bounds as P. exists 2, (Rv (P2 0 0 3) zero_mx 0%Z). eexists. split; [cbn; lra|]. split.
  - unfold sample, step_2d. cbn [obind fst v_x v_time]. unfold nonzero, id_mx. cbn [seq existsb Nat.eqb].
    destruct (Req_EM_T 1 0); [lra|]. cbn [orb]. reflexivity.
  - cbn [v_x]. unfold shift_heading. rewrite move_2d_eq. cbn [p_t o_t]. rewrite Rplus_0_r, principal_id by lra. lra.
Qed.

Lemma turn_likelihood : exists s_km u, let L := fun h => motion_likelihood id_mx 1 (P2 0 0 h) s_km u in
  L (-3) < L (-3 + 2 * PI).
Proof.
  pose proof pi_bounds as P. exists (P2 0 0 3), (O2 0 0 0). intro L. unfold L, motion_likelihood, gauss.
  apply Rmult_lt_compat_r; [apply Rinv_0_lt_compat; apply (factor_pos 3 1); lra|]. apply exp_increasing.
  rewrite move_2d_eq. cbn [p_x p_y p_t o_x o_y o_t]. rewrite Rplus_0_r, principal_id by lra.
  unfold maha_n, mapp, id_mx, vec2, vec_of, dot. cbn [nth p_x p_y p_t Nat.eqb]. nra.
Qed.

Lemma sample_uninit : forall di dr s u dT, sample step_2d di dr 3 None s s u dT true false = UB Uninit.
Proof. reflexivity. Qed.
Lemma car_uninit : forall s u dT, step_car None s s u dT false = UB Uninit.
Proof. reflexivity. Qed.

Lemma grad_wrong : exists (x : vec), let r := likelihood_grad 1 id_mx 1 (fun _ => 0) x in
  is_derive (fun t => fst (likelihood_grad 1 id_mx 1 (fun _ => 0) (fun i => x i + t))) 0 (fst r * snd r 0%nat) /\
  fst r * snd r 0%nat <> snd r 0%nat.
Proof.
  exists (fun _ => 1). intro r. split.
  - evar_last.
    + apply (grad_lik 1 id_mx 1 (fun _ => 0) (fun t i => 1 + t) 0 (fun _ => 1)).
      * intros i j Hi Hj. replace i with 0%nat by lia. replace j with 0%nat by lia. reflexivity.
      * intros i Hi. evar_last; [apply der_plus; [apply (is_derive_const (V := R_NormedModule))|apply (is_derive_id (K := R_AbsRing))]|].
        change (0 + 1 = 1). ring.
    + unfold r, likelihood_grad, maha_n, mapp, id_mx, dot. cbn [fst snd Nat.eqb]. rewrite !Rplus_0_r, ?Rplus_0_l, ?Rminus_0_r. ring.
  - unfold r, likelihood_grad, maha_n, mapp, id_mx, dot, gauss. cbn [fst snd Nat.eqb].
    replace (0 + 1 * (1 - 0)) with 1 by ring. replace (-1 / 2 * (0 + (1 - 0) * 1)) with (- / 2) by field.
    assert (F : 1 < sqrt ((2 * PI) ^ 1 * 1)).
    { rewrite <- sqrt_1 at 1. apply sqrt_lt_1; pose proof pi_bounds; cbn; lra. }
    assert (X : exp (- / 2) < 1). { rewrite <- exp_0. apply exp_increasing. lra. }
    pose proof (exp_pos (- / 2)) as X0. intro E.
    assert (G : exp (- / 2) / sqrt ((2 * PI) ^ 1 * 1) = 1) by lra.
    assert (exp (- / 2) / sqrt ((2 * PI) ^ 1 * 1) < 1); [|lra].
    apply Rmult_lt_reg_r with (sqrt ((2 * PI) ^ 1 * 1)); [lra|]. unfold Rdiv. rewrite Rmult_assoc, Rinv_l by lra. lra.
Qed.

Definition shift_rot (w : R) (_ : mx) (p : pose6) : pose6 :=
  P6 (r_p p) (Q4 (q_x (r_q p)) (q_y (r_q p)) (q_z (r_q p)) (q_w (r_q p) + w)).

Lemma noise_unit : exists w s s1, unit (r_q (v_x s)) /\
  sample step_6d (fun u => u) (shift_rot w) 7 (Some id_mx) s s (P6 (V3 0 0 0) (Q4 0 0 0 1)) 1 true false = Val s1 /\
  ~ unit (r_q (v_x s1)).
Proof.
  exists 1, (Rv (P6 (V3 0 0 0) (Q4 0 0 0 1)) zero_mx 0%Z). eexists. split; [unfold unit, qnorm2; cbn; ring|]. split.
  - unfold sample, step_6d. cbn [obind fst v_x v_time]. unfold nonzero, id_mx. cbn [seq existsb Nat.eqb].
    destruct (Req_EM_T 1 0); [lra|]. cbn [orb]. reflexivity.
  - cbn [v_x]. unfold shift_rot, move_6d. cbn [r_p r_q].
    rewrite normalize_id by (unfold unit, qnorm2; cbn; ring). unfold unit, qnorm2, qmul. cbn [q_x q_y q_z q_w]. lra.
Qed.

Lemma xlog_case : xexp (xloglik 2 3 (Inf false)) = Fin 0 /\ xmaha1 1 4 5 = Fin 4.
Proof.
  split.
  - rewrite xlog_agree by (try discriminate; lra). unfold xlik. cbn [xmul]. destruct (Req_EM_T (-1 / 2) 0); [lra|].
    unfold neg_of. destruct (Rlt_dec (-1 / 2) 0); [|lra]. cbn [xorb xexp]. unfold xfactor, xsqrt.
    pose proof (factor_pos 2 3). assert (0 < (2 * PI) ^ 2 * 3) by (pose proof pi_bounds; nra).
    destruct (Rlt_dec ((2 * PI) ^ 2 * 3) 0); [lra|]. cbn [xdiv]. destruct (Req_EM_T (sqrt ((2 * PI) ^ 2 * 3)) 0); [lra|].
    cbn [zero_nan]. f_equal. unfold Rdiv. ring.
  - unfold xmaha1. cbn [xdiv xmul]. destruct (Req_EM_T 4 0); [lra|]. cbn [xmul]. f_equal. field.
Qed.

Lemma car_case : exists s1, let k := Car 0 1 0 0 in let u := Steer 3 (PI / 4) in
  run (step_car (Some k)) (Rv (P2 0 0 0) zero_mx 0%Z) [(u, 1000000000%Z); (u, 1000000000%Z)] = Val s1 /\
  p_t (v_x s1) = 6 - 2 * PI /\
  Rabs (seconds 1000000000 * (3 / (1 - tan (PI / 4) * 0 / 1)) / 1 * tan (PI / 4)) <= 2 * PI.
Proof.
  pose proof pi_bounds as P. eexists. intros k u.
  assert (N2 : 1 - tan (PI / 4) * 0 / 1 <> 0) by (rewrite tan_quarter; lra). split; [|split].
  - unfold k, u. cbn [run]. unfold step_car. cbn [k_l k_h u_r]. destruct (Req_EM_T 1 0); [lra|].
    destruct (Req_EM_T (1 - tan (PI / 4) * 0 / 1) 0); [contradiction|]. cbn [obind fst run]. reflexivity.
  - cbn [v_x fst]. unfold move_car. cbn [p_t u_v u_r k_l k_h]. rewrite tan_quarter. unfold seconds.
    replace (1000000000 / 1000000000 * (3 / (1 - 1 * 0 / 1)) / 1 * 1) with 3 by field.
    unfold wrap_once. destruct (Rlt_dec PI (0 + 3)); [lra|]. destruct (Rlt_dec (0 + 3) (- PI)); [lra|].
    destruct (Rlt_dec PI (0 + 3 + 3)); lra.
  - rewrite tan_quarter. unfold seconds. replace (1000000000 / 1000000000 * (3 / (1 - 1 * 0 / 1)) / 1 * 1) with 3 by field.
    rewrite Rabs_right; lra.
Qed.
