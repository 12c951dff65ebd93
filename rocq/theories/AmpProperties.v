(** Theorems about measurements with amplitudes and about sampling measurements. *)
From Coq Require Import Reals List Bool Lra Lia.
From Coquelicot Require Import Coquelicot.
From Verif Require Import Base SensorModel SensorProofs DriveModel AmpModel AmpSpec AmpProofs.
Import ListNotations.
Local Open Scope R_scope.

(** * C164: the likelihood has a normal factor for the amplitude *)
(** For every program on measurements: an object constructed from data computes the likelihood of range
    and bearing times the normal density of the other one's amplitude; a copy reads memory that was
    never written. *)
Theorem C164_partial : forall spatial p m i j e x b, run [] p = Val m -> nth_error m i = Some e -> nth_error m j = Some x ->
  nth_error (origins p) i = Some b ->
  likelihood spatial e x = if b then Val (spatial (a_z e) (a_S e) (a_z x) * normal 10 2 (a_amp x)) else UB Uninit.
Proof. exact program_likelihood. Qed.
Print Assumptions C164_partial.
(** Every object has an origin. *)
Theorem C164_origins : forall p m, run [] p = Val m -> List.length (origins p) = List.length m.
Proof. exact program_origins. Qed.
Print Assumptions C164_origins.
(** Range, bearing, covariance and amplitude are copied and assigned as values. *)
Theorem C164_values : forall p m m', run m p = Val m' -> map value m' = fold_left exec_value p (map value m).
Proof. exact run_value. Qed.
Print Assumptions C164_values.
Theorem C164_refuted : exists e, likelihood (fun _ _ _ => 1) e e = Val (normal 10 2 (a_amp e)) /\ value (copy e) = value e /\
  likelihood (fun _ _ _ => 1) (copy e) (copy e) = UB Uninit.
Proof.
  exists (construct (1, 0) (fun _ _ => 0)). split; [|split; reflexivity]. rewrite likelihood_new by reflexivity. f_equal. ring.
Qed.
Print Assumptions C164_refuted.
Example C164_ex : exists m, run [] [New (1, 0) (diag2 1 1); SetAmp 0 7; Copy 0; Assign 0 1; New (2, 0) (diag2 1 1); Assign 2 1] = Val m /\
  origins [New (1, 0) (diag2 1 1); SetAmp 0 7; Copy 0; Assign 0 1; New (2, 0) (diag2 1 1); Assign 2 1] = [true; false; true] /\
  map a_amp m = [7; 7; 7].
Proof. eexists. split; [reflexivity|]. split; reflexivity. Qed.

(** * C165: evidence for a landmark grows with the amplitude *)
(** Of two returns from the same place the stronger one speaks more for a landmark, compared with a false
    alarm, exactly if the mean of the amplitudes is below 10 + 2 * 0.7777. *)
Theorem C165_partial : forall spatial c z Sx x a b l1 l2, 0 < s_clutter c -> 0 < spatial z Sx x -> a < b ->
  likelihood spatial (construct z Sx) (set_amp (construct x Sx) a) = Val l1 ->
  likelihood spatial (construct z Sx) (set_amp (construct x Sx) b) = Val l2 ->
  (l1 / clutter_amp c a < l2 / clutter_amp c b <-> a + b < 2 * (10 + 2 * (7777 / 10000))).
Proof. exact filter_evidence. Qed.
Print Assumptions C165_partial.
(** A very strong return is taken for a false alarm. *)
Theorem C165_refuted : forall c, 0 < s_clutter c ->
  normal 10 2 30 / clutter_amp c 30 < normal 10 2 (-5) / clutter_amp c (-5).
Proof.
  intros c H. apply Rnot_le_lt. intro K. destruct K as [K|K].
  - apply (evidence_order c (-5) 30) in K; [lra|exact H|lra].
  - rewrite !evidence_form in K by exact H.
    assert (D : 0 < sqrt (2 * PI * 2) * (s_clutter c * (7777 / 10000))).
    { apply Rmult_lt_0_compat; [apply sqrt_lt_R0; pose proof PI_RGT_0; lra|lra]. }
    apply Rmult_eq_reg_r in K; [|apply Rinv_neq_0_compat; lra]. apply exp_inv in K. lra.
Qed.
Print Assumptions C165_refuted.
Example C165_ex : let c := SCfg 1 2 10 0 0 in normal 10 2 3 / clutter_amp c 3 < normal 10 2 11 / clutter_amp c 11 /\
  normal 10 2 20 / clutter_amp c 20 < normal 10 2 15 / clutter_amp c 15.
Proof.
  intro c. assert (H : 0 < s_clutter c) by (cbn; lra). split.
  - apply (evidence_order c 3 11 H); lra.
  - rewrite !evidence_form by exact H. apply Rmult_lt_compat_r.
    + apply Rinv_0_lt_compat. apply Rmult_lt_0_compat; [apply sqrt_lt_R0; pose proof PI_RGT_0; lra|lra].
    + apply exp_increasing. lra.
Qed.

(** * C166: simulated amplitudes follow the assumed distributions *)
(** A detection gets the first normal amplitude of the stream that is not negative, *)
Theorem C166_detection_partial : forall fuel s p a q, draw_amp fuel s p = Val (a, q) ->
  exists n, q = S (p + n) /\ a = 10 + s (p + n)%nat * sqrt 2 /\ 0 <= a /\ forall i, (i < n)%nat -> 10 + s (p + i)%nat * sqrt 2 < 0.
Proof. exact draw_amp_ok. Qed.
Print Assumptions C166_detection_partial.
(** which is found as soon as there is one. *)
Theorem C166_ends : forall n s p, 0 <= 10 + s (p + n)%nat * sqrt 2 -> exists r, draw_amp n s p = Val r.
Proof. exact draw_amp_ends. Qed.
Print Assumptions C166_ends.
(** The amplitude of a false alarm is at most x exactly if the draw is at most 0.7777 x, and the factor in the
    clutter intensity is the density of that event. *)
Theorem C166_alarm : forall c x, s_clutter c <> 0 -> (forall e, false_amp e <= x <-> e <= 7777 / 10000 * x) /\
  is_derive (fun x => exp_cdf (7777 / 10000 * x)) x (clutter_amp c x / s_clutter c).
Proof. exact (fun c x H => conj (fun e => false_event e x) (false_density c x H)). Qed.
Print Assumptions C166_alarm.
(** The density of the likelihood has mass on amplitudes that are never simulated. *)
Theorem C166_refuted : 0 < RInt (normal 10 2) (-1) 0 /\ forall fuel s p a q, draw_amp fuel s p = Val (a, q) -> ~ a < 0.
Proof.
  split; [exact truncated|]. intros fuel s p a q H K. destruct (draw_amp_ok _ _ _ _ _ H) as (n & _ & _ & L & _). lra.
Qed.
Print Assumptions C166_refuted.
Example C166_ex : draw_amp 5 (fun i => match i with O => -20 | _ => sqrt 2 end) 0 = Val (12, 2%nat).
Proof.
  cbn. assert (S1 : 1 < sqrt 2) by (rewrite <- sqrt_1 at 1; apply sqrt_lt_1; lra). assert (S2 : sqrt 2 * sqrt 2 = 2) by (apply sqrt_sqrt; lra).
  destruct (Rlt_dec (10 + -20 * sqrt 2) 0); [|lra]. destruct (Rlt_dec (10 + sqrt 2 * sqrt 2) 0); [lra|]. rewrite S2. f_equal. f_equal. lra.
Qed.

(** * C167: the measurement file holds the measurements *)
(** Two simulations give the same file exactly if times, ranges and bearings agree. *)
Theorem C167_partial : forall l l', export_meas l = export_meas l' <->
  map (fun m => (m_t m, m_r m, m_b m)) l = map (fun m => (m_t m, m_r m, m_b m)) l'.
Proof. exact export_same. Qed.
Print Assumptions C167_partial.
Theorem C167_defined : forall l, export_meas l = Val (map (fun m => [m_t m; m_r m; m_b m]) l).
Proof. exact export_val. Qed.
Print Assumptions C167_defined.
(** The amplitude is lost. *)
Theorem C167_refuted : exists l l', l <> l' /\ export_meas l = export_meas l'.
Proof.
  exists [Stored 1 2 3 4], [Stored 1 2 3 5]. split; [|reflexivity]. intro H. injection H as H. lra.
Qed.
Print Assumptions C167_refuted.

(** * C168: a sampled measurement is one the sensor can return *)
(** Sampling succeeds exactly if the landmark is in range of the pose, both moved by their noise if asked for; the
    range is the distance moved by the noise; without measurement noise the bearing is within half a turn. *)
Theorem C168_partial : forall chol c Rn p PS l LS (useZ useP useL : bool) s k,
  let k1 := if useP then (k + 3)%nat else k in
  let k2 := if useL then (k1 + 2)%nat else k1 in
  let r := distance (used_pose chol p PS useP s k) (used_lmk chol l LS useL s k1) in
  exists n z, (forall fuel, (n < fuel)%nat -> sample_rb chol fuel c Rn p PS l LS useZ useP useL s k = Val z) /\
    (z_ok z = true <-> s_min c <= r <= s_max c) /\
    (z_ok z = true -> useZ = true -> z_cov z = Some Rn /\ z_next z = (k2 + 2)%nat /\
       fst (z_mean z) = r + (chol 2%nat Rn 0%nat 0%nat * s k2 + chol 2%nat Rn 0%nat 1%nat * s (k2 + 1)%nat)) /\
    (useZ = false -> z_next z = k2 /\ fst (z_mean z) = r /\ - PI <= snd (z_mean z) <= PI).
Proof. exact sample_all. Qed.
Print Assumptions C168_partial.
(** Noise takes range and bearing out of their limits. *)
Theorem C168_refuted : forall chol, chol_diag chol -> exists n z, (forall fuel, (n < fuel)%nat ->
    sample_rb chol fuel far_cfg (diag2 1 1) (P2 0 0 0) (fun _ _ => 0) (10, 0) (fun _ _ => 0) true false false (fun _ => 9) 0 = Val z) /\
  z_ok z = true /\ s_max far_cfg < fst (z_mean z) /\ PI < snd (z_mean z).
Proof. exact beyond. Qed.
Print Assumptions C168_refuted.
(** There are such Cholesky factors. *)
Example C168_ex : chol_diag (fun _ S => diag2 (sqrt (S 0%nat 0%nat)) (sqrt (S 1%nat 1%nat))).
Proof. intros a b A B. reflexivity. Qed.

(** * C169: a landmark in range is detected with the configured probability *)
(** The simulator stores a measurement exactly if the landmark and the noisy range are within the limits and the draw
    is at most Pd; what it stores has a range within the limits. *)
Theorem C169_partial : forall chol c a b p PS l LS s k u, chol_diag chol -> 0 <= a -> 0 <= b ->
  exists n (o : option (R * R)), (forall fuel, (n < fuel)%nat -> detect chol fuel c (diag2 a b) p PS l LS s k u = Val o) /\
    (o <> None <-> (s_min c <= distance p l <= s_max c) /\ (s_min c <= distance p l + sqrt a * s k <= s_max c) /\ u <= s_pd c) /\
    (forall z, o = Some z -> fst z = distance p l + sqrt a * s k /\ s_min c <= fst z <= s_max c /\ - PI <= snd z - sqrt b * s (k + 1)%nat <= PI).
Proof. exact detect_iff. Qed.
Print Assumptions C169_partial.
(** In range, Pd = 1, and still missed. *)
Theorem C169_refuted : forall chol, chol_diag chol -> (s_min far_cfg <= distance (P2 0 0 0) (10, 0) <= s_max far_cfg /\ s_pd far_cfg = 1) /\
  exists n, forall fuel, (n < fuel)%nat ->
  detect chol fuel far_cfg (diag2 1 1) (P2 0 0 0) (fun _ _ => 0) (10, 0) (fun _ _ => 0) (fun _ => 9) 0 0 = Val None.
Proof.
  intros chol H. split; [|exact (detect_misses chol H)]. split; [|reflexivity]. rewrite distance_axis by lra. cbn [s_min s_max far_cfg]. lra.
Qed.
Print Assumptions C169_refuted.
(** Stored bearings may be more than half a turn. *)
Theorem C169_bearing_refuted : forall chol, chol_diag chol -> exists n z, (forall fuel, (n < fuel)%nat ->
  detect chol fuel far_cfg (diag2 1 1) (P2 0 0 0) (fun _ _ => 0) (5, 0) (fun _ _ => 0) (fun i => match i with O => 0 | _ => 9 end) 0 0 = Val (Some z)) /\ PI < snd z.
Proof. exact detect_turned. Qed.
Print Assumptions C169_bearing_refuted.
