(** Theorems for C110-C121. *)
From Coq Require Import List Arith ZArith QArith Qcanon Lia Reals Lra Bool.
From Verif Require Import Base QcLra PermanentSpec SensorModel SimModel SimSpec SimProofs SimProofs2 SimProofs3 SimProofs4 SimProofs5.
Import ListNotations.

(** * C110 *)
(** The number of landmarks made, for all settings, and the steps at which they are made. *)
Theorem C110_count_partial : forall kMax n, (1 <= kMax)%Z -> (1 <= n)%Z ->
  exists ks, landmark_steps kMax n = Val ks /\ increasing ks /\ (forall k, In k ks -> (1 <= k < kMax)%Z) /\
    Z.of_nat (length ks) = (if kMax / n =? 0 then kMax - 1 else Z.min (kMax - 1) (1 + (kMax - 1) / (kMax / n)))%Z.
Proof. exact landmark_count. Qed.

(** Never fewer than configured (when there are enough steps), never more than twice that, and the
    configured number when it divides the number of steps; the same for trajectory segments. *)
Theorem C110_bounds_partial : forall kMax n, (1 <= n)%Z ->
  ((n <= kMax - 1)%Z -> exists ks, landmark_steps kMax n = Val ks /\ (n <= Z.of_nat (length ks) <= 2 * n)%Z /\
     ((n | kMax)%Z -> Z.of_nat (length ks) = n)) /\
  ((n <= kMax - 51)%Z -> exists ks, segment_steps kMax n = Val ks /\ increasing ks /\ (forall k, In k ks -> (51 <= k < kMax)%Z) /\
     (n <= Z.of_nat (length ks) <= 2 * n)%Z /\ ((n | kMax)%Z -> Z.of_nat (length ks) = n)).
Proof. exact both_bounds. Qed.

Example C110_ex : omap (@length Z) (landmark_steps 3000 50) = Val 50%nat /\ omap (@length Z) (segment_steps 1000 20) = Val 20%nat.
Proof. vm_compute. auto. Qed.

(** 100 steps, 30 landmarks asked for: 34 are made. *)
Theorem C110_refuted : exists kMax n ks, (n <= kMax - 1)%Z /\ landmark_steps kMax n = Val ks /\ Z.of_nat (length ks) <> n.
Proof. exists 100%Z, 30%Z. eexists. split; [lia|]. split; [vm_compute; reflexivity|]. vm_compute. discriminate. Qed.
(** A world without landmarks cannot be asked for. *)
Theorem C110_zero_refuted : exists kMax, (1 <= kMax)%Z /\ landmark_steps kMax 0 = UB DivByZero.
Proof. exists 2%Z. split; [lia|reflexivity]. Qed.

(** * C111 *)
(** With the range-bearing sensor the landmark lies at the drawn range. *)
Theorem C111_partial : forall p r u Rn, (0 <= r)%R -> dist2 (new_landmark_rb p r u Rn) (p_x p, p_y p) = r.
Proof. exact landmark_rb_dist. Qed.
(** With the Cartesian sensor the drawn bearing is used as a coordinate. *)
Theorem C111_xy_partial : forall p r u Rn, dist2 (new_landmark_xy p r u Rn) (p_x p, p_y p) = sqrt (r ^ 2 + (u * 2 * PI) ^ 2)%R.
Proof. exact landmark_xy_dist. Qed.
Theorem C111_refuted : exists p r u Rn, (0 <= r < 5 /\ 0 <= u < 1 /\ 5 < dist2 (new_landmark_xy p r u Rn) (p_x p, p_y p))%R.
Proof. exact xy_landmark_outside. Qed.
Example C111_ex : (dist2 (new_landmark_rb (P2 1 2 0) 3 (1/4) (fun _ _ => 0)) (1, 2) = 3)%R.
Proof. apply (C111_partial (P2 1 2 0)). lra. Qed.

(** * C112 *)
(** The count is [n] exactly when the draw falls into the n-th interval of the Poisson distribution,
    and n is below 100; above the last entry of the table it is undefined. *)
Theorem C112_partial : forall mean u n, (0 <= mean)%R ->
  clutter_count above_R u (cmf_table mean) = Val n <->
  (n < 100)%nat /\ (u <= poisson_cdf mean n)%R /\ (forall i, (i < n)%nat -> (poisson_cdf mean i < u)%R).
Proof. exact poisson_count. Qed.
Theorem C112_overrun_partial : forall mean u, (0 <= mean)%R -> (poisson_cdf mean 99 < u)%R ->
  clutter_count above_R u (cmf_table mean) = UB OutOfBounds.
Proof. exact poisson_overrun. Qed.
Theorem C112_refuted : exists mean u, (0 <= u < 1)%R /\ clutter_count above_R u (cmf_table mean) = UB OutOfBounds.
Proof.
  exists 300%R, (1/2)%R. split; [lra|]. apply poisson_overrun; [lra|]. apply large_mean. lra.
Qed.
Example C112_ex : clutter_count above_R (1/2)%R (cmf_table 0%R) = Val 0%nat.
Proof.
  apply C112_partial; [lra|]. split; [lia|]. split; [|intros; lia]. unfold poisson_cdf. simpl. rewrite Ropp_0, exp_0. lra.
Qed.

(** * C113 *)
(** A drawn range lies within the limits; the draws end exactly when some draw reaches the lower limit. *)
Theorem C113_partial : forall rnd rmin rmax fuel p r q, unit_stream rnd -> (0 < rmax)%Qc ->
  draw_above rnd fuel p rmin rmax = Val (r, q) -> (rmin <= r < rmax)%Qc /\ (0 <= r)%Qc.
Proof. exact alarm_range. Qed.
Theorem C113_ends_partial : forall rnd rmin rmax p, (exists fuel v, draw_above rnd fuel p rmin rmax = Val v) <->
  (exists i, rmin <= rnd (p + i)%nat * rmax)%Qc.
Proof. exact alarm_ends. Qed.
(** In three dimensions every false alarm lies outside the limits. *)
Theorem C113_6d_partial : forall rnd rmin rmax fuel p v q, alarm6 rnd fuel p rmin rmax = Val (v, q) ->
  (rmax * rmax <= sqnorm v \/ sqnorm v <= rmin * rmin)%Qc.
Proof. exact alarm6_val. Qed.
Definition q (a : Z) (b : positive) : Qc := Q2Qc (a # b).
(** Limits 1 and 5; the draws 3/4, 1/2, 1/2 (a point at distance 2.5) are rejected, 0.95 three times
    (distance 7.8) is accepted. *)
Definition draws6 (p : nat) : Qc := nth p [q 3 4; q 1 2; q 1 2] (q 95 100).
Theorem C113_6d_refuted : exists rnd fuel v p', unit_stream rnd /\ alarm6 rnd fuel 0 (q 1 1) (q 5 1) = Val (v, p') /\
  (q 5 1 * q 5 1 < sqnorm v)%Qc.
Proof.
  exists draws6, 5%nat. eexists. eexists. split.
  { intro p. unfold draws6. destruct p as [|[|[|p]]]; cbn [nth]; try (split; vm_compute; auto; discriminate).
    destruct p; split; vm_compute; auto; discriminate. }
  split.
  - cbn [alarm6]. replace (Qcltb _ _ && Qcltb _ _) with true by (vm_compute; reflexivity). cbn [alarm6].
    replace (Qcltb _ _ && Qcltb _ _) with false by (vm_compute; reflexivity). reflexivity.
  - vm_compute. reflexivity.
Qed.
(** With the Cartesian sensor the pair (range, bearing) is used as a point, which may be too far. *)
Theorem C113_xy_refuted : exists r u, (0 <= r < 5 /\ 0 <= u < 1 /\ 5 < dist2 (alarm2 r u) (0, 0))%R.
Proof. exact xy_alarm_outside. Qed.
Theorem C113_stuck_refuted : exists rmin rmax, (0 < rmax)%Qc /\ forall rnd p, unit_stream rnd -> forall fuel, draw_above rnd fuel p rmin rmax = OutOfFuel.
Proof.
  exists (q 5 1), (q 5 1). split; [vm_compute; reflexivity|]. intros rnd p U fuel. apply draw_above_stuck. intro i.
  apply (unit_mul (rnd i) (q 5 1) (U i)). vm_compute. reflexivity.
Qed.
Example C113_ex : omap (fun v => (this (fst v), snd v)) (draw_above draws6 3 1 (q 3 1) (q 5 1)) = Val (19 # 4, 4%nat).
Proof. vm_compute. reflexivity. Qed.

(** * C114 *)
(** The recorded time is the first time the landmark is in range, -1 if it never is. *)
Theorem C114_range_partial : forall (seen kept : Z -> nat -> bool) kMax dT nLm m, (m < nLm)%nat -> (0 < dT)%Z ->
  (forall k, (1 <= k < kMax)%Z -> seen k m = true -> (forall j, (1 <= j < k)%Z -> seen j m = false) ->
     nth_error (snd (detections seen kept kMax dT nLm)) m = Some (k * dT)%Z) /\
  ((forall k, (1 <= k < kMax)%Z -> seen k m = false) -> nth_error (snd (detections seen kept kMax dT nLm)) m = Some (-1)%Z).
Proof. exact detections_first. Qed.
(** It is the time of the first measurement when every landmark in range is measured. *)
Theorem C114_partial : forall (seen kept : Z -> nat -> bool) kMax dT nLm m f, (m < nLm)%nat -> (0 < dT)%Z ->
  (forall k, (1 <= k < kMax)%Z -> seen k m = true -> kept k m = true) ->
  nth_error (snd (detections seen kept kMax dT nLm)) m = Some f ->
  (f = (-1)%Z /\ never_measured (fst (detections seen kept kMax dT nLm)) m) \/ first_measured (fst (detections seen kept kMax dT nLm)) m f.
Proof. exact first_right. Qed.
(** The measurements made: of the landmarks in range, those that pass the range and detection tests. *)
Theorem C114_measured_partial : forall (seen kept : Z -> nat -> bool) kMax dT nLm t m, In (t, m) (fst (detections seen kept kMax dT nLm)) <->
  exists k, (1 <= k < kMax)%Z /\ t = (k * dT)%Z /\ (m < nLm)%nat /\ seen k m = true /\ kept k m = true.
Proof. exact detections_in. Qed.
(** In range at steps 1 and 2, detected at step 2 only: recorded as observed at step 1; never
    detected: recorded as observed all the same. *)
Theorem C114_refuted : exists seen kept kMax dT f, nth_error (snd (detections seen kept kMax dT 2)) 0 = Some f /\
  ~ first_measured (fst (detections seen kept kMax dT 2)) 0 f /\
  nth_error (snd (detections seen kept kMax dT 2)) 1 = Some 10%Z /\ never_measured (fst (detections seen kept kMax dT 2)) 1.
Proof.
  exists (fun _ _ => true), (fun k m => (k =? 2)%Z && (m =? 0)%nat), 4%Z, 10%Z, 10%Z. split; [reflexivity|]. split; [|split; [reflexivity|]].
  - intros (H & _). vm_compute in H. destruct H as [H|[]]. discriminate.
  - intros t H. vm_compute in H. destruct H as [H|[]]. discriminate.
Qed.
Example C114_ex : detections (fun k m => (k =? 2)%Z || (m =? 1)%nat) (fun _ _ => true) 4 10 3 =
  ([(10, 1%nat); (20, 0%nat); (20, 1%nat); (20, 2%nat); (30, 1%nat)], [20; 10; 20])%Z.
Proof. vm_compute. reflexivity. Qed.

(** * C115 *)
(** Measurements in order of time, at times of steps: with a measurement at the last step each
    step gets exactly its measurements; without one the program reads past the end. *)
Theorem C115_partial : forall (A : Type) times (zs : list (Z * A)), increasing times -> time_ordered zs ->
  (forall z, In z zs -> In (fst z) times) -> times <> [] ->
  ((exists z, In z zs /\ fst z = last times 0%Z) -> batches times zs = Val (map (fun t => at_time t zs) times)) /\
  ((forall z, In z zs -> fst z <> last times 0%Z) -> batches times zs = UB OutOfBounds).
Proof. exact (@batches_right). Qed.
(** For any measurements: what is delivered is an initial part of the list, in order, nothing twice. *)
Theorem C115_prefix_partial : forall (A : Type) times (zs : list (Z * A)) bs, batches times zs = Val bs ->
  length bs = length times /\ exists rest, map snd zs = concat bs ++ rest.
Proof. exact (@batches_prefix). Qed.
(** A first measurement at a time that is no step blocks all others. *)
Theorem C115_blocked_partial : forall (A : Type) times t0 (z : A) zs, ~ In t0 times -> batches times ((t0, z) :: zs) = Val (repeat [] (length times)).
Proof. exact (@batches_stuck). Qed.
(** The measurements the simulator makes (without false alarms) are delivered at their steps when a
    landmark is measured in the last step. *)
Theorem C115_simulated_partial : forall (seen kept : Z -> nat -> bool) kMax dT nLm, (1 <= kMax)%Z -> (0 < dT)%Z ->
  (exists m, (m < nLm)%nat /\ (1 <= kMax - 1)%Z /\ seen (kMax - 1)%Z m = true /\ kept (kMax - 1)%Z m = true) ->
  batches (step_times kMax dT) (fst (detections seen kept kMax dT nLm)) =
  Val (map (fun t => at_time t (fst (detections seen kept kMax dT nLm))) (step_times kMax dT)).
Proof. exact simulation_delivered. Qed.
(** Nothing is measured in the last of three steps. *)
Theorem C115_refuted : exists seen kept kMax dT nLm, (1 <= kMax)%Z /\ (0 < dT)%Z /\
  fst (detections seen kept kMax dT nLm) <> [] /\
  batches (step_times kMax dT) (fst (detections seen kept kMax dT nLm)) = UB OutOfBounds.
Proof.
  exists (fun k m => (k =? 1)%Z), (fun _ _ => true), 3%Z, 10%Z, 2%nat. split; [lia|]. split; [lia|]. split; [vm_compute; discriminate|].
  vm_compute. reflexivity.
Qed.
(** An ISAM file with a landmark seen from pose 0: no step of the run receives any measurement. *)
Theorem C115_isam_refuted : exists ls : list (isam_line unit nat), In (Landmark 1 8%nat) ls /\
  isam_batches ls = Val [[]; []].
Proof.
  exists [Landmark 0%Z 7%nat; Odometry 0%Z 1%Z tt; Landmark 1%Z 8%nat; Odometry 1%Z 2%Z tt; Landmark 2%Z 9%nat].
  split; [cbn; auto|]. vm_compute. reflexivity.
Qed.
Example C115_ex : batches [0; 10; 20]%Z [(10%Z, 1%nat); (10%Z, 2%nat); (20%Z, 3%nat)] = Val [[]; [1; 2]; [3]]%nat.
Proof. vm_compute. reflexivity. Qed.

(** * C116 *)
Theorem C116_xy_partial : forall x y, (0 < x ^ 2 + y ^ 2 ->
  0 <= fst (exported (x, y)) /\ - PI < snd (exported (x, y)) <= PI /\
  x = fst (exported (x, y)) * cos (snd (exported (x, y))) /\ y = fst (exported (x, y)) * sin (snd (exported (x, y))))%R.
Proof. exact exported_xy. Qed.
(** A range-bearing measurement is written unchanged only when its bearing is 0. *)
Theorem C116_rb_partial : forall r b, (0 < r)%R -> exported (r, b) = (r, b) <-> b = 0%R.
Proof. exact exported_rb. Qed.
Theorem C116_refuted : exists r b, (0 < r /\ - PI < b <= PI)%R /\ exported (r, b) <> (r, b).
Proof.
  exists 2%R, 1%R. pose proof PI2_1. split; [lra|]. intro H1. apply C116_rb_partial in H1; lra.
Qed.
Example C116_ex : (fst (exported (3, 4)) = 5)%R.
Proof. unfold exported. cbn [fst snd]. replace (3 * 3 + 4 * 4)%R with (5 * 5)%R by ring. apply sqrt_square. lra. Qed.

(** * C117 *)
(** When the trajectory is made: one pose and one displacement per step at the times of the steps,
    each pose follows from the previous one, no motion up to step 50, then displacements within
    the limits. *)
Theorem C117_partial : forall rnd (pose : Type) (step : pose -> motion -> pose) fuel l kMax nSeg dT x0 us xs,
  unit_stream rnd -> proper l -> (1 <= kMax)%Z ->
  trajectory rnd step fuel l kMax nSeg dT x0 = Val (us, xs) ->
  Z.of_nat (length us) = kMax /\ Z.of_nat (length xs) = kMax /\ nth_error xs 0 = Some (0%Z, x0) /\
  follows step x0 (tl us) (tl xs) /\
  forall i t u, nth_error us i = Some (t, u) ->
    t = (Z.of_nat i * dT)%Z /\ ((i <= 50)%nat -> u = still) /\ ((51 <= i)%nat -> legal l u).
Proof. exact trajectory_spec. Qed.
(** It is made when large enough draws keep coming. *)
Theorem C117_ends_partial : forall rnd (pose : Type) (step : pose -> motion -> pose) l kMax nSeg dT x0, nSeg <> 0%Z ->
  (forall p, exists i, l_minx l * l_dt l <= rnd (p + i)%nat * (l_maxx l * l_dt l))%Qc ->
  exists fuel us xs, trajectory rnd step fuel l kMax nSeg dT x0 = Val (us, xs).
Proof. exact trajectory_ends. Qed.
(** Dead reckoning follows the odometry in the same way. *)
Theorem C117_reckoning : forall (pose : Type) (step : pose -> motion -> pose) us x0, follows step x0 us (reckon step x0 us).
Proof. exact (@reckon_follows). Qed.
(** With min_dx >= max_dx and more than 51 steps it never ends, whatever the draws. *)
Theorem C117_stuck_partial : forall rnd (pose : Type) (step : pose -> motion -> pose) l kMax nSeg dT x0 fuel, unit_stream rnd -> proper l ->
  nSeg <> 0%Z -> (l_maxx l <= l_minx l)%Qc -> (52 <= kMax)%Z -> trajectory rnd step fuel l kMax nSeg dT x0 = OutOfFuel.
Proof. exact trajectory_stuck. Qed.
Definition half (p : nat) : Qc := q 1 2.
Lemma half_unit : unit_stream half.
Proof. intro p. split; vm_compute; auto; discriminate. Qed.
Definition lim (lo hi : Qc) : limits := Limits lo hi (q 1 10) (q 1 5) (q 1 10).
Lemma lim_proper : forall lo hi, (0 < hi)%Qc -> proper (lim lo hi).
Proof. intros. split; [assumption|]. split; [vm_compute; discriminate|]. split; [vm_compute; discriminate|vm_compute; reflexivity]. Qed.
Theorem C117_refuted : exists rnd l kMax nSeg dT, unit_stream rnd /\ proper l /\ nSeg <> 0%Z /\
  forall fuel, trajectory rnd (fun (x : Qc) m => x + m_x m)%Qc fuel l kMax nSeg dT 0%Qc = OutOfFuel.
Proof.
  exists half, (lim (q 1 1) (q 1 1)), 60%Z, 3%Z, 10%Z. split; [exact half_unit|]. split; [apply lim_proper; vm_compute; reflexivity|].
  split; [discriminate|]. intro fuel. apply C117_stuck_partial; [exact half_unit|apply lim_proper; vm_compute; reflexivity|discriminate|vm_compute; discriminate|lia].
Qed.
(** Without segments the division by zero is reached at step 51. *)
Theorem C117_zero_refuted : exists rnd l kMax dT, unit_stream rnd /\ proper l /\
  trajectory rnd (fun (x : Qc) m => x + m_x m)%Qc 5 l kMax 0 dT 0%Qc = UB DivByZero.
Proof.
  exists half, (lim (q 1 4) (q 1 1)), 60%Z, 10%Z. split; [exact half_unit|]. split; [apply lim_proper; vm_compute; reflexivity|]. vm_compute. reflexivity.
Qed.
Example C117_ex : omap (fun r => map (fun x => this (snd x)) (skipn 50 (snd r)))
  (trajectory half (fun (x : Qc) m => x + m_x m)%Qc 5 (lim (q 1 4) (q 1 1)) 54 2 10 0%Qc) = Val [0 # 1; 1 # 20; 1 # 10; 3 # 20].
Proof. vm_compute. reflexivity. Qed.

(** * C118 *)
(** The map that is logged is the map of the heaviest particle (the first one of several). *)
Theorem C118_logged : forall ws w, In w ws -> (0 < w)%Qc -> heaviest ws (best_particle ws).
Proof. exact best_heaviest. Qed.
Definition tol12 : Qc := q 1 1000000000000.
(** Two particles with weights 0.5000001 and 0.5000004: the map of the second one is logged, the
    analysis takes the first one for the heaviest and finds no landmark. *)
Definition log118 : list logged := [Logged (q 1 1) [q 5000001 10000000; q 5000004 10000000] (fun _ => [q 9 10])].
Theorem C118_refuted : exists log, (forall g, In g log -> exists w, In w (g_ws g) /\ (0 < print6 w)%Qc) /\
  map (fun g => best_particle (g_ws g)) log = [1%nat] /\
  omap (map (fun d => (s_hi d, length (s_map d), this (s_card d))))
    (obind (open_reader (flat_map (fun g => pose_rows (g_t g) (g_ws g)) log) (log_map log)) (read_steps tol12 (map g_t log))) = Val [(Some 0%Z, 0%nat, (0 # 1)%Q)].
Proof.
  exists log118. split; [|split; vm_compute; reflexivity]. intros g [<-|[]]. eexists. split; [left; reflexivity|]. vm_compute. reflexivity.
Qed.
Example C118_ex : best_particle [q 1 5; q 2 5; q 2 5] = 1%nat.
Proof. vm_compute. reflexivity. Qed.

(** * C119 *)
(** Reading a log whose times are the ground-truth times and differ by at least the tolerance: each
    step gets its particles, its heaviest particle by the printed weights, the sum of printed weights,
    and the logged map if the logged particle is that one, no landmark otherwise. *)
Theorem C119_partial : forall tol log, (0 < tol)%Qc -> all_apart tol (map g_t log) ->
  (forall g, In g log -> exists w, In w (g_ws g) /\ (0 < print6 w)%Qc) ->
  log_map log <> [] ->
  exists ds, obind (open_reader (flat_map (fun g => pose_rows (g_t g) (g_ws g)) log) (log_map log)) (read_steps tol (map g_t log)) = Val ds /\
  Forall2 (fun g d => s_parts d = pose_rows (g_t g) (g_ws g) /\
    (exists i, s_hi d = Some (Z.of_nat i) /\ heaviest (map print6 (g_ws g)) i /\
       (i = best_particle (g_ws g) ->
          s_map d = filter (fun r => Qcleb three_quarters (lr_w r)) (map_rows (g_t g) (g_ws g) (g_map g)) /\
          s_card d = qsum (map print6 (g_map g i))) /\
       (i <> best_particle (g_ws g) -> s_map d = [] /\ s_card d = 0%Qc)) /\
    s_wsum d = qsum (map print6 (g_ws g))) log ds.
Proof. exact read_run. Qed.
(** Rows of a time that is no ground-truth time block all later rows. *)
Theorem C119_blocked_partial : forall tol times rd,
  (forall t, In t times -> apart tol (pr_t (r_p rd)) t) -> (forall t, In t times -> apart tol (lr_t (r_l rd)) t) ->
  exists ds, read_steps tol times rd = Val ds /\ Forall (fun d => s_parts d = [] /\ s_map d = []) ds.
Proof. exact read_blocked. Qed.
(** The run of RBPHDSLAM_2D logs time 0 twice (once before the first step): two particles are read
    for a filter with one. *)
Definition log119 : list logged := [Logged 0 [1%Qc] (fun _ => []); Logged (q 1 1) [1%Qc] (fun _ => [q 9 10; q 1 2])].
Theorem C119_refuted : exists n log, (forall g, In g log -> length (g_ws g) = n) /\
  omap (map (fun d => length (s_parts d))) (obind (open_reader (log_poses n log) (log_map log)) (read_steps tol12 (map g_t log))) = Val [(2 * n)%nat; n] /\ n <> 0%nat.
Proof.
  exists 1%nat, log119. split; [intros g [<-|[<-|[]]]; reflexivity|]. split; [vm_compute; reflexivity|discriminate].
Qed.
Example C119_ex : omap (map (fun d => (length (s_parts d), s_hi d, length (s_map d), this (s_card d))))
  (obind (open_reader (flat_map (fun g => pose_rows (g_t g) (g_ws g)) log119) (log_map log119)) (read_steps tol12 (map g_t log119)))
  = Val [(1%nat, Some 0%Z, 0%nat, (0 # 1)%Q); (1%nat, Some 0%Z, 1%nat, (7 # 5)%Q)].
Proof. vm_compute. reflexivity. Qed.

(** * C120 *)
Theorem C120_partial : forall est gt, (- PI <= est <= PI -> - PI <= gt <= PI ->
  - PI <= heading_error est gt <= PI /\ same_direction (heading_error est gt) (est - gt))%R.
Proof. exact heading_wrapped. Qed.
(** The average error lies between the errors of the particles. *)
Theorem C120_average_partial : forall (P : Type) (err : P -> R) ps lo hi, (0 < fold_right Rplus 0 (map fst ps) ->
  (forall p, In p ps -> 0 <= fst p /\ lo <= err (snd p) <= hi) ->
  exists e, average_error err (fold_right Rplus 0 (map fst ps)) ps = Some e /\ lo <= e <= hi)%R.
Proof. exact average_between. Qed.
(** Without averaging, the error is that of the heaviest particle. *)
Theorem C120_best_partial : forall (P : Type) (err : P -> R) (ws : list Qc) (parts : list P) w, In w ws -> (0 < w)%Qc ->
  length parts = length ws ->
  exists i p, heaviest ws i /\ nth_error parts i = Some p /\
              best_error err (best_particle ws) (combine (map (fun v => Q2R (this v)) ws) parts) = err p.
Proof. exact best_error_right. Qed.
(** A heading of 5 pi: nothing limits the headings in the files. *)
Theorem C120_refuted : exists est gt, (PI < heading_error est gt)%R.
Proof.
  exists (5 * PI)%R, 0%R. pose proof PI_RGT_0. unfold heading_error. destruct (Rlt_dec PI (5 * PI - 0)); lra.
Qed.
(** All printed weights zero: no average. *)
Theorem C120_average_refuted : exists ps : list (R * R), ps <> [] /\ average_error (fun e => e) (fold_right Rplus 0%R (map fst ps)) ps = None.
Proof.
  exists [(0, 1)]%R. split; [discriminate|]. unfold average_error. cbn [map fst fold_right]. destruct (Req_EM_T (0 + 0) 0); [reflexivity|lra].
Qed.
Example C120_ex : (heading_error 3 (-3) = 6 - 2 * PI)%R.
Proof. unfold heading_error. pose proof PI_4. destruct (Rlt_dec PI (3 - -3)) as [_|N]; [ring|]. exfalso. apply N. pose proof (PI2_3_2). destruct (PI_ineq 3) as (_ & U).
  unfold PI_tg, tg_alt, Ratan_seq in U. simpl in U. lra. Qed.

(** * C121 *)
(** When every landmark comes into range at some step, the number counted at time t is the number of
    landmarks in range up to t. *)
Theorem C121_partial : forall (seen kept : Z -> nat -> bool) kMax dT nLm t, (0 < dT)%Z -> (0 <= t)%Z ->
  (forall m, (m < nLm)%nat -> exists k, (1 <= k < kMax)%Z /\ seen k m = true) ->
  observable t (snd (detections seen kept kMax dT nLm)) =
  length (filter (fun m => existsb (fun i => seen (Z.of_nat i) m && (Z.of_nat i * dT <=? t)%Z) (seq 1 (Z.to_nat (kMax - 1)))) (seq 0 nLm)).
Proof. exact observable_right. Qed.
(** A landmark that is never in range is counted as observed from the start. *)
Theorem C121_refuted : exists seen kept kMax dT, (forall m, never_measured (fst (detections seen kept kMax dT 3)) m) /\
  observable 0 (snd (detections seen kept kMax dT 3)) = 3%nat.
Proof.
  exists (fun _ _ => false), (fun _ _ => true), 5%Z, 10%Z. split; [|vm_compute; reflexivity]. intros m t H. vm_compute in H. exact H.
Qed.
Example C121_ex : observable 10 (snd (detections (fun k m => (k =? 2)%Z || (m =? 1)%nat) (fun _ _ => true) 4 10 3)) = 1%nat.
Proof. vm_compute. reflexivity. Qed.

Print Assumptions C110_count_partial.
Print Assumptions C110_bounds_partial.
Print Assumptions C110_refuted.
Print Assumptions C110_zero_refuted.
Print Assumptions C111_partial.
Print Assumptions C111_xy_partial.
Print Assumptions C111_refuted.
Print Assumptions C112_partial.
Print Assumptions C112_overrun_partial.
Print Assumptions C112_refuted.
Print Assumptions C113_partial.
Print Assumptions C113_ends_partial.
Print Assumptions C113_6d_partial.
Print Assumptions C113_6d_refuted.
Print Assumptions C113_xy_refuted.
Print Assumptions C113_stuck_refuted.
Print Assumptions C114_range_partial.
Print Assumptions C114_partial.
Print Assumptions C114_measured_partial.
Print Assumptions C114_refuted.
Print Assumptions C115_partial.
Print Assumptions C115_prefix_partial.
Print Assumptions C115_blocked_partial.
Print Assumptions C115_simulated_partial.
Print Assumptions C115_refuted.
Print Assumptions C115_isam_refuted.
Print Assumptions C116_xy_partial.
Print Assumptions C116_rb_partial.
Print Assumptions C116_refuted.
Print Assumptions C117_partial.
Print Assumptions C117_ends_partial.
Print Assumptions C117_reckoning.
Print Assumptions C117_stuck_partial.
Print Assumptions C117_refuted.
Print Assumptions C117_zero_refuted.
Print Assumptions C118_logged.
Print Assumptions C118_refuted.
Print Assumptions C119_partial.
Print Assumptions C119_blocked_partial.
Print Assumptions C119_refuted.
Print Assumptions C120_partial.
Print Assumptions C120_average_partial.
Print Assumptions C120_best_partial.
Print Assumptions C120_refuted.
Print Assumptions C120_average_refuted.
Print Assumptions C121_partial.
Print Assumptions C121_refuted.
