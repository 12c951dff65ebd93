(** Theorems about the replay of recorded data (C139-C148). *)
From Coq Require Import ZArith QArith Qcanon Reals Lra List Bool Lia Ascii String.
From Verif Require Import Base QcLra TimeStampModel TimeStampSpec SimModel SimSpec SimProofs2 ReplayModel ReplaySpec ReplayProofs ReplayProofs2 ReplayProofs3.
Import ListNotations.
Local Open Scope Z_scope.
Local Open Scope list_scope.

(** * C139 *)
(** One prediction for each input or scan message, over the time since the one before. *)
Theorem C139_steps : forall (A S : Type) clutter inputs (scans : list S) scale n ms (zs : list (timestamp * A)) es,
  Forall (fun m => normal (m_t m)) ms -> run clutter inputs scans scale n ms zs = Val es ->
  List.length (predicts es) = List.length (handled (selected n ms)) /\
  forall pre m post, handled (selected n ms) = pre ++ m :: post ->
    exists dt u noise birth, nth_error (predicts es) (List.length pre) = Some (dt, u, noise, birth) /\
      nanos dt = nanos (m_t m) - time_of pre.
Proof. exact steps_times. Qed.
(** So the time that the particles have been moved is the time of the last message. *)
Theorem C139_total : forall (A S : Type) clutter inputs (scans : list S) scale n ms (zs : list (timestamp * A)) es,
  Forall (fun m => normal (m_t m)) ms -> run clutter inputs scans scale n ms zs = Val es ->
  total (predicts es) = time_of (handled (selected n ms)).
Proof. exact steps_total. Qed.
(** The replay comes to its end for usable messages. *)
Theorem C139_defined : forall (A S : Type) clutter inputs (scans : list S) scale, (forall p, exists c, clutter p = Val c) ->
  forall n ms (zs : list (timestamp * A)), Forall (usable (List.length inputs) (List.length scans)) ms ->
  exists es, run clutter inputs scans scale n ms zs = Val es.
Proof. exact (@run_defined). Qed.

Definition q (a : Z) (b : positive) : Qc := Q2Qc (a # b).
Ltac same := repeat (match goal with |- @eq Qc _ _ => apply Qc_is_canon; reflexivity | _ => progress f_equal end).
Definition quiet (p : nat) : outcome (list nat * nat) := Val ([], p).
Definition ex_msgs : list msg :=
  [Msg (TS 1 0) INPUT 0; Msg (TS 1 200) GPS 7; Msg (TS 1 500) LIDAR 0; Msg (TS 2 0) INPUT 1; Msg (TS 3 5) LIDAR 1].
Definition ex_inputs : list (Qc * Qc) := [(q 0 1, q 1 1); (q 2 1, q 1 2)].
Definition ex_zs : list (timestamp * nat) := [(TS 1 500, 10%nat); (TS 3 5, 11%nat); (TS 3 5, 12%nat)].
Definition ex_run : outcome (list (@event nat Z)) := run quiet ex_inputs [100; 101] (q 2 1) 0 ex_msgs ex_zs.
Example C139_ex : omap predicts ex_run = Val
  [(TS 1 0, (q 0 1, q 0 1), false, true); (TS 0 500, (q 0 1, q 2 1), false, false);
   (TS 0 999999500, (q 0 1, q 2 1), false, true); (TS 1 5, (q 2 1, q 1 1), true, false)] /\
  Forall (fun m => normal (m_t m)) ex_msgs /\ Forall (usable 2 2) ex_msgs.
Proof.
  split; [vm_compute; same|]. split; repeat constructor; cbn; try lia; try discriminate.
Qed.

(** * C140 *)
(** The input of a prediction is that of the last input message before, its steering angle scaled once;
    noise is added once some input message had a speed other than zero. *)
Theorem C140_held : forall (A S : Type) clutter inputs (scans : list S) scale n ms (zs : list (timestamp * A)) es,
  Forall (fun m => normal (m_t m)) ms -> run clutter inputs scans scale n ms zs = Val es ->
  forall pre m post, handled (selected n ms) = pre ++ m :: post ->
    exists dt u0 noise birth, nth_error (predicts es) (List.length pre) = Some (dt, (fst u0, (snd u0 * scale)%Qc), noise, birth) /\
      in_force inputs pre u0 /\ (noise = true <-> has_moved inputs pre).
Proof. exact steps_inputs. Qed.
Example C140_ex : in_force ex_inputs (firstn 1 ex_msgs) (q 0 1, q 1 1) /\ has_moved ex_inputs (handled ex_msgs) /\ ~ has_moved ex_inputs (firstn 1 ex_msgs).
Proof.
  split; [right; exists [], (Msg (TS 1 0) INPUT 0), []; cbn; repeat split; lia|]. split.
  - exists (Msg (TS 2 0) INPUT 1), (q 2 1, q 1 2). cbn. repeat split; auto. discriminate.
  - intros (m & u & [<-|[]] & _ & N & Z0). injection N as <-. apply Z0. reflexivity.
Qed.

(** * C141 *)
(** Birth Gaussians are added in the first prediction, and in the first one after each scan. *)
Theorem C141_births : forall (A S : Type) clutter inputs (scans : list S) scale n ms (zs : list (timestamp * A)) es,
  Forall (fun m => normal (m_t m)) ms -> run clutter inputs scans scale n ms zs = Val es ->
  forall pre m post, handled (selected n ms) = pre ++ m :: post ->
    exists dt u noise birth, nth_error (predicts es) (List.length pre) = Some (dt, u, noise, birth) /\ (birth = true <-> after_scan pre).
Proof. exact steps_births. Qed.
Example C141_ex : after_scan (firstn 3 ex_msgs) /\ ~ after_scan (firstn 1 ex_msgs).
Proof. cbn. split; [reflexivity|discriminate]. Qed.

(** * C142 *)
(** Measurements in order, each of the time of some scan message, and scan messages with increasing
    times: every update gets the measurements of its time, and the scan of its index. *)
Theorem C142_partial : forall (A S : Type) clutter inputs (scans : list S) scale n ms (zs : list (timestamp * A)) es,
  Forall (fun m => normal (m_t m)) ms -> Forall (fun z => normal (fst z)) zs ->
  in_order (map fst zs) -> strictly_ordered (map m_t (of_kind LIDAR (selected n ms))) ->
  (forall z, In z zs -> exists m, In m (selected n ms) /\ m_kind m = LIDAR /\ m_t m = fst z) ->
  run clutter inputs scans scale n ms zs = Val es ->
  Forall2 (right_update clutter scans zs) (of_kind LIDAR (selected n ms)) (updates es).
Proof. exact steps_delivered. Qed.
(** A first measurement of no scan's time: no measurement at all reaches the filter. *)
Theorem C142_starved_partial : forall (A S : Type) clutter inputs (scans : list S) scale n ms t z (zs : list (timestamp * A)) es,
  (forall m, In m (selected n ms) -> m_kind m = LIDAR -> m_t m <> t) -> run clutter inputs scans scale n ms ((t, z) :: zs) = Val es ->
  Forall (fun u => exists p c, clutter p = Val c /\ snd u = fst c) (updates es).
Proof. exact steps_lost. Qed.
Theorem C142_refuted : exists ms (zs : list (timestamp * nat)), in_order (map fst zs) /\
  omap updates (run quiet [] [100; 101] 1%Qc 0 ms zs) = Val [(100, []); (101, [])] /\
  measured_at (TS 2 0) zs = [8%nat] /\ In (Msg (TS 2 0) LIDAR 1) ms.
Proof.
  exists [Msg (TS 1 0) LIDAR 0; Msg (TS 2 0) LIDAR 1], [(TS 1 7, 7%nat); (TS 2 0, 8%nat)]. cbn [map in_order fst]. split; [|vm_compute; auto].
  split; [|split; auto; intros ? []]. intros t [<-|[]]. cbn. lia.
Qed.
(** The time of a scan is not looked at: here scans are their times. *)
Theorem C142_scan_refuted : exists ms (scans : list timestamp), 
  omap updates (run quiet [] scans 1%Qc 0 ms []) = Val [(TS 9 0, [])] /\ ms = [Msg (TS 1 0) LIDAR 0].
Proof. exists [Msg (TS 1 0) LIDAR 0], [TS 9 0]. split; reflexivity. Qed.
Example C142_ex : omap updates ex_run = Val [(100, [10%nat]); (101, [11%nat; 12%nat])] /\
  in_order (map fst ex_zs) /\ strictly_ordered (map m_t (of_kind LIDAR ex_msgs)).
Proof.
  split; [reflexivity|]. cbn. repeat split; intros t H; repeat (destruct H as [<-|H]; [cbn; lia|]); destruct H.
Qed.

(** * C143 *)
(** A file of complete scans is read back. *)
Theorem C143_partial : forall rs tss, Forall2 good_scan rs tss -> read_lidar (lidar_file rs) = Val (combine tss (map snd rs)).
Proof. exact read_complete. Qed.
(** A last scan that breaks off is completed with the end of the scan before (zeros if there is none). *)
Theorem C143_broken_partial : forall rs tss t ts part, Forall2 good_scan rs tss -> (0 <= t)%Q -> setTime t = Val ts -> (List.length part < 361)%nat ->
  read_lidar (lidar_file rs ++ t :: part) =
  Val (combine tss (map snd rs) ++ [(ts, part ++ skipn (List.length part) (last (map snd rs) (repeat 0%Q 361)))]).
Proof. exact read_broken. Qed.
(** A negative time ends the reading. *)
Theorem C143_negative_partial : forall rs tss t rest, Forall2 good_scan rs tss -> (t < 0)%Q ->
  read_lidar (lidar_file rs ++ t :: rest) = Val (combine tss (map snd rs)).
Proof. exact read_negative. Qed.
Definition full : Q * list Q := (1%Q, repeat (4 # 1)%Q 361).
Lemma full_good : Forall2 good_scan [full] [TS 1 0].
Proof. constructor; [|constructor]. split; [discriminate|]. split; [vm_compute; reflexivity|apply repeat_length]. Qed.
(** The file ends in the scan of time 2, after the single number 5: the scan gets 360 readings of the
    scan of time 1. *)
Theorem C143_refuted : exists rs t part out scan, Forall2 good_scan rs [TS 1 0] /\ part = [5 # 1]%Q /\
  read_lidar (lidar_file rs ++ t :: part) = Val (out ++ [(TS 2 0, scan)]) /\ List.length scan = 361%nat /\
  skipn 1 scan = repeat (4 # 1)%Q 360.
Proof.
  exists [full], 2%Q, [5 # 1]%Q. eexists. eexists. split; [exact full_good|]. split; [reflexivity|]. split.
  - apply (read_broken [full] [TS 1 0] 2 (TS 2 0) [5 # 1]%Q full_good); [discriminate|vm_compute; reflexivity|vm_compute; lia].
  - split; vm_compute; reflexivity.
Qed.
(** An empty line in the list of messages. *)
Theorem C143_line_refuted : exists lines, read_msgs (lines ++ [None]) = UB Uninit /\
  read_msgs lines = Val [Msg (TS 1 500000000) INPUT 4].
Proof. exists [Some ((3 # 2)%Q, 2, 5)]. split; reflexivity. Qed.
Example C143_ex : read_lidar (lidar_file [full; full]) = Val [(TS 1 0, snd full); (TS 1 0, snd full)].
Proof. apply (C143_partial [full; full] [TS 1 0; TS 1 0]). pose proof full_good as F. inversion F; subst. constructor; [assumption|constructor; [assumption|constructor]]. Qed.

(** * C144 *)
(** The ranges of the artificial clutter lie within the limits; the bearings are spread over 0 to the
    upper limit. *)
Theorem C144_partial : forall mean rmin rmax bmin bmax rnd p zs p', (forall i, 0 <= rnd i < 1)%R -> (rmin < rmax)%R ->
  add_clutter mean rmin rmax bmin bmax rnd p = Val (zs, p') ->
  forall z, In z zs -> exists u, (rmin <= fst (fst z) < rmax)%R /\ (0 <= u < 1)%R /\ (snd (fst z) = u * snd (model_limits bmin bmax))%R.
Proof. exact clutter_within. Qed.
(** Number of false alarms: a draw from the Poisson distribution of the mean. *)
Theorem C144_count_partial : forall mean rmin rmax bmin bmax rnd p zs p', (0 < mean)%R ->
  add_clutter mean rmin rmax bmin bmax rnd p = Val (zs, p') ->
  (rnd p <= poisson_cdf mean (List.length zs))%R /\ (forall i, (i < List.length zs)%nat -> (poisson_cdf mean i < rnd p)%R) /\
  p' = (1 + p + 2 * List.length zs)%nat.
Proof. exact clutter_number. Qed.
(** If the lower limit is zero, the bearing is within the limits. *)
Theorem C144_zero_partial : forall mean rmin rmax bmax rnd p zs p', (forall i, 0 <= rnd i < 1)%R -> (rmin < rmax)%R -> (0 < bmax)%R ->
  add_clutter mean rmin rmax 0 bmax rnd p = Val (zs, p') ->
  forall z, In z zs -> (fst (model_limits 0 bmax) <= snd (fst z) < snd (model_limits 0 bmax))%R.
Proof. exact clutter_zero. Qed.
(** The limits of the shipped configurations (6.3025 and 177 degrees): false alarms outside. *)
Theorem C144_refuted : exists rnd p, (forall i, 0 <= rnd i < 1)%R /\
  (snd (fst (alarm 1 75 6.3025 177 rnd p)) < fst (model_limits 6.3025 177))%R.
Proof. exact clutter_outside. Qed.
(** Limits -90 and 90 degrees: no false alarm on the right. *)
Theorem C144_side_refuted : exists bmin bmax, (bmin < 0 < bmax)%R /\ forall rmin rmax rnd p, (forall i, 0 <= rnd i < 1)%R ->
  (0 <= snd (fst (alarm rmin rmax bmin bmax rnd p)))%R.
Proof. exact clutter_one_sided. Qed.
Example C144_ex : alarms 1 75 0 180 (fun _ => 1 / 2)%R 1 0 = [(1 / 2 * (75 - 1) + 1, 1 / 2 * (180 - 0 + 0) * PI / 180, 1)]%R.
Proof. reflexivity. Qed.

(** * C145 *)
(** The threshold for resampling is the number written, if it is written without a point; other values
    with a default that is a double are read with or without one. *)
Theorem C145_partial : forall n_node ds, are_digits ds -> ds <> [] -> whole ds < 2 ^ 31 ->
  eff_threshold n_node (Some (decimal_text ds [])) = inject_Z (whole ds).
Proof. exact threshold_int. Qed.
Theorem C145_double_partial : forall ds fs, are_digits ds -> are_digits fs -> ds <> [] ->
  (noise_inflation (Some (decimal_text ds fs)) == decimal_value ds fs)%Q.
Proof. exact inflation_read. Qed.
(** Written with a point it is ignored: the threshold is the number of particles, no clutter is added. *)
Theorem C145_ignored_partial : forall n_node ds fs, are_digits ds -> fs <> [] ->
  eff_threshold n_node (Some (decimal_text ds fs)) = inject_Z (n_particles n_node) /\
  added_clutter (Some (decimal_text ds fs)) = 0%Q.
Proof. exact threshold_point. Qed.
(** Then resampling takes place whatever the weights are. *)
Theorem C145_always_partial : forall n_node ds fs ws, are_digits ds -> fs <> [] ->
  Z.of_nat (List.length ws) = n_particles n_node -> total_w ws = 1%Qc ->
  skips (Q2Qc (eff_threshold n_node (Some (decimal_text ds fs)))) ws = false.
Proof. exact threshold_always. Qed.
(** The shipped configurations say 25.0 of 100 particles (50.0 for the PHD filter). *)
Theorem C145_refuted : exists n_node eff_node, n_node = Some "100"%string /\ eff_node = Some "25.0"%string /\
  eff_threshold n_node eff_node = 100%Q /\ added_clutter (Some "2.5"%string) = 0%Q.
Proof. exists (Some "100"%string), (Some "25.0"%string). repeat split. Qed.
Example C145_ex : eff_threshold (Some "100"%string) (Some "25"%string) = 25%Q /\ decimal_text [2; 5] [0] = "25.0"%string /\
  (noise_inflation (Some "2.5"%string) == 5 # 2)%Q /\ are_digits [2; 5].
Proof. repeat split; try reflexivity; destruct H as [<-|[<-|[]]]; lia. Qed.

(** * C146 *)
(** The logged weight is the probability whose log-odds is the weight. *)
Theorem C146_logged : forall w, (0 < logged_weight w < 1)%R /\ (ln (logged_weight w / (1 - logged_weight w)) = w)%R.
Proof. intro w. split; [apply logged_in|apply logged_odds]. Qed.
Theorem C146_probability : forall p, (0 < p < 1)%R -> logged_weight (ln (p / (1 - p))) = p.
Proof. exact logged_prob. Qed.
Example C146_ex : logged_weight 0 = (1 / 2)%R.
Proof. unfold logged_weight. rewrite exp_0. lra. Qed.

(** * C147 *)
(** The rows written for a particle of a filter that keeps trajectories (PHD filter and FastSLAM) are its
    path, one pose for each prediction; the path is unique. *)
Theorem C147_partial : forall (P : Type) (ps0 : list P) ops ps, pf_run true ops (map (fun x => Traj x []) ps0) = Some ps ->
  forall i p, nth_error ps i = Some p ->
  path ps0 ops i (trajectory_rows p) /\ (forall xs, path ps0 ops i xs -> xs = trajectory_rows p) /\
  List.length (trajectory_rows p) = S (moves ops).
Proof. exact trajectory_path. Qed.
(** The other filters (LMB and CB-MeMBer) keep only the last pose. *)
Theorem C147_other_partial : forall (P : Type) (ps0 : list P) ops ps, pf_run false ops (map (fun x => Traj x []) ps0) = Some ps ->
  forall i p, nth_error ps i = Some p -> trajectory_rows p = [t_pose p].
Proof. exact (@dropped_path). Qed.
Theorem C147_refuted : exists (ps0 : list Z) ops ps p, pf_run false ops (map (fun x => Traj x []) ps0) = Some ps /\ nth_error ps 0 = Some p /\
  ~ path ps0 ops 0 (trajectory_rows p).
Proof.
  exists [0], [Propagate (fun _ x => x + 1)]. eexists. eexists. split; [reflexivity|]. split; [reflexivity|].
  intro H. apply path_length in H. discriminate.
Qed.
Example C147_ex : omap (map trajectory_rows) (of_option Aborted (pf_run true
    [Propagate (fun i x => x + Z.of_nat i); Resample [1; 1]%nat; Propagate (fun i x => x + 10 * Z.of_nat i)] (map (fun x => Traj x []) [100; 200]))) =
  Val [[200; 201; 201]; [200; 201; 211]].
Proof. reflexivity. Qed.

(** * C148 *)
(** Dead reckoning: a row for each input message, moved from the row before with the input in force and
    the time since that message (since the first message of all for the first row). *)
Theorem C148_reckoned : forall (P : Type) (move : P -> Qc * Qc -> timestamp -> P) inputs scale m0 ms x0 rows,
  Forall (fun m => normal (m_t m)) (m0 :: ms) -> dead_reckoning move inputs scale (m0 :: ms) x0 = Val rows ->
  map fst rows = map m_t (of_kind INPUT (m0 :: ms)) /\
  forall pre m post, of_kind INPUT (m0 :: ms) = pre ++ m :: post ->
    exists dt u0 y, nth_error (map snd rows) (List.length pre) = Some y /\ in_force inputs pre u0 /\
      nanos dt = nanos (m_t m) - (match rev pre with [] => nanos (m_t m0) | m' :: _ => nanos (m_t m') end) /\
      y = move (match List.length pre with O => x0 | S j => nth j (map snd rows) x0 end) (fst u0, (snd u0 * scale)%Qc) dt.
Proof. exact reckoned. Qed.
Example C148_ex : dead_reckoning (fun x u dt => (x + fst u * q (sec dt) 1)%Qc) ex_inputs (q 2 1) (ex_msgs ++ [Msg (TS 4 0) INPUT 0]) (q 0 1) =
  Val [(TS 1 0, q 0 1); (TS 2 0, q 0 1); (TS 4 0, q 4 1)].
Proof. vm_compute. same. Qed.

Print Assumptions C139_steps.
Print Assumptions C139_total.
Print Assumptions C139_defined.
Print Assumptions C140_held.
Print Assumptions C141_births.
Print Assumptions C142_partial.
Print Assumptions C142_starved_partial.
Print Assumptions C142_refuted.
Print Assumptions C142_scan_refuted.
Print Assumptions C143_partial.
Print Assumptions C143_broken_partial.
Print Assumptions C143_negative_partial.
Print Assumptions C143_refuted.
Print Assumptions C143_line_refuted.
Print Assumptions C144_partial.
Print Assumptions C144_count_partial.
Print Assumptions C144_zero_partial.
Print Assumptions C144_refuted.
Print Assumptions C144_side_refuted.
Print Assumptions C145_partial.
Print Assumptions C145_double_partial.
Print Assumptions C145_ignored_partial.
Print Assumptions C145_always_partial.
Print Assumptions C145_refuted.
Print Assumptions C146_logged.
Print Assumptions C146_probability.
Print Assumptions C147_partial.
Print Assumptions C147_other_partial.
Print Assumptions C147_refuted.
Print Assumptions C148_reckoned.
