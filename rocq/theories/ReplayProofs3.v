(** The statements of ReplayProperties.v from the lemmas of ReplayProofs.v and ReplayProofs2.v. *)
From Coq Require Import ZArith QArith Qcanon Reals Lra List Bool Lia Ascii String.
From Verif Require Import Base QcLra TimeStampModel TimeStampSpec SimModel SimSpec SimProofs SimProofs2 ReplayModel ReplaySpec ReplayProofs ReplayProofs2.
Import ListNotations.
Local Open Scope Z_scope.
Local Open Scope list_scope.

Section Replay.
Variables (A S : Type) (clutter : nat -> outcome (list A * nat)) (inputs : list (Qc * Qc)) (scans : list S) (scale : Qc).
Variables (n : Z) (ms : list msg) (zs : list (timestamp * A)) (es : list (@event A S)).

Lemma steps_times : Forall (fun m => normal (m_t m)) ms -> run clutter inputs scans scale n ms zs = Val es ->
  List.length (predicts es) = List.length (handled (selected n ms)) /\
  forall pre m post, handled (selected n ms) = pre ++ m :: post ->
    exists dt u noise birth, nth_error (predicts es) (List.length pre) = Some (dt, u, noise, birth) /\
      nanos dt = nanos (m_t m) - time_of pre.
Proof.
  intros N H. rewrite <- selected_eq. destruct (run_right _ _ _ _ _ _ _ _ N H) as [L R]. split; [exact L|]. intros pre m post E.
  destruct (R _ _ _ E) as ([[[dt u] no] b] & C & C1 & _). eauto 10.
Qed.

Lemma steps_total : Forall (fun m => normal (m_t m)) ms -> run clutter inputs scans scale n ms zs = Val es ->
  total (predicts es) = time_of (handled (selected n ms)).
Proof. intros N H. rewrite <- selected_eq. exact (run_sum _ _ _ _ _ _ _ _ N H). Qed.

Lemma steps_inputs : Forall (fun m => normal (m_t m)) ms -> run clutter inputs scans scale n ms zs = Val es ->
  forall pre m post, handled (selected n ms) = pre ++ m :: post ->
    exists dt u0 noise birth, nth_error (predicts es) (List.length pre) = Some (dt, (fst u0, (snd u0 * scale)%Qc), noise, birth) /\
      in_force inputs pre u0 /\ (noise = true <-> has_moved inputs pre).
Proof.
  intros N H. rewrite <- selected_eq. destruct (run_right _ _ _ _ _ _ _ _ N H) as [L R]. intros pre m post E.
  destruct (R _ _ _ E) as ([[[dt u] no] b] & C & C1 & (u0 & F & ->) & C3 & C4). eauto 10.
Qed.

Lemma steps_births : Forall (fun m => normal (m_t m)) ms -> run clutter inputs scans scale n ms zs = Val es ->
  forall pre m post, handled (selected n ms) = pre ++ m :: post ->
    exists dt u noise birth, nth_error (predicts es) (List.length pre) = Some (dt, u, noise, birth) /\ (birth = true <-> after_scan pre).
Proof.
  intros N H. rewrite <- selected_eq. destruct (run_right _ _ _ _ _ _ _ _ N H) as [L R]. intros pre m post E.
  destruct (R _ _ _ E) as ([[[dt u] no] b] & C & C1 & _ & C3 & C4). exists dt, u, no, b. auto.
Qed.

Lemma steps_delivered : Forall (fun m => normal (m_t m)) ms -> Forall (fun z => normal (fst z)) zs ->
  in_order (map fst zs) -> strictly_ordered (map m_t (of_kind LIDAR (selected n ms))) ->
  (forall z, In z zs -> exists m, In m (selected n ms) /\ m_kind m = LIDAR /\ m_t m = fst z) ->
  run clutter inputs scans scale n ms zs = Val es ->
  Forall2 (right_update clutter scans zs) (of_kind LIDAR (selected n ms)) (updates es).
Proof. rewrite <- selected_eq. apply run_updates. Qed.
End Replay.

Lemma steps_lost : forall (A S : Type) clutter inputs (scans : list S) scale n ms t z (zs : list (timestamp * A)) es,
  (forall m, In m (selected n ms) -> m_kind m = LIDAR -> m_t m <> t) -> run clutter inputs scans scale n ms ((t, z) :: zs) = Val es ->
  Forall (fun u => exists p c, clutter p = Val c /\ snd u = fst c) (updates es).
Proof. intros until es. rewrite <- selected_eq. apply run_starved. Qed.

Lemma trajectory_path : forall (P : Type) (ps0 : list P) ops ps, pf_run true ops (map (fun x => Traj x []) ps0) = Some ps ->
  forall i p, nth_error ps i = Some p ->
  path ps0 ops i (trajectory_rows p) /\ (forall xs, path ps0 ops i xs -> xs = trajectory_rows p) /\
  List.length (trajectory_rows p) = S (moves ops).
Proof.
  intros P ps0 ops ps H i p N. pose proof (kept_path _ _ _ H _ _ N) as K. split; [exact K|]. split; [|apply (path_length _ _ _ _ K)].
  intros xs X. apply (path_unique _ _ _ _ X _ K).
Qed.

Lemma reckoned : forall (P : Type) (move : P -> Qc * Qc -> timestamp -> P) inputs scale m0 ms x0 rows,
  Forall (fun m => normal (m_t m)) (m0 :: ms) -> dead_reckoning move inputs scale (m0 :: ms) x0 = Val rows ->
  map fst rows = map m_t (of_kind INPUT (m0 :: ms)) /\
  forall pre m post, of_kind INPUT (m0 :: ms) = pre ++ m :: post ->
    exists dt u0 y, nth_error (map snd rows) (List.length pre) = Some y /\ in_force inputs pre u0 /\
      nanos dt = nanos (m_t m) - (match rev pre with [] => nanos (m_t m0) | m' :: _ => nanos (m_t m') end) /\
      y = move (match List.length pre with O => x0 | S j => nth j (map snd rows) x0 end) (fst u0, (snd u0 * scale)%Qc) dt.
Proof.
  intros P move inputs scale m0 ms x0 rows N H. unfold dead_reckoning in H. inversion N; subst.
  apply (reckoning_right move inputs scale _ [] _ _ _ _ N) in H; [exact H|assumption|]. left. split; reflexivity.
Qed.

Lemma threshold_int : forall n_node ds, are_digits ds -> ds <> [] -> whole ds < 2 ^ 31 ->
  eff_threshold n_node (Some (decimal_text ds [])) = inject_Z (whole ds).
Proof. intros. unfold eff_threshold, get_int. rewrite int_read by assumption. reflexivity. Qed.

Lemma inflation_read : forall ds fs, are_digits ds -> are_digits fs -> ds <> [] ->
  (noise_inflation (Some (decimal_text ds fs)) == decimal_value ds fs)%Q.
Proof. intros ds fs D F N. destruct (double_read ds fs D F N) as (x & E & V). unfold noise_inflation, get_double. rewrite E. exact V. Qed.

Lemma threshold_point : forall n_node ds fs, are_digits ds -> fs <> [] ->
  eff_threshold n_node (Some (decimal_text ds fs)) = inject_Z (n_particles n_node) /\
  added_clutter (Some (decimal_text ds fs)) = 0%Q.
Proof. intros. unfold eff_threshold, added_clutter, get_int at 1 2. rewrite int_point by assumption. auto. Qed.

Lemma threshold_always : forall n_node ds fs ws, are_digits ds -> fs <> [] ->
  Z.of_nat (List.length ws) = n_particles n_node -> total_w ws = 1%Qc ->
  skips (Q2Qc (eff_threshold n_node (Some (decimal_text ds fs)))) ws = false.
Proof.
  intros n_node ds fs ws D F L T. destruct (threshold_point n_node ds fs D F) as [E _]. rewrite E, <- L. apply never_skipped. exact T.
Qed.

Local Open Scope R_scope.
Lemma clutter_within : forall mean rmin rmax bmin bmax rnd p zs p', (forall i, 0 <= rnd i < 1) -> rmin < rmax ->
  add_clutter mean rmin rmax bmin bmax rnd p = Val (zs, p') ->
  forall z, In z zs -> exists u, rmin <= fst (fst z) < rmax /\ 0 <= u < 1 /\ snd (fst z) = u * snd (model_limits bmin bmax).
Proof.
  intros mean rmin rmax bmin bmax rnd p zs p' U L H z Hz. unfold add_clutter in H. destruct (Rlt_dec 0 mean) as [M|M].
  - apply obind_val in H as (k & Hk & H). injection H as <- <-. destruct (alarms_in _ _ _ _ _ _ _ _ Hz) as (i & _ & ->).
    exists (rnd (S (S p + 2 * i))). split; [apply alarm_range; assumption|]. split; [apply U|]. rewrite alarm_bearing. cbn. reflexivity.
  - injection H as <- <-. destruct Hz.
Qed.

Lemma clutter_number : forall mean rmin rmax bmin bmax rnd p zs p', 0 < mean ->
  add_clutter mean rmin rmax bmin bmax rnd p = Val (zs, p') ->
  rnd p <= poisson_cdf mean (List.length zs) /\ (forall i, (i < List.length zs)%nat -> poisson_cdf mean i < rnd p) /\
  p' = (1 + p + 2 * List.length zs)%nat.
Proof.
  intros mean rmin rmax bmin bmax rnd p zs p' M H. unfold add_clutter in H. destruct (Rlt_dec 0 mean) as [M'|M']; [|lra].
  apply obind_val in H as (k & Hk & H). injection H as <- <-. rewrite alarms_length. apply poisson_count in Hk; [|lra]. destruct Hk as (_ & K1 & K2). auto.
Qed.

Lemma clutter_zero : forall mean rmin rmax bmax rnd p zs p', (forall i, 0 <= rnd i < 1) -> rmin < rmax -> 0 < bmax ->
  add_clutter mean rmin rmax 0 bmax rnd p = Val (zs, p') ->
  forall z, In z zs -> fst (model_limits 0 bmax) <= snd (fst z) < snd (model_limits 0 bmax).
Proof.
  intros mean rmin rmax bmax rnd p zs p' U L B H z Hz. destruct (clutter_within _ _ _ _ _ _ _ _ _ U L H z Hz) as (u & _ & Hu & ->). cbn.
  pose proof PI_RGT_0. assert (0 < bmax * PI / 180) by (apply Rdiv_lt_0_compat; nra). split; [|nra].
  replace (0 * PI / 180) with 0 by field. nra.
Qed.

Lemma clutter_outside : exists rnd p, (forall i, 0 <= rnd i < 1) /\
  snd (fst (alarm 1 75 6.3025 177 rnd p)) < fst (model_limits 6.3025 177).
Proof.
  exists (fun _ => 0), 0%nat. split; [intro; lra|]. cbn. pose proof PI_RGT_0. rewrite Rmult_0_l. unfold Rdiv. nra.
Qed.

Lemma clutter_one_sided : exists bmin bmax, bmin < 0 < bmax /\ forall rmin rmax rnd p, (forall i, 0 <= rnd i < 1) ->
  0 <= snd (fst (alarm rmin rmax bmin bmax rnd p)).
Proof.
  exists (-90), 90. split; [lra|]. intros rmin rmax rnd p U. rewrite alarm_bearing. pose proof (U (S p)). pose proof PI_RGT_0.
  apply Rmult_le_pos; [lra|]. unfold Rdiv. nra.
Qed.
