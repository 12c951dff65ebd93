(** Properties C149-C163: the drivers of the batch optimisers. *)
From Coq Require Import Reals ZArith List Bool Arith Lia Lra String QArith Qcanon.
From Verif Require Import Base ListUtil PsoModel CeresModel CeresSpec SensorModel OdometryModel SimModel SimSpec SimProofs5 DriveModel DriveSpec DriveProofs DriveProofs2 DriveProofs3 DriveProofs4.
Import ListNotations.
Local Open Scope R_scope.

(** * C149: NormalizeAngle *)
(** The result is the one value in [-pi, pi) that differs from the argument by whole turns. *)
Theorem C149_range : forall a, - PI <= normalize_angle a < PI.
Proof. exact normalize_range. Qed.
Print Assumptions C149_range.
Theorem C149_turns : forall a, same_direction (normalize_angle a) a.
Proof. exact normalize_turns. Qed.
Print Assumptions C149_turns.
Theorem C149_exact : forall a b, - PI <= b < PI -> same_direction b a -> normalize_angle a = b.
Proof. exact normalize_exact. Qed.
Print Assumptions C149_exact.
Example C149_ex : normalize_angle (3 * PI) = - PI /\ normalize_angle (3 * PI / 2) = - PI / 2.
Proof. pose proof PI_RGT_0. split; apply normalize_exact; try lra; [exists (-2)%Z|exists (-1)%Z]; lra. Qed.

(** * C150: the objective in the plane vanishes exactly at consistent solutions *)
Theorem C150_zero : forall vx vy vt vr vb ps ls odo ss, 0 < vx -> 0 < vy -> 0 < vt -> 0 < vr -> 0 < vb ->
  List.length ps = S (List.length odo) -> (List.length ss <= List.length ps)%nat -> assoc_within (List.length ls) ss ->
  (forall s z da, In s ss -> In (z, da) s -> (0 <= da)%Z -> 0 < fst z) ->
  exists c, cost_2d vx vy vt vr vb (params_2d ps ls) odo ss = Val c /\ 0 <= c /\ (c = 0 <->
    (forall i u a b, nth_error odo i = Some u -> nth_error ps i = Some a -> nth_error ps (S i) = Some b -> moved_by u a b) /\
    (forall k s z da p l, nth_error ss k = Some s -> In (z, da) s -> (0 <= da)%Z -> nth_error ps k = Some p ->
       nth_error ls (Z.to_nat da) = Some l -> located z p l)).
Proof. exact cost_2d_zero. Qed.
Print Assumptions C150_zero.
(** The motion model and the inverse of the sensor model give such solutions. *)
Theorem C150_models : forall p u z Rn, moved_by u p (move_2d p u) /\ located z p (fst (inverse_rb p z Rn)).
Proof. exact models_agree. Qed.
Print Assumptions C150_models.
(** Two poses, a landmark seen from both, a false alarm. *)
Definition e_ps := [P2 0 0 0; P2 1 0 0].
Definition e_ss : list (list (R * R * Z)) := [[((2, 0), 0%Z)]; [((9, 1), (-2)%Z); ((1, 0), 0%Z)]].
Example C150_ex : List.length e_ps = S (List.length [O2 1 0 0]) /\ assoc_within (List.length [(2, 0)]) e_ss /\
  (forall s z da, In s e_ss -> In (z, da) s -> (0 <= da)%Z -> 0 < fst z) /\ moved_by (O2 1 0 0) (P2 0 0 0) (P2 1 0 0) /\
  located (2, 0) (P2 0 0 0) (2, 0) /\ located (1, 0) (P2 1 0 0) (2, 0).
Proof.
  split; [reflexivity|]. split.
  { intros s z da H1 H2. destruct H1 as [<-|[<-|[]]]; repeat (destruct H2 as [H2|H2]; [injection H2 as <- <-; cbn; lia|]); destruct H2. }
  split.
  { intros s z da H1 H2 H3. destruct H1 as [<-|[<-|[]]]; repeat (destruct H2 as [H2|H2]; [injection H2 as <- <-; cbn; try lra; lia|]); destruct H2. }
  unfold moved_by, located. cbn [p_x p_y p_t o_x o_y o_t fst snd]. rewrite Rplus_0_r, cos_0, sin_0.
  repeat split; try lra. exists 0%Z. simpl. lra.
Qed.

(** * C151: the objectives are half the sums of squared errors over variances *)
Theorem C151_plane : forall err vx vy vt vr vb ps ls odo ss, principal_error err -> 0 < vx -> 0 < vy -> 0 < vt -> 0 < vr -> 0 < vb ->
  List.length ps = S (List.length odo) -> (List.length ss <= List.length ps)%nat -> assoc_within (List.length ls) ss ->
  cost_2d vx vy vt vr vb (params_2d ps ls) odo ss =
  Val (1 / 2 * (chain_sum (pose_error err vx vy vt) ps odo + scans_sum (obs_error err vr vb) ps ls ss)).
Proof. exact cost_2d_exact. Qed.
Print Assumptions C151_plane.
Theorem C151_line : forall vardx varz xs ls odo ss, 0 < vardx -> 0 < varz ->
  List.length xs = S (List.length odo) -> (List.length ss <= List.length xs)%nat -> assoc_within (List.length ls) ss ->
  cost_1d vardx varz (xs ++ ls) odo ss =
  Val (1 / 2 * (chain_sum (fun u x y => (y - x - u) ^ 2 / vardx) xs odo + scans_sum (fun z x l => (l - x - z) ^ 2 / varz) xs ls ss)).
Proof. exact cost_1d_exact. Qed.
Print Assumptions C151_line.
Example C151_ex : principal_error normalize_angle /\ cost_1d 1 2 ([0; 1] ++ [4]) [3] [[(4, 0%Z)]; [(7, (-2)%Z); (1, 0%Z)]] = Val 3.
Proof.
  split; [intro a; split; [apply normalize_range|apply normalize_turns]|].
  rewrite cost_1d_exact; [f_equal; unfold scan_sum; cbn; lra|lra|lra|reflexivity|cbn; lia|].
  intros s z da H1 H2. destruct H1 as [<-|[<-|[]]]; repeat (destruct H2 as [H2|H2]; [injection H2 as <- <-; cbn; lia|]); destruct H2.
Qed.

(** * C152: the objective of the line is the negative logarithm of the density *)
(** Differences of costs are those of the log densities times one factor g, if both inflations amount to g;
    the noise of the density is the one given to the optimiser. *)
Theorem C152_partial : forall vardx varz p_infl z_infl dt g xs ls xs' ls' odo ss, 0 < vardx -> 0 < varz -> 0 < g ->
  p_infl * dt * dt = g -> z_infl = g ->
  List.length xs = S (List.length odo) -> List.length xs' = S (List.length odo) -> List.length ls = List.length ls' ->
  (List.length ss <= List.length xs)%nat -> assoc_within (List.length ls) ss ->
  let (q, r) := set_noise_1d vardx varz p_infl z_infl dt in
  exists c c', cost_1d vardx varz (xs ++ ls) odo ss = Val c /\ cost_1d vardx varz (xs' ++ ls') odo ss = Val c' /\
    c - c' = g * (log_posterior q r xs' ls' odo ss - log_posterior q r xs ls odo ss).
Proof. exact cost_posterior. Qed.
Print Assumptions C152_partial.
(** Otherwise a solution of lower cost may be far less likely: steps of a tenth of a second, no inflation. *)
Theorem C152_refuted : exists xs ls xs' ls' odo ss c c', let (q, r) := set_noise_1d 1 1 1 1 (1 / 10) in
  cost_1d 1 1 (xs ++ ls) odo ss = Val c /\ cost_1d 1 1 (xs' ++ ls') odo ss = Val c' /\ c < c' /\
  log_posterior q r xs ls odo ss < log_posterior q r xs' ls' odo ss.
Proof.
  exists [0; - 9 / 10], [1 / 10], [0; 0], [1], [0], [[(0, 0%Z)]; [(1, 0%Z)]], (41 / 100), (1 / 2). cbn [set_noise_1d].
  assert (W : assoc_within 1 [[(0, 0%Z)]; [(1, 0%Z)]]).
  { intros s z da H1 H2. destruct H1 as [<-|[<-|[]]]; repeat (destruct H2 as [H2|H2]; [injection H2 as <- <-; cbn; lia|]); destruct H2. }
  split; [|split; [|split]].
  - rewrite cost_1d_exact; [f_equal; unfold scan_sum; cbn; lra|lra|lra|reflexivity|cbn; lia|exact W].
  - rewrite cost_1d_exact; [f_equal; unfold scan_sum; cbn; lra|lra|lra|reflexivity|cbn; lia|exact W].
  - lra.
  - unfold log_posterior, scans_sum, scan_sum, chain_sum, log_normal. cbn. lra.
Qed.
Print Assumptions C152_refuted.
Example C152_ex : (100 : R) * (1 / 10) * (1 / 10) = 1 /\ assoc_within 1 [[(0, 0%Z)]; [(1, 0%Z)]].
Proof.
  split; [lra|]. intros s z da H1 H2. destruct H1 as [<-|[<-|[]]]; repeat (destruct H2 as [H2|H2]; [injection H2 as <- <-; cbn; lia|]); destruct H2.
Qed.

(** * C153: the drivers read their parameter arrays inside their bounds *)
(** On the line the initial map must have as many landmarks as there are. *)
Theorem C153_line_partial : forall (A : Type) P D (gt gl t l : list (list A)), wide P gt -> wide P t -> wide D gl -> wide D l ->
  List.length t = List.length gt -> (0 < D)%nat ->
  ((List.length gl <= List.length l)%nat -> run_arrays_1d P D gt gl t l =
     Val (firstn (num_params P D (List.length t) (List.length gl)) (param_array t l), param_array gt gl)) /\
  ((List.length l < List.length gl)%nat -> run_arrays_1d P D gt gl t l = UB OutOfBounds).
Proof. exact arrays_1d. Qed.
Print Assumptions C153_line_partial.
(** In the plane it must not have more. *)
Theorem C153_plane_partial : forall (A : Type) P D (gt gl t l : list (list A)), wide P gt -> wide P t -> wide D gl -> wide D l ->
  List.length t = List.length gt -> (0 < D)%nat ->
  ((List.length l <= List.length gl)%nat -> run_arrays_2d P D gt gl t l =
     Val (param_array t l, firstn (num_params P D (List.length t) (List.length l)) (param_array gt gl))) /\
  ((List.length gl < List.length l)%nat -> run_arrays_2d P D gt gl t l = UB OutOfBounds).
Proof. exact arrays_2d. Qed.
Print Assumptions C153_plane_partial.
(** It does not, if the associations given are those of the simulation. *)
Theorem C153_map_partial : forall (M L : Type) (inverse : nat -> M -> L) dflt draw n (ss : list (list (M * Z))), assoc_within n ss ->
  (forall s z da, In s ss -> In (z, da) s -> da <> (-1)%Z) -> (List.length (initMap inverse dflt draw ss) <= n)%nat.
Proof. exact init_map_small. Qed.
Print Assumptions C153_map_partial.
(** Two landmarks on the line, the second never seen: read outside of the array. *)
Theorem C153_refuted : exists (ss : list (list (Z * Z))) gt gl t, assoc_within (List.length gl) ss /\ wide 1 gt /\ wide 1 gl /\ wide 1 t /\
  List.length t = List.length gt /\
  run_arrays_1d 1 1 gt gl t (initMap (fun _ z => [z]) [0%Z] (fun _ => true) ss) = UB OutOfBounds.
Proof.
  exists [[(3, 0); (8, -2)]; [(2, 0)]]%Z, [[0]; [1]]%Z, [[3]; [70]]%Z, [[0]; [1]]%Z.
  split; [|repeat split; try (repeat constructor)].
  intros s z da H1 H2. destruct H1 as [<-|[<-|[]]]; repeat (destruct H2 as [H2|H2]; [injection H2 as <- <-; cbn; lia|]); destruct H2.
Qed.
Print Assumptions C153_refuted.
Example C153_ex : run_arrays_2d 1 1 [[0]; [1]]%Z [[3]; [70]]%Z [[0]; [2]]%Z [[4]]%Z = Val ([2; 4]%Z, [1; 3]%Z) /\
  run_arrays_1d 1 1 [[0]; [1]]%Z [[3]]%Z [[0]; [2]]%Z [[4]; [5]]%Z = Val ([2; 4]%Z, [1; 3]%Z).
Proof. split; reflexivity. Qed.

(** * C154: dead reckoning *)
(** On the line the dead reckoning poses are the odometry applied one after the other. *)
Theorem C154_line_partial : forall (X U : Type) (step : X -> U -> X) x0 outs, odometry_line step x0 outs = Val (outs, x0 :: path step x0 outs).
Proof. exact reckon_line. Qed.
Print Assumptions C154_line_partial.
Example C154_ex : odometry_line Z.add 5%Z [1; 2; 3]%Z = Val ([1; 2; 3]%Z, [5; 6; 8; 11]%Z).
Proof. reflexivity. Qed.
(** In the plane the first step already reads behind the end of the odometry. *)
Theorem C154_refuted : forall (X U : Type) (step : X -> U -> X) x0 o r, odometry_plane step x0 (o :: r) = UB OutOfBounds.
Proof. exact reckon_plane. Qed.
Print Assumptions C154_refuted.

(** * C155: files of the simulation *)
(** With descriptors every file has a row for every entry, in order. *)
Theorem C155_orb_partial : forall d, export_orb d =
  Val [map two (d_pose d); map two (d_lmk d); map two (d_odo d); map two (d_meas d); map two (d_dr d)].
Proof. exact export_orb_ok. Qed.
Print Assumptions C155_orb_partial.
(** Without, only if there is no landmark at all: the landmark row asks for one argument more than given. *)
Theorem C155_partial : forall d,
  (d_lmk d = [] -> export_1d d = Val [map two (d_pose d); []; map two (d_odo d); map two (d_meas d); map two (d_dr d)]) /\
  (d_lmk d <> [] -> export_1d d = UB Uninit).
Proof. exact export_1d_ok. Qed.
Print Assumptions C155_partial.
Theorem C155_refuted : exists d, export_1d d = UB Uninit.
Proof. exists (SimData [(0, 0)] [(7, 0)] [] [(0, 7)] [(0, 0)]). apply export_1d_ok. discriminate. Qed.
Print Assumptions C155_refuted.
Example C155_ex : export_orb (SimData [(0, 0)] [(7, 0)] [] [(0, 7)] [(0, 0)]) = Val [[[0; 0]]; [[7; 0]]; []; [[0; 7]]; [[0; 0]]].
Proof. rewrite export_orb_ok. reflexivity. Qed.

(** * C156: landmarks of the line *)
Local Open Scope Z_scope.
(** As many as asked for, but at most one for every step; spread evenly, rounded up or down. *)
Theorem C156_partial : forall kMax n, 0 <= kMax -> 1 <= n -> exists steps, landmarks_line kMax n = Val steps /\
  List.length steps = Z.to_nat (Z.min n kMax) /\
  forall c s, nth_error steps c = Some s -> if n <=? kMax then n * (s - 1) < kMax * Z.of_nat c <= n * s else s = Z.of_nat c.
Proof. exact line_ok. Qed.
Print Assumptions C156_partial.
Theorem C156_orb_partial : forall kMax n, 0 <= kMax -> 1 <= n -> exists steps, landmarks_orb kMax n = Val steps /\
  List.length steps = Z.to_nat (Z.min n kMax) /\
  forall c s, nth_error steps c = Some s -> if n <=? kMax then n * s <= kMax * Z.of_nat c < n * (s + 1) else s = Z.of_nat c.
Proof. exact orb_ok. Qed.
Print Assumptions C156_orb_partial.
Theorem C156_none_partial : forall kMax, landmarks_line kMax 0 = Val [].
Proof. exact line_none. Qed.
Print Assumptions C156_none_partial.
(** With descriptors a map without landmarks is a division by zero. *)
Theorem C156_orb_refuted : forall kMax, 0 < kMax -> landmarks_orb kMax 0 = UB DivByZero.
Proof. exact orb_none. Qed.
Print Assumptions C156_orb_refuted.
(** Fewer landmarks than asked for, without a message. *)
Theorem C156_refuted : exists kMax n steps, 0 < kMax /\ landmarks_line kMax n = Val steps /\ Z.of_nat (List.length steps) < n.
Proof. exists 3, 5, [0; 1; 2]. split; [lia|]. split; [vm_compute; reflexivity|cbn; lia]. Qed.
Print Assumptions C156_refuted.
Example C156_ex : landmarks_line 10 4 = Val [0; 3; 5; 8] /\ landmarks_orb 10 4 = Val [0; 2; 5; 7].
Proof. split; vm_compute; reflexivity. Qed.
Local Close Scope Z_scope.

(** * C157: generated measurements *)
(** Scan k the optimiser works with holds exactly the samples of step k that are within the limits and drawn, in
    the order of the landmarks and with their association, then the false alarms of the step; the first observation
    times are right. *)
Theorem C157 : forall (I : Type) (itime : I -> Z) c poses lms noise u alarms tag dT us, (0 < dT)%Z ->
  List.length poses = S (List.length us) -> (forall k o, nth_error us k = Some o -> itime o = (Z.of_nat (S k) * dT)%Z) ->
  exists sees : nat -> nat -> option R,
    (forall k m x l z, nth_error poses k = Some x -> nth_error lms m = Some l -> (sees k m = Some z <-> hits c x l (noise k m) (u k m) z)) /\
    exists g, generate c poses lms noise u alarms tag dT (List.length poses) = Val g /\
    (List.length (g_first g) = List.length lms /\ forall m v, nth_error (g_first g) m = Some v ->
       (v = (-1)%Z /\ forall j, (j < List.length poses)%nat -> sees j m = None) \/
       (exists j, (j < List.length poses)%nat /\ v = (Z.of_nat j * dT)%Z /\ sees j m <> None /\ forall i, (i < j)%nat -> sees i m = None)) /\
    exists b, c_addMeasurements fst (g_z g) (g_da g) (c_setInputs itime us (BT [] [] [])) = Val b /\ inputs b = us /\
      zs b = map (fun k => map (fun zd : R * Z => ((Z.of_nat k * dT, fst zd)%Z, snd zd))
        (flat_map (fun m => match sees k m with Some z => [(z, Z.of_nat m)] | None => [] end) (seq 0 (List.length lms)) ++
         map (fun r => (r, tag)) (alarms k))) (seq 0 (List.length poses)).
Proof. exact generated_delivered. Qed.
Print Assumptions C157.
(** A landmark ahead and one behind, both in reach at noise 1/2. *)
Example C157_ex : let c := SCfg (9 / 10) 0 10 1 0 in hits c 0 4 (1 / 2) (1 / 3) (9 / 2) /\ hits c 0 (-4) (1 / 2) (1 / 3) (- 7 / 2) /\
  ~ (exists z, hits c 0 20 (1 / 2) (1 / 3) z).
Proof.
  unfold hits. cbn [s_min s_max s_pd]. repeat split; try lra; try (unfold Rabs; destruct (Rcase_abs _); lra).
  intros (z & _ & H & _). revert H. unfold Rabs. destruct (Rcase_abs _); lra.
Qed.

(** * C158: false alarms of the line *)
(** They are within the limits, but never on the negative side, where measurements are possible. *)
Theorem C158_range_partial : forall rnd rmin rmax fuel p r q, unit_stream rnd -> (0 < rmax)%Qc ->
  draw_above rnd fuel p rmin rmax = Val (r, q) -> ((rmin <= r)%Qc /\ (r < rmax)%Qc) /\ (0 <= r)%Qc.
Proof. exact alarm_range. Qed.
Print Assumptions C158_range_partial.
Theorem C158_refuted : (exists z, z < 0 /\ hits (SCfg (9 / 10) 0 10 1 0) 0 (-4) 0 0 z) /\
  forall rnd fuel p r q, unit_stream rnd -> draw_above rnd fuel p 1%Qc (Q2Qc 10) = Val (r, q) -> (0 <= r)%Qc.
Proof.
  split.
  - exists (-4). split; [lra|]. unfold hits. cbn [s_min s_max s_pd]. repeat split; try lra; unfold Rabs; destruct (Rcase_abs _); lra.
  - intros rnd fuel p r q U E. eapply alarm_range; [exact U| |exact E]. reflexivity.
Qed.
Print Assumptions C158_refuted.
Example C158_ex : unit_stream (fun p => match p with O => Q2Qc (1 # 100) | _ => Q2Qc (1 # 2) end) /\
  draw_above (fun p => match p with O => Q2Qc (1 # 100) | _ => Q2Qc (1 # 2) end) 3 0 1%Qc (Q2Qc 10) = Val (Q2Qc 5, 2%nat).
Proof.
  split; [intros [|p]; split; discriminate || reflexivity|]. vm_compute. do 2 f_equal; apply Qc_is_canon; reflexivity.
Qed.

(** * C159: number of iterations *)
Local Open Scope Z_scope.
(** The swarm moves in iterations 1 to maxiter - 1, with descriptors 1 to maxiter. *)
Theorem C159_partial : forall maxiter every fuel, (Z.to_nat maxiter < fuel)%nat ->
  exists l, run_pso maxiter every fuel = Val l /\ moves l = count_up 1 (Z.to_nat (maxiter - 1)).
Proof. exact run_pso_moves. Qed.
Print Assumptions C159_partial.
Theorem C159_orb_partial : forall maxiter every fuel, (Z.to_nat maxiter < fuel)%nat ->
  exists l, run_orb maxiter every fuel = Val l /\ moves l = count_up 1 (Z.to_nat maxiter).
Proof. exact run_orb_moves. Qed.
Print Assumptions C159_orb_partial.
Theorem C159_refuted : exists l, run_pso 1 0 10 = Val l /\ moves l = [].
Proof. exists [Log 0]. split; reflexivity. Qed.
Print Assumptions C159_refuted.
Example C159_ex : exists l, run_orb 3 2 10 = Val l /\ moves l = [1; 2; 3].
Proof. eexists. split; vm_compute; reflexivity. Qed.

(** * C160: logged likelihoods *)
(** Every row after the first pairs the likelihood of the solution before the move with the solution after it. *)
Theorem C160_partial : forall (T L : Type) (lik : T -> L) opt move every maxiter fuel t0, (Z.to_nat maxiter < fuel)%nat ->
  exists l, run_pso maxiter every fuel = Val l /\
  rows_of lik opt move l t0 = (0, None, t0) :: map (row_of lik opt move every t0) (seq 0 (Z.to_nat (maxiter - 1))).
Proof. exact @pso_rows. Qed.
Print Assumptions C160_partial.
Theorem C160_orb_partial : forall (T L : Type) (lik : T -> L) opt move every maxiter fuel t0, (Z.to_nat maxiter < fuel)%nat ->
  exists l, run_orb maxiter every fuel = Val l /\
  rows_of lik opt move l t0 = (0, Some (lik t0), t0) :: map (row_of lik opt move every t0) (seq 0 (Z.to_nat maxiter)).
Proof. exact @orb_rows. Qed.
Print Assumptions C160_orb_partial.
Theorem C160_refuted : exists (lik : Z -> Z) opt move l i v t, run_orb 1 0 9 = Val l /\ In (i, Some v, t) (rows_of lik opt move l 4) /\ v <> lik t.
Proof.
  exists (fun x => - (x * x)), (fun _ x => x), (fun _ x => x - 1). eexists. exists 1, (-16), 3.
  split; [reflexivity|]. split; [right; left; reflexivity|]. discriminate.
Qed.
Print Assumptions C160_refuted.
Example C160_ex : exists l, run_pso 3 2 9 = Val l /\
  rows_of (fun x => - (x * x)) (fun _ x => x - 10) (fun _ x => x + 1) l 4 = [(0, None, 4); (1, Some (-16), 5); (2, Some (-25), -4)].
Proof. eexists. split; [reflexivity|]. vm_compute. reflexivity. Qed.
Local Close Scope Z_scope.

(** * C161: inputs after the solver *)
(** The poses are those of the solver and the inputs add up to them, component by component. *)
Theorem C161_partial : forall P n a prev, (0 < P)%nat -> List.length a = (n * P)%nat -> List.length prev = P ->
  exists ps us, write_back P a prev n = Val (ps, us) /\ List.concat ps = a /\ List.length ps = n /\ Forall (fun p => List.length p = P) ps /\
    path vsum prev us = ps.
Proof. exact write_back_path. Qed.
Print Assumptions C161_partial.
(** In the plane such an input moves one pose to the next only without translation or at heading zero. *)
Theorem C161_plane_partial : forall a b, moved_by (O2 (p_x b - p_x a) (p_y b - p_y a) (p_t b - p_t a)) a b <->
  (p_x b = p_x a /\ p_y b = p_y a) \/ same_direction (p_t a) 0.
Proof. exact diff_moved. Qed.
Print Assumptions C161_plane_partial.
Theorem C161_refuted : exists us, write_back 3 [1; 0; PI / 2] [0; 0; PI / 2] 1 = Val ([[1; 0; PI / 2]], [us]) /\
  ~ moved_by (O2 (nth 0 us 0) (nth 1 us 0) (nth 2 us 0)) (P2 0 0 (PI / 2)) (P2 1 0 (PI / 2)).
Proof.
  eexists. split; [reflexivity|]. cbn [nth map combine fst snd firstn].
  intro H. apply (diff_moved (P2 0 0 (PI / 2)) (P2 1 0 (PI / 2))) in H. cbn [p_x p_y p_t] in H. destruct H as [[H _]|[k H]]; [lra|].
  pose proof PI_RGT_0. assert (E : IZR (4 * k - 1) = 0) by (rewrite minus_IZR, mult_IZR; nra).
  apply eq_IZR_R0 in E. lia.
Qed.
Print Assumptions C161_refuted.
Example C161_ex : List.length [1; 0; PI / 2] = (1 * 3)%nat /\ List.length [0; 0; PI / 2] = 3%nat.
Proof. split; reflexivity. Qed.

(** * C162: process noise in space *)
(** The filter assumes the inflated noise of the simulation exactly if the four quaternion variances agree. *)
Theorem C162_partial : forall v infl dt, dt <> 0 -> infl <> 0 ->
  (filter_noise v infl dt = map (Rmult infl) (sim_noise v dt) <-> n_qx v = n_qw v /\ n_qy v = n_qw v /\ n_qz v = n_qw v).
Proof. exact noise_iff. Qed.
Print Assumptions C162_partial.
Theorem C162_refuted : exists v, filter_noise v 1 1 <> map (Rmult 1) (sim_noise v 1).
Proof. exists (Var7 1 1 1 1 1 1 2). intro H. apply (noise_iff _ 1 1) in H; [|lra|lra]. cbn in H. lra. Qed.
Print Assumptions C162_refuted.
Example C162_ex : filter_noise (Var7 1 2 3 4 4 4 4) 5 1 = map (Rmult 5) (sim_noise (Var7 1 2 3 4 4 4 4) 1).
Proof. apply noise_iff; [lra|lra|repeat split]. Qed.

(** * C163: the first pose of a swarm is never moved *)
(** If all trajectories start at the same place at rest, every trajectory the swarm ever has does. *)
Theorem C163 : forall w (init : list (R * R) -> Prop) j x, (forall t, init t -> nth_error t j = Some (x, 0)) ->
  forall t, roams (fun r t b g => move_traj w r 0 t b g) init t -> nth_error t j = Some (x, 0).
Proof. exact anchored. Qed.
Print Assumptions C163.
(** The second component does move: towards the best of the other. *)
Example C163_ex : move_traj (1 / 2) (fun _ => (1, 1)) 0 [(7, 0); (1, 2)] [(7, 0); (1, 0)] (Some [(7, 0); (4, 0)]) = [(7, 0); (5, 4)].
Proof. unfold move_traj, move_comp. cbn [fst snd tl]. repeat f_equal; lra. Qed.
