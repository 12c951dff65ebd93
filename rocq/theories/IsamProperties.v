(** C178 to C182: ISAM data sets, held particles, ground truth landmarks, simulated noise, point files. *)
From Coq Require Import ZArith List Bool Arith QArith Qcanon Lia.
From Verif Require Import Base QcLra SimModel IsamModel IsamSpec IsamProofs.
Import ListNotations.
Local Open Scope Qc_scope.

Definition q (n : Z) : Qc := Q2Qc (inject_Z n).
(** Motions and measurements without rotation, for the examples. *)
Definition go (p u : Qc * Qc * Qc) : Qc * Qc * Qc :=
  let '(a, b, c) := p in let '(x, y, h) := u in (a + x, b + y, c + h).
Definition see (p : Qc * Qc * Qc) (z : Qc * Qc) : Qc * Qc := let '(a, b, _) := p in (a + fst z, b + snd z).
Definition zero3 : Qc * Qc * Qc := (0, 0, 0).
Definition shown3 (p : Qc * Qc * Qc) : Q * Q * Q := let '(a, b, c) := p in (this a, this b, this c).
Definition shown2 (p : Qc * Qc) : Q * Q := (this (fst p), this (snd p)).
Definition odo (i0 i1 x xx : Z) : line := LOdometry i0 i1 (q x) 0 0 (q xx) 0 0 (q 1) 0 (q 1).
Definition lm (i l x xx : Z) : line := LLandmark i l (q x) (q 1) (q xx) 0 (q 1).
Definition yes (_ _ : Z) : bool := true.
Definition no (_ _ : Z) : bool := false.

(** ** C178 *)

(** readISAMFile alone: the variances are the diagonal of the inverse of the information of the last
    motion and of the last sighting of the file. *)
Theorem C178_file_partial : forall (P M : Type) (step : P -> Qc * Qc * Qc -> P) (inverse : P -> Qc * Qc -> M) answer origin ls s,
  Forall (readable answer) ls -> exists s', read_isam step inverse answer origin (Some ls) s = Val (Some s') /\
  (forall U, last_motion ls None = Some U -> U 0%nat 0%nat <> 0 -> U 1%nat 1%nat <> 0 -> U 2%nat 2%nat <> 0 ->
   exists C, inverse_of 3 (mmul 3 (tr U) U) C /\ [vardx s'; vardy s'; vardz s'] = map Some [C 0%nat 0%nat; C 1%nat 1%nat; C 2%nat 2%nat]) /\
  (forall U, last_sighting ls None = Some U -> U 0%nat 0%nat <> 0 -> U 1%nat 1%nat <> 0 ->
   exists C, inverse_of 2 (mmul 2 (tr U) U) C /\ [varzx s'; varzy s'] = map Some [C 0%nat 0%nat; C 1%nat 1%nat]).
Proof. exact file_noise. Qed.
Print Assumptions C178_file_partial.

Example C178_file_witness :
  Forall (readable no) [odo 0 1 5 2; lm 1 7 3 4; odo 1 2 1 10] /\
  omap (option_map (fun s => map (option_map this) [vardx s; vardy s; varzx s; varzy s]))
    (read_isam go see no zero3 (Some [odo 0 1 5 2; lm 1 7 3 4; odo 1 2 1 10]) fresh)
  = Val (Some [Some (1 # 100); Some 1%Q; Some (1 # 16); Some 1%Q]).
Proof. split; [repeat constructor|]. vm_compute. reflexivity. Qed.

(** The covariance has infinite or undefined entries exactly if a diagonal entry is zero. *)
Theorem C178_singular_partial : forall xx xy xt yy yt hh, cov3 (upper3 xx xy xt yy yt hh) = None <-> xx = 0 \/ yy = 0 \/ hh = 0.
Proof. exact cov3_none. Qed.
Print Assumptions C178_singular_partial.
Example C178_singular_witness : cov3 (upper3 (q 1) (q 2) 0 0 (q 3) (q 1)) = None /\ cov3 (upper3 (q 1) (q 2) 0 (q 2) (q 3) (q 1)) <> None.
Proof. split; [vm_compute; reflexivity|]. rewrite cov3_none. intros [K|[K|K]]; discriminate K. Qed.

(** The program: whatever the data set says, the filter gets the noise of the settings. *)
Theorem C178_settings_partial : forall (P M : Type) (step : P -> Qc * Qc * Qc -> P) (inverse : P -> Qc * Qc -> M) answer origin c f g s,
  main_read step inverse answer origin c f g = Val (Some s) ->
  filter_Q c s = map (fun v => Some (v * (c_pinfl c * c_dT c * c_dT c))) [c_dx c; c_dy c; c_dz c] /\
  filter_R c s = map (fun v => Some (v * c_zinfl c)) [c_zx c; c_zy c].
Proof. exact main_noise. Qed.
Print Assumptions C178_settings_partial.

Definition c1 : settings := Settings (q 1) (q 1) (q 1) (q 1) (q 1) (q 1) (q 1) (q 1).
Example C178_settings_witness :
  omap (option_map (fun s => length (odometry s))) (main_read go see no zero3 c1 (Some [odo 0 1 5 2; lm 1 7 3 4]) (Some [odo 0 1 5 2])) = Val (Some 1%nat).
Proof. vm_compute. reflexivity. Qed.

(** A data set whose motions have variance 1/100; the filter uses 1. *)
Theorem C178_refuted : exists c ls g, Forall (readable no) ls /\ (c_pinfl c = 1 /\ c_dT c = 1) /\
  omap (option_map (fun s => option_map this (vardx s))) (read_isam go see no zero3 (Some ls) fresh) = Val (Some (Some (1 # 100))) /\
  omap (option_map (fun s => map (option_map this) (filter_Q c s))) (main_read go see no zero3 c (Some ls) (Some g)) = Val (Some [Some 1%Q; Some 1%Q; Some 1%Q]).
Proof.
  exists c1, [odo 0 1 5 10; lm 1 7 3 4], [odo 0 1 5 2]. split; [repeat constructor|].
  split; [split; apply Qc_is_canon; reflexivity|]. split; vm_compute; reflexivity.
Qed.
Print Assumptions C178_refuted.

(** Only the last motion counts: the first is a hundred times less certain. *)
Theorem C178_last_refuted : exists l1 l2,
  omap (option_map (fun s => option_map this (vardx s))) (read_isam go see no zero3 (Some [l1]) fresh) = Val (Some (Some 1%Q)) /\
  omap (option_map (fun s => option_map this (vardx s))) (read_isam go see no zero3 (Some [l1; l2]) fresh) = Val (Some (Some (1 # 100))).
Proof. exists (odo 0 1 5 1), (odo 1 2 5 10). split; vm_compute; reflexivity. Qed.
Print Assumptions C178_last_refuted.

(** A blank line anywhere: the first word of the line is read although there is none. *)
Theorem C178_blank_refuted : exists ls, Forall (readable no) ls /\ read_isam go see no zero3 (Some (ls ++ [LBlank])) fresh = UB Uninit.
Proof. exists [odo 0 1 5 1; lm 1 7 3 4]. split; [repeat constructor|]. reflexivity. Qed.
Print Assumptions C178_blank_refuted.

(** ** C179 *)

(** The imposed pose: the first n particles enter the update of each held step at ground truth pose
    number hold k, and there are at least n of them. *)
Theorem C179_held_partial : forall (P D U A : Type) (predict : U -> list (P * D) -> list (P * D)) (update : list A -> list (P * D) -> list (P * D))
  hold n gt steps k us zs ps tr, run_loop predict update hold n gt steps k us zs ps = Val tr ->
  length tr = steps /\ forall m st j, nth_error tr m = Some st -> hold (k + m)%nat = Some j ->
  exists t p, nth_error gt j = Some (t, p) /\ (n <= length st)%nat /\ forall i q d, (i < n)%nat -> nth_error st i = Some (q, d) -> q = p.
Proof. exact @run_held. Qed.
Print Assumptions C179_held_partial.

(** Holding changes poses only. *)
Theorem C179_rest_partial : forall (P D : Type) n (p : P) (ps : list (P * D)), (n <= length ps)%nat ->
  exists ps', set_poses n 0 p ps = Val ps' /\ length ps' = length ps /\ map snd ps' = map snd ps /\
  forall j, option_map fst (nth_error ps' j) = if (0 <=? j)%nat && (j <? 0 + n)%nat then Some p else option_map fst (nth_error ps j).
Proof. exact (fun P D n p ps H => @set_poses_ok P D n 0 p ps H). Qed.
Print Assumptions C179_rest_partial.

(** The run completes exactly if there are enough motions and measurements, and the poses of the held steps exist. *)
Theorem C179_completes_partial : forall (P D U A : Type) (predict : U -> list (P * D) -> list (P * D)) (update : list A -> list (P * D) -> list (P * D))
  hold n gt, (forall u (ps : list (P * D)), length (predict u ps) = length ps) -> (forall b (ps : list (P * D)), length (update b ps) = length ps) ->
  forall steps k us zs ps, length ps = n ->
  ((exists tr, run_loop predict update hold n gt steps k us zs ps = Val tr) <->
   (steps <= length us)%nat /\ (forall m j, (m < steps)%nat -> hold (k + m)%nat = Some j -> (j < length gt)%nat) /\
   exists bs, batches (firstn steps (map fst us)) zs = Val bs).
Proof. exact @run_iff. Qed.
Print Assumptions C179_completes_partial.

(** The PHD program never holds: its run is the same for every ground truth. *)
Theorem C179_phd_partial : forall (P D U A : Type) (predict : U -> list (P * D) -> list (P * D)) (update : list A -> list (P * D) -> list (P * D))
  n gt gt' steps k us zs ps,
  run_loop predict update hold_phd n gt steps k us zs ps = run_loop predict update hold_phd n gt' steps k us zs ps.
Proof. exact (fun P D U A predict update n gt gt' => @run_no_truth P D U A predict update hold_phd n gt gt' hold_phd_never). Qed.
Print Assumptions C179_phd_partial.

(** With data sets whose motions are numbered consecutively the LMB program holds at the pose of the time of the motion. *)
Theorem C179_time_partial : forall (P M : Type) (step : P -> Qc * Qc * Qc -> P) (inverse : P -> Qc * Qc -> M) answer origin c ls g s,
  consecutive 0 ls -> consecutive 0 g -> Forall (readable answer) ls -> Forall (readable answer) g ->
  main_read step inverse answer origin c (Some ls) (Some g) = Val (Some s) ->
  forall k j t u t' p, hold_lmb k = Some j -> nth_error (odometry s) k = Some (t, u) -> nth_error (gt_poses s) j = Some (t', p) -> t' = t.
Proof. exact held_on_time. Qed.
Print Assumptions C179_time_partial.

(** Two particles (pose, weight) that move by the odometry. *)
Definition pmove (u : Z) (ps : list (Z * Z)) : list (Z * Z) := map (fun p => (fst p + u, snd p)%Z) ps.
Definition pkeep (b : list Z) (ps : list (Z * Z)) : list (Z * Z) := ps.
Definition psplit (b : list Z) (ps : list (Z * Z)) : list (Z * Z) := ps ++ ps.
Definition us6 : list (Z * Z) := map (fun t => (t, 1%Z)) [1; 2; 3; 4; 5; 6]%Z.
Definition zs6 : list (Z * Z) := map (fun t => (t, 9%Z)) [1; 2; 3; 4; 5; 6; 7]%Z.
Definition gt6 : list (Z * Z) := map (fun t => (t, 10 * t)%Z) [0; 1; 2; 3; 4; 5]%Z.

Example C179_held_witness : run_loop pmove pkeep hold_lmb 2 gt6 6 0 us6 zs6 [(0, 1); (0, 2)]%Z =
  Val [[(10, 1); (10, 2)]; [(20, 1); (20, 2)]; [(30, 1); (30, 2)]; [(40, 1); (40, 2)]; [(50, 1); (50, 2)]; [(51, 1); (51, 2)]]%Z.
Proof. reflexivity. Qed.
Example C179_time_witness : let ls := [odo 0 1 5 10; lm 1 7 3 4; odo 1 2 1 1] in
  consecutive 0 ls /\ Forall (readable no) ls /\
  omap (option_map (fun s => (option_map fst (nth_error (odometry s) 1), option_map fst (nth_error (gt_poses s) 2))))
    (main_read go see no zero3 c1 (Some ls) (Some ls)) = Val (Some (Some 2%Z, Some 2%Z)).
Proof. cbv zeta. split; [cbn; repeat split|]. split; [repeat constructor|]. vm_compute. reflexivity. Qed.

(** Two ground truths, the same data: different particles in the LMB program. *)
Theorem C179_refuted : exists gt gt' a b, 
  run_loop pmove pkeep hold_lmb 2 gt 1 0 us6 zs6 [(0, 1); (0, 2)]%Z = Val a /\ run_loop pmove pkeep hold_lmb 2 gt' 1 0 us6 zs6 [(0, 1); (0, 2)]%Z = Val b /\ a <> b.
Proof. exists gt6, (map (fun p => (fst p, snd p + 1)%Z) gt6), [[(10, 1); (10, 2)]%Z], [[(11, 1); (11, 2)]%Z]. split; [reflexivity|]. split; [reflexivity|]. discriminate. Qed.
Print Assumptions C179_refuted.

(** Five poses (a simulation with kMax = 5, times 0 to 4): the fifth held step reads a sixth. *)
Theorem C179_bounds_refuted : exists gt us zs, length gt = 5%nat /\ length us = 5%nat /\
  (forall k t u t' p, nth_error us k = Some (t, u) -> nth_error gt k = Some (t', p) -> t' = t) /\
  run_loop pmove pkeep hold_lmb 2 gt 5 0 us zs [(0, 1); (0, 2)]%Z = UB OutOfBounds /\
  exists tr, run_loop pmove pkeep (hold_sim 50) 2 gt 5 0 us zs [(0, 1); (0, 2)]%Z = Val tr.
Proof.
  exists (firstn 5 gt6), (map (fun t => (t, 1%Z)) [0; 1; 2; 3; 4]%Z), ((0, 9)%Z :: zs6). split; [reflexivity|]. split; [reflexivity|]. split.
  - intros k t u t' p. do 5 (destruct k as [|k]; [cbn; congruence|]). destruct k; discriminate.
  - split; [reflexivity|]. eexists. reflexivity.
Qed.
Print Assumptions C179_bounds_refuted.

(** A simulation, where pose k has the time of motion k: the LMB program holds at the pose of the next step. *)
Theorem C179_time_refuted : exists gt us zs st, 
  (forall k t u t' p, nth_error us k = Some (t, u) -> nth_error gt k = Some (t', p) -> t' = t) /\
  run_loop pmove pkeep hold_lmb 2 gt 1 0 us zs [(0, 1); (0, 2)]%Z = Val [st] /\ option_map fst (nth_error us 0) = Some 0%Z /\
  map fst st = [10; 10]%Z /\ nth_error gt 0 = Some (0, 0)%Z /\ nth_error gt 1 = Some (1, 10)%Z.
Proof.
  exists gt6, (map (fun t => (t, 1%Z)) [0; 1; 2; 3; 4; 5]%Z), ((0, 9)%Z :: zs6). eexists. split.
  - intros k t u t' p. do 6 (destruct k as [|k]; [cbn; congruence|]). destruct k; discriminate.
  - split; [reflexivity|]. repeat split.
Qed.
Print Assumptions C179_time_refuted.

(** A filter that splits particles (multi-hypothesis FastSLAM): only the first n are held. *)
Theorem C179_split_refuted : exists tr st, run_loop pmove psplit (hold_sim 100) 2 gt6 2 0 us6 zs6 [(0, 1); (0, 2)]%Z = Val tr /\
  nth_error tr 1 = Some st /\ hold_sim 100 1 = Some 1%nat /\ nth_error gt6 1 = Some (1, 10)%Z /\ map fst st = [10; 10; 1; 1]%Z.
Proof. eexists. eexists. split; [reflexivity|]. split; [reflexivity|]. repeat split. Qed.
Print Assumptions C179_split_refuted.

(** ** C180 *)

(** readISAMGroundTruth succeeds exactly if every sighting follows the motion to its pose; then the
    poses are the motions followed from the origin, and landmark n is where sighting n puts it from
    the pose with the number of the sighting. *)
Theorem C180_truth_partial : forall (P M : Type) (step : P -> Qc * Qc * Qc -> P) (inverse : P -> Qc * Qc -> M) answer origin ls s,
  gt_poses s = [] -> gt_lms s = [] -> Forall (readable answer) ls ->
  (known 0 ls -> exists s', read_truth step inverse answer origin (Some ls) s = Val (Some s') /\
     gt_poses s' = (0%Z, origin) :: path step origin (moves ls) /\
     Forall2 (fun z m => exists t p, nth_error (gt_poses s') (Z.to_nat (fst z)) = Some (t, p) /\ m = inverse p (snd z)) (sightings ls) (gt_lms s')) /\
  (~ known 0 ls -> read_truth step inverse answer origin (Some ls) s = UB OutOfBounds).
Proof. exact truth_exact. Qed.
Print Assumptions C180_truth_partial.

(** For consecutive motions pose n is the pose of time n. *)
Theorem C180_times_partial : forall (P M : Type) (step : P -> Qc * Qc * Qc -> P) (inverse : P -> Qc * Qc -> M) answer origin ls s s',
  gt_poses s = [] -> gt_lms s = [] -> consecutive 0 ls -> Forall (readable answer) ls ->
  read_truth step inverse answer origin (Some ls) s = Val (Some s') ->
  forall n t p, nth_error (gt_poses s') n = Some (t, p) -> t = Z.of_nat n.
Proof. exact truth_times. Qed.
Print Assumptions C180_times_partial.

Definition truth3 : list line := [odo 0 1 5 1; lm 1 7 3 4; odo 1 2 2 1; lm 0 8 1 1; lm 2 9 1 1].
Example C180_truth_witness : known 0 truth3 /\ consecutive 0 truth3 /\ Forall (readable no) truth3 /\
  omap (option_map (fun s => (map fst (gt_poses s), map shown2 (gt_lms s)))) (read_truth go see no zero3 (Some truth3) fresh)
  = Val (Some ([0; 1; 2]%Z, [(8, 1); (1, 1); (8, 1)]%Q)).
Proof. split; [cbn; repeat split; discriminate|]. split; [cbn; repeat split|]. split; [repeat constructor|]. vm_compute. reflexivity. Qed.

(** A sighting before the motion to its pose. *)
Theorem C180_order_refuted : exists ls, consecutive 0 ls /\ Forall (readable no) ls /\ read_truth go see no zero3 (Some ls) fresh = UB OutOfBounds.
Proof. exists [lm 1 7 3 4; odo 0 1 5 1]. split; [cbn; repeat split|]. split; [repeat constructor|]. reflexivity. Qed.
Print Assumptions C180_order_refuted.

(** A landmark that is seen twice is two landmarks of the ground truth, its number is not used. *)
Theorem C180_refuted : exists ls, consecutive 0 ls /\ known 0 ls /\ Forall (readable no) ls /\
  (forall i l x y a b c, In (LLandmark i l x y a b c) ls -> l = 7%Z) /\
  omap (option_map (fun s => map shown2 (gt_lms s))) (read_truth go see no zero3 (Some ls) fresh) = Val (Some [(8, 1); (8, 1)]%Q).
Proof.
  exists [odo 0 1 5 1; lm 1 7 3 4; lm 0 7 8 4]. split; [cbn; repeat split|]. split; [cbn; repeat split; discriminate|].
  split; [repeat constructor|]. split.
  - intros i l x y a b c. unfold odo, lm. intros [K|[K|[K|[]]]]; [discriminate K| |]; injection K; auto.
  - vm_compute. reflexivity.
Qed.
Print Assumptions C180_refuted.

(** A constraint between poses that are not consecutive, accepted by the user: pose number 2 of the
    vector is the pose of time 5, and a sighting from pose 2 is placed from there. *)
Theorem C180_shift_refuted : exists ls, known 0 ls /\ Forall (readable yes) ls /\
  omap (option_map (fun s => option_map fst (nth_error (gt_poses s) 2))) (read_truth go see yes zero3 (Some ls) fresh) = Val (Some (Some 5%Z)).
Proof.
  exists [odo 0 1 5 1; odo 0 5 9 1; lm 2 7 3 4]. split; [cbn; repeat split; discriminate|].
  split; [|vm_compute; reflexivity]. constructor; [left; reflexivity|]. constructor; [right; reflexivity|]. repeat constructor.
Qed.
Print Assumptions C180_shift_refuted.

(** ** C181 *)

(** The LMB program: whatever square root F of the covariance is used, the noise F n of every
    measurement is zero. *)
Theorem C181_lmb_partial : forall a b F n, (forall i j, (i < 2)%nat -> (j < 2)%nat -> mmul 2 F (tr F) i j = simulated_lmb a b i j) ->
  forall i, (i < 2)%nat -> F i 0%nat * n 0%nat + F i 1%nat * n 1%nat = 0.
Proof. exact lmb_silent. Qed.
Print Assumptions C181_lmb_partial.
Example C181_lmb_witness : forall i j, (i < 2)%nat -> (j < 2)%nat -> mmul 2 mm_new (tr mm_new) i j = simulated_lmb (q 4) (q 9) i j.
Proof. intros [|[|i]] [|[|j]] Hi Hj; try lia; vm_compute; reflexivity. Qed.

(** Configured variances 4 and 9: the PHD program has a root with these, the LMB program samples without noise. *)
Theorem C181_refuted : exists a b F, (forall i j, (i < 2)%nat -> (j < 2)%nat -> mmul 2 F (tr F) i j = simulated_phd a b i j) /\
  (F 0%nat 0%nat * q 1 + F 0%nat 1%nat * q 1 <> 0) /\
  forall G n, (forall i j, (i < 2)%nat -> (j < 2)%nat -> mmul 2 G (tr G) i j = simulated_lmb a b i j) ->
  G 0%nat 0%nat * n 0%nat + G 0%nat 1%nat * n 1%nat = 0.
Proof.
  exists (q 4), (q 9), (diag2 (q 2) (q 3)). split; [|split].
  - intros [|[|i]] [|[|j]] Hi Hj; try lia; vm_compute; apply Qc_is_canon; reflexivity.
  - vm_compute. discriminate.
  - intros G n H. exact (lmb_silent _ _ G n H 0%nat (Nat.lt_0_succ 1)).
Qed.
Print Assumptions C181_refuted.

(** ** C182 *)

(** Any number of points is read if something follows the last number. *)
Theorem C182_points_partial : forall ps, read_points (numbers ps) true = ps.
Proof. exact points_all. Qed.
Print Assumptions C182_points_partial.

(** A number without partner at the end is dropped. *)
Theorem C182_odd_partial : forall ps x, read_points (numbers ps ++ [x]) true = match ps with [] => [] | _ => ps end.
Proof. exact points_cut. Qed.
Print Assumptions C182_odd_partial.

(** Without anything after the last number the last point is lost, for every file. *)
Theorem C182_open_partial : forall ps p, read_points (numbers (ps ++ [p])) false = ps.
Proof. exact points_open. Qed.
Print Assumptions C182_open_partial.

Example C182_witness : read_points (numbers [(q 1, q 2); (q 3, q 4)]) true = [(q 1, q 2); (q 3, q 4)].
Proof. reflexivity. Qed.

Theorem C182_refuted : exists ps, ps <> [] /\ read_points (numbers ps) false <> ps.
Proof. exists [(q 1, q 2)]. split; discriminate. Qed.
Print Assumptions C182_refuted.
