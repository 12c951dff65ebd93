(** Model of the two-dimensional simulator drivers and of the log analysis:
    include/RBPHDSLAM_2D.hpp (generateTrajectory 331-387, generateOdometry 390-424,
    generateLandmarks 427-466, generateMeasurements 469-569, exportSimData 610-617, the parser of
    ISAM files 224-325, run 696-850), the same loops of include/RBLMBSLAM_2D.hpp and of the
    simulators in src, the false alarms of src/rbphdslam6dSim.cpp:412-430, and
    src/analysis2dSim.cpp (readNextStepData 149-206, getCardinalityEst 212-225, calcDRError 253-262,
    calcPoseError 266-318).

    Numbers are exact (Z, Qc, R): rounding is outside the model.  drand48 is a stream
    [rnd : nat -> Qc] read at increasing positions.  Time stamps are integers (nanoseconds) as in
    TimeStampModel. *)
From Coq Require Import List Arith ZArith QArith Qround Qcanon Lia Reals.
From Verif Require Import Base QcLra SensorModel.
Import ListNotations.

(** * Schedules *)

Local Open Scope Z_scope.

(** RBPHDSLAM_2D.hpp:441-443 ("k >= kMax_ / nLandmarks_ * nLandmarksCreated") and :361
    ("k >= kMax_ / nSegments_ * seg"): the test of step [k] with [c] items made so far.  Integer
    division truncates; division by zero is undefined.  Overflow of int is not modelled. *)
Definition due (kMax n c k : Z) : outcome bool :=
  if n =? 0 then UB DivByZero else Val (Z.quot kMax n * c <=? k).

(** RBPHDSLAM_2D.hpp:440-464 and 348-374: the steps k, k+1, ... ([len] of them) at which a new item
    (landmark, trajectory segment) is made, with [c] items made before. *)
Fixpoint schedule (kMax n : Z) (len : nat) (k c : Z) : outcome (list Z) :=
  match len with
  | O => Val []
  | S len' =>
      let* d := due kMax n c k in
      if (d : bool) then omap (cons k) (schedule kMax n len' (k + 1) (c + 1)) else schedule kMax n len' (k + 1) c
  end.

(** RBPHDSLAM_2D.hpp:439-464: for(k = 1; k < kMax_; k++). *)
Definition landmark_steps (kMax n : Z) : outcome (list Z) := schedule kMax n (Z.to_nat (kMax - 1)) 1 0.

(** RBPHDSLAM_2D.hpp:348-374: steps up to 50 stand still, the test is made from step 51 on. *)
Definition segment_steps (kMax n : Z) : outcome (list Z) := schedule kMax n (Z.to_nat (kMax - 51)) 51 0.

Local Close Scope Z_scope.

(** * Random draws *)

Local Open Scope Qc_scope.

Section Draws.
Variable rnd : nat -> Qc.   (* drand48 *)

(** RBPHDSLAM_2D.hpp:363-366 (dx), 549-551 (range of a false alarm): draw until the value reaches
    [lo]; [fuel] bounds the number of further draws.  Returns the value and the next position. *)
Fixpoint draw_above (fuel : nat) (p : nat) (lo hi : Qc) : outcome (Qc * nat) :=
  let x := rnd p * hi in
  if Qcltb x lo then match fuel with O => OutOfFuel | S f => draw_above f (S p) lo hi end
  else Val (x, S p).

(** RBPHDSLAM_2D.hpp:362-368: the displacement of a new segment, and the next position. *)
Record motion := Motion { m_x : Qc; m_y : Qc; m_r : Qc }.
(** Part of the above, RBPHDSLAM_2D.hpp:362-368. *)
Record limits := Limits { l_minx : Qc; l_maxx : Qc; l_maxy : Qc; l_maxr : Qc; l_dt : Qc }.

(** Part of the above, RBPHDSLAM_2D.hpp:362-368. *)
Definition draw_motion (fuel p : nat) (l : limits) : outcome (motion * nat) :=
  let* (dx, p) := draw_above fuel p (l_minx l * l_dt l) (l_maxx l * l_dt l) in
  Val (Motion dx ((rnd p * l_maxy l * (1 + 1) - l_maxy l) * l_dt l)
                 ((rnd (S p) * l_maxr l * (1 + 1) - l_maxr l) * l_dt l), S (S p)).

(** RBPHDSLAM_2D.hpp:348-384: the loop of generateTrajectory over steps k, k+1, ...; [inp] is
    input_k, [prev] the pose of the previous step, [t] the time stamp.  [step] stands for
    motionModel.step (Odometry files).  Returns displacements and poses with their times. *)
Section Walk.
Context {pose : Type}.
Variable step : pose -> motion -> pose.
(** Part of the above, RBPHDSLAM_2D.hpp:348-384. *)
Definition still : motion := Motion 0 0 0.

(** Part of the above, RBPHDSLAM_2D.hpp:348-384. *)
Fixpoint walk (fuel : nat) (l : limits) (kMax nSeg dT : Z) (len : nat) (k seg t : Z) (p : nat) (inp : motion) (prev : pose)
  : outcome (list (Z * motion) * list (Z * pose)) :=
  match len with
  | O => Val ([], [])
  | S len' =>
      let t := (t + dT)%Z in
      let* (seg, p, inp) :=
        if (k <=? 50)%Z then Val (seg, p, still)
        else let* d := due kMax nSeg seg k in
             if (d : bool) then let* (m, p) := draw_motion fuel p l in Val ((seg + 1)%Z, p, m)
             else Val (seg, p, inp) in
      let x := step prev inp in
      let* (us, xs) := walk fuel l kMax nSeg dT len' (k + 1)%Z seg t p inp x in
      Val ((t, inp) :: us, (t, x) :: xs)
  end.

(** RBPHDSLAM_2D.hpp:331-387 with groundtruth_displacement_ and groundtruth_pose_ empty before. *)
Definition trajectory (fuel : nat) (l : limits) (kMax nSeg dT : Z) (x0 : pose)
  : outcome (list (Z * motion) * list (Z * pose)) :=
  let* (us, xs) := walk fuel l kMax nSeg dT (Z.to_nat (kMax - 1)) 1%Z 0%Z 0%Z 0%nat still x0 in
  Val ((0%Z, still) :: us, (0%Z, x0) :: xs).

(** RBPHDSLAM_2D.hpp:411-422 (odometry of generateOdometry) and 266-283 (dead reckoning of an ISAM
    file): the poses obtained by stepping through the odometry from [x0]. *)
Fixpoint reckon (x : pose) (us : list (Z * motion)) : list (Z * pose) :=
  match us with
  | [] => []
  | (t, u) :: us' => let y := step x u in (t, y) :: reckon y us'
  end.
End Walk.

(** src/rbphdslam6dSim.cpp:420-424: three coordinates are drawn in [-max, max) again while the
    norm is between the limits.  The comparison of the norm with a limit is made on squares
    (equivalent for limits >= 0). *)
Definition draw3 (p : nat) (rmax : Qc) : Qc * Qc * Qc :=
  (rnd p * (1 + 1) * rmax - rmax, rnd (S p) * (1 + 1) * rmax - rmax, rnd (S (S p)) * (1 + 1) * rmax - rmax).
(** Part of the above, src/rbphdslam6dSim.cpp:420-424. *)
Definition sqnorm (v : Qc * Qc * Qc) : Qc := let '(x, y, z) := v in x * x + y * y + z * z.

(** Part of the above, src/rbphdslam6dSim.cpp:420-424. *)
Fixpoint alarm6 (fuel p : nat) (rmin rmax : Qc) : outcome ((Qc * Qc * Qc) * nat) :=
  let v := draw3 p rmax in
  let p := (p + 3)%nat in
  if Qcltb (sqnorm v) (rmax * rmax) && Qcltb (rmin * rmin) (sqnorm v)
  then match fuel with O => OutOfFuel | S f => alarm6 f p rmin rmax end
  else Val (v, p).
End Draws.

(** RBPHDSLAM_2D.hpp:538-542: the number of false alarms; [cmf] is the array poissonCmf, read at
    increasing positions while the random number [u] exceeds the entry.  A read past the end of the
    array is undefined. *)
Section Count.
Context {A : Type}.
Variable above : A -> A -> bool.   (* above u c: u > c *)
(** include/RBPHDSLAM_2D.hpp:538-543: the number of false alarms from a uniform number. *)
Fixpoint clutter_count (u : A) (cmf : list A) : outcome nat :=
  match cmf with
  | [] => UB OutOfBounds
  | c :: cmf' => if above u c then omap S (clutter_count u cmf') else Val O
  end.
End Count.

(** RBPHDSLAM_2D.hpp:486-498: the table of the Poisson distribution, [n] more entries after entry
    [i] with mean_pow_i [pw], i_factorial [fc] and poissonCmf[i] [c]; [e] is exp(-mean). *)
Local Open Scope R_scope.
(** Part of the above, RBPHDSLAM_2D.hpp:486-498. *)
Fixpoint cmf_tail (mean e : R) (n : nat) (i : nat) (pw fc c : R) : list R :=
  match n with
  | O => []
  | S n' =>
      let pw := pw * mean in
      let fc := fc * INR (S i) in
      let c := c + pw / fc * e in
      c :: cmf_tail mean e n' (S i) pw fc c
  end.
(** Part of the above, RBPHDSLAM_2D.hpp:486-498. *)
Definition cmf_table (mean : R) : list R :=
  let e := exp (- mean) in e :: cmf_tail mean e 99 0 1 1 e.
(** Part of the above, RBPHDSLAM_2D.hpp:486-498. *)
Definition above_R (u c : R) : bool := if Rlt_dec c u then true else false.
Local Close Scope R_scope.

(** * Measurements *)

(** RBPHDSLAM_2D.hpp:507-536: what happens to landmark [m] at step [k].  [seen k m] is the result
    of measurementModel.sample (the landmark is in range), [kept k m] the test of the noisy range
    and of drand48() <= Pd_. *)
Section Detect.
Local Open Scope Z_scope.
Variables seen kept : Z -> nat -> bool.

(** One step: measurements (time, landmark number) and new first-observation times; include/RBPHDSLAM_2D.hpp:506-537. *)
Definition detect_step (t k : Z) (first : list Z) : list (Z * nat) * list Z :=
  (flat_map (fun m => if seen k m && kept k m then [(t, m)] else []) (seq 0 (length first)),
   map (fun mf => if seen k (fst mf) && (snd mf =? -1) then t else snd mf) (combine (seq 0 (length first)) first)).

(** RBPHDSLAM_2D.hpp:507-567 without the false alarms, [len] steps from step [k] on, time stamp [t]. *)
Fixpoint detect (dT : Z) (len : nat) (k t : Z) (first : list Z) : list (Z * nat) * list Z :=
  match len with
  | O => ([], first)
  | S len' =>
      let t := t + dT in
      let '(zs, first) := detect_step t k first in
      let '(zs', first) := detect dT len' (k + 1) t first in
      (zs ++ zs', first)
  end.

(** RBPHDSLAM_2D.hpp:500-505, 507. *)
Definition detections (kMax dT : Z) (nLm : nat) : list (Z * nat) * list Z :=
  detect dT (Z.to_nat (kMax - 1)) 1 0 (repeat (-1) nLm).
End Detect.

(** RBPHDSLAM_2D.hpp:786-795 (and the loops of src/*Sim.cpp): the measurements of one step.  [zs]
    are measurements_[zIdx], measurements_[zIdx+1], ...; line 787 reads measurements_[zIdx] before
    any test of the size. *)
Section Run.
Context {A : Type}.
Local Open Scope Z_scope.
(** Part of the above, RBPHDSLAM_2D.hpp:786-795. *)
Fixpoint take_at (time : Z) (zs : list (Z * A)) : list A * list (Z * A) :=
  match zs with
  | [] => ([], [])
  | (kz, z) :: zs' => if kz =? time then let '(b, rest) := take_at time zs' in (z :: b, rest) else ([], zs)
  end.

(** RBPHDSLAM_2D.hpp:742-797: one batch for each odometry time. *)
Fixpoint batches (times : list Z) (zs : list (Z * A)) : outcome (list (list A)) :=
  match times with
  | [] => Val []
  | time :: times' =>
      match zs with
      | [] => UB OutOfBounds
      | _ => let '(b, rest) := take_at time zs in omap (cons b) (batches times' rest)
      end
  end.
End Run.

(** RBPHDSLAM_2D.hpp:224-325 (isGroundTruth = false): the lines of an ISAM file that are used.  An
    odometry line from pose i0 to pose i1 gives an input with time i1, a landmark line of pose i a
    measurement with time i.  The covariances and the text format are not modelled. *)
Inductive isam_line (U Z' : Type) :=
| Odometry : Z -> Z -> U -> isam_line U Z'
| Landmark : Z -> Z' -> isam_line U Z'.
Arguments Odometry {U Z'} _ _ _.
Arguments Landmark {U Z'} _ _.

(** Part of the above, RBPHDSLAM_2D.hpp:224-325. *)
Fixpoint isam_odometry {U Z' : Type} (ls : list (isam_line U Z')) : list (Z * U) :=
  match ls with
  | [] => []
  | Odometry _ i1 u :: ls' => (i1, u) :: isam_odometry ls'
  | Landmark _ _ :: ls' => isam_odometry ls'
  end.
(** Part of the above, RBPHDSLAM_2D.hpp:224-325. *)
Fixpoint isam_measurements {U Z' : Type} (ls : list (isam_line U Z')) : list (Z * Z') :=
  match ls with
  | [] => []
  | Odometry _ _ _ :: ls' => isam_measurements ls'
  | Landmark i z :: ls' => (i, z) :: isam_measurements ls'
  end.
(** RBPHDSLAM_2D.hpp:742-797 after reading an ISAM file: kMax_ steps over odometry_. *)
Definition isam_batches {U Z' : Type} (ls : list (isam_line U Z')) : outcome (list (list Z')) :=
  batches (map fst (isam_odometry ls)) (isam_measurements ls).

(** RBPHDSLAM_2D.hpp:445-458 with the range-bearing sensor: the landmark made at pose [p] from the
    draws r in [0, rangeLimitMax_) and [u] in [0, 1).  The noise covariance [Rn] only reaches the
    covariance of the landmark, which is dropped. *)
Definition new_landmark_rb (p : pose2) (r u : R) (Rn : mx) : R * R := fst (inverse_rb p (r, u * 2 * PI)%R Rn).
(** The same lines with the Cartesian sensor: the pair (r, b) is used as (x, y); include/RBPHDSLAM_2D.hpp:448-458. *)
Definition new_landmark_xy (p : pose2) (r u : R) (Rn : mx) : R * R := fst (inverse_xy p (r, u * 2 * PI)%R Rn).

(** RBPHDSLAM_2D.hpp:549-556: a false alarm from the drawn range [r] and the draw [u]. *)
Definition alarm2 (r u : R) : R * R := (r, u * 2 * PI - PI)%R.

(** RBPHDSLAM_2D.hpp:614-616: the two numbers written for a measurement (z0, z1). *)
Definition exported (z : R * R) : R * R :=
  (sqrt (fst z * fst z + snd z * snd z), atan2 (snd z) (fst z)).

(** * Logging and analysis *)

(** RBPHDSLAM_2D.hpp:801-813: i_w_max over the particle weights. *)
Fixpoint best_from (i best : nat) (wmax : Qc) (ws : list Qc) : nat :=
  match ws with
  | [] => best
  | w :: ws' => if Qcltb wmax w then best_from (S i) i w ws' else best_from (S i) best wmax ws'
  end.
(** Part of the above, RBPHDSLAM_2D.hpp:801-813. *)
Definition best_particle (ws : list Qc) : nat := best_from 0 0 0 ws.

(** A row of particlePose.dat and of landmarkEst.dat (weights and payload as read);
    include/RBPHDSLAM_2D.hpp:823 and 838-841. *)
Record prow := PRow { pr_t : Qc; pr_id : Z; pr_w : Qc }.
(** Part of the above, include/RBPHDSLAM_2D.hpp:823 and 838-841. *)
Record lrow := LRow { lr_t : Qc; lr_pid : Z; lr_w : Qc }.

(** RBPHDSLAM_2D.hpp:812, 830 ("%f"): a number as it is read back from a log file, to six decimals
    (halves rounded up). *)
Definition print6 (x : Qc) : Qc := Q2Qc (Qfloor (this x * (1000000 # 1) + (1 # 2)) # 1000000).

(** RBPHDSLAM_2D.hpp:801-832: the rows written for a step at time [t] with particle weights [ws] and
    map weights [gm i] of particle i. *)
Fixpoint pose_rows_from (i : nat) (t : Qc) (ws : list Qc) : list prow :=
  match ws with
  | [] => []
  | w :: ws' => PRow t (Z.of_nat i) (print6 w) :: pose_rows_from (S i) t ws'
  end.
(** Part of the above, RBPHDSLAM_2D.hpp:801-832. *)
Definition pose_rows (t : Qc) (ws : list Qc) : list prow := pose_rows_from 0 t ws.
(** Part of the above, RBPHDSLAM_2D.hpp:801-832. *)
Definition map_rows (t : Qc) (ws : list Qc) (gm : nat -> list Qc) : list lrow :=
  map (fun w => LRow t (Z.of_nat (best_particle ws)) (print6 w)) (gm (best_particle ws)).

(** A logged step: time, particle weights, weights of the map of each particle; include/RBPHDSLAM_2D.hpp:801-841. *)
Record logged := Logged { g_t : Qc; g_ws : list Qc; g_map : nat -> list Qc }.
(** RBPHDSLAM_2D.hpp:735-740: the rows written before the first step, weight 1 at time 0; then
    lines 799-835 for each step. *)
Definition log_poses (n : nat) (log : list logged) : list prow :=
  pose_rows 0 (repeat 1 n) ++ flat_map (fun g => pose_rows (g_t g) (g_ws g)) log.
(** Part of the above, RBPHDSLAM_2D.hpp:735-740, RBPHDSLAM_2D.hpp:799-835. *)
Definition log_map (log : list logged) : list lrow :=
  flat_map (fun g => map_rows (g_t g) (g_ws g) (g_map g)) log.

(** analysis2dSim.cpp:161, 186: fabs(p_t_ - t_currentStep_) < 1e-12; [tol] is 1e-12. *)
Definition near (tol t t' : Qc) : bool := Qcltb (t' - t) tol && Qcltb (t - t') tol.

(** analysis2dSim.cpp:161-180: [cur] is the row held in p_t_, p_id_, ..., [rows] the rest of the
    file.  State: i_hi_ ([None]: not initialised), w_hi, w_sum_, the particles read so far.  At the
    end of the file the variables keep the last row. *)
Record pstate := PState { hi : option Z; whi : Qc; wsum : Qc; parts : list prow }.
(** Part of the above, analysis2dSim.cpp:161-180. *)
Definition take_particle (r : prow) (s : pstate) : outcome pstate :=
  let s' := if Qcltb (whi s) (pr_w r)
            then PState (Some (pr_id r)) (pr_w r) (wsum s + pr_w r) (parts s ++ [r])
            else PState (hi s) (whi s) (wsum s + pr_w r) (parts s ++ [r]) in
  guard ((0 <=? pr_id r)%Z && (pr_id r <? Z.of_nat (length (parts s')))%Z) OutOfBounds (Val s').

(** Part of the above, analysis2dSim.cpp:161-180. *)
Fixpoint read_particles (tol t : Qc) (cur : prow) (rows : list prow) (s : pstate)
  : outcome (pstate * prow * list prow) :=
  if near tol (pr_t cur) t then
    let* s := take_particle cur s in
    match rows with
    | [] => Val (s, cur, [])
    | r :: rows' => read_particles tol t r rows' s
    end
  else Val (s, cur, rows).

(** analysis2dSim.cpp:186-201: the rows of landmarkEst.dat of the step; [i_hi] is i_hi_.  Returns
    the landmarks with weight at least 0.75, the sum of all weights, the held row and the rest. *)
Definition three_quarters : Qc := Q2Qc (3 # 4).
(** Part of the above, analysis2dSim.cpp:186-201. *)
Fixpoint read_map (tol t : Qc) (i_hi : option Z) (cur : lrow) (rows : list lrow) (m : list lrow) (card : Qc)
  : outcome (list lrow * Qc * lrow * list lrow) :=
  if near tol (lr_t cur) t then
    let* i := of_option Uninit i_hi in
    let '(m, card) := if (lr_pid cur =? i)%Z
                      then ((if Qcleb three_quarters (lr_w cur) then m ++ [cur] else m), card + lr_w cur)
                      else (m, card) in
    match rows with
    | [] => Val (m, card, cur, [])
    | r :: rows' => read_map tol t i_hi r rows' m card
    end
  else Val (m, card, cur, rows).

(** analysis2dSim.cpp:149-206: one step of readNextStepData at ground-truth time [t].  The state is
    i_hi_ and the held rows with the rest of the files. *)
Record reader := Reader { r_hi : option Z; r_p : prow; r_ps : list prow; r_l : lrow; r_ls : list lrow }.
(** Part of the above, analysis2dSim.cpp:149-206. *)
Record step_data := StepData { s_parts : list prow; s_hi : option Z; s_wsum : Qc; s_map : list lrow; s_card : Qc }.
(** Part of the above, analysis2dSim.cpp:149-206. *)
Definition read_step (tol t : Qc) (rd : reader) : outcome (step_data * reader) :=
  let* (s, p, ps) := read_particles tol t (r_p rd) (r_ps rd) (PState (r_hi rd) 0 0 []) in
  let* (m, card, l, ls) := read_map tol t (hi s) (r_l rd) (r_ls rd) [] 0 in
  Val (StepData (parts s) (hi s) (wsum s) m card, Reader (hi s) p ps l ls).

(** analysis2dSim.cpp:112-121: opening the files reads the first row of each; with an empty file the
    variables stay uninitialised. *)
Definition open_reader (ps : list prow) (ls : list lrow) : outcome reader :=
  match ps, ls with
  | p :: ps', l :: ls' => Val (Reader None p ps' l ls')
  | _, _ => UB Uninit
  end.

(** analysis2dSim.cpp:401-425: all steps. *)
Fixpoint read_steps (tol : Qc) (times : list Qc) (rd : reader) : outcome (list step_data) :=
  match times with
  | [] => Val []
  | t :: times' => let* (d, rd) := read_step tol t rd in omap (cons d) (read_steps tol times' rd)
  end.

(** analysis2dSim.cpp:212-225, 236-242: the ground-truth landmarks counted as observed at time [t];
    [first] are the first-observation times of gtLandmark.dat. *)
Definition observable (t : Z) (first : list Z) : nat := length (filter (fun f => (f <=? t)%Z) first).

(** analysis2dSim.cpp:256-260, 293-297: the heading error. *)
Local Open Scope R_scope.
(** Part of the above, analysis2dSim.cpp:256-260, 293-297. *)
Definition heading_error (est gt : R) : R :=
  let e := est - gt in
  if Rlt_dec PI e then e - 2 * PI else if Rlt_dec e (- PI) then e + 2 * PI else e.

(** analysis2dSim.cpp:266-318, one component [err] of the pose error over the particles
    (weight, pose); [w] is w_sum_.  Average error: weighted sum over all particles divided by the sum
    of weights ([None] when that is 0, NaN in C++). *)
Definition average_error {P : Type} (err : P -> R) (w : R) (ps : list (R * P)) : option R :=
  if Req_EM_T w 0 then None
  else Some (fold_left (fun s p => s + err (snd p) * fst p) ps 0 / w).
(** analysis2dSim.cpp:281-306 with getAverageError = false: the error of position [i_hi] of the
    particle list, 0 when the list is shorter. *)
Definition best_error {P : Type} (err : P -> R) (i_hi : nat) (ps : list (R * P)) : R :=
  match nth_error ps i_hi with Some p => 0 + err (snd p) * 1 | None => 0 end.
