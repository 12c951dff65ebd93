(** Model of the drivers of the batch optimisers: src/rfsceresslam1dSim.cpp, src/rfsceresslam2dSim.cpp,
    src/rfspsoslam1dSim.cpp, src/rfspsoslam2dSim.cpp, src/rfspsoorbslam1dSim.cpp, of optimizeParticles
    and the trajectory part of moveParticles (include/RFSPSOSLAM.hpp), and of the process noise set up
    in src/rbphdslam6dSim.cpp.

    Simplifications.  Values are real numbers (no rounding), times whole nanoseconds; random draws are
    arbitrary values, one for each place.  Progress output, file names and the configuration
    file are left out.  The Ceres solver is outside the model: what is modelled is the problem it is
    given and what is done with its answer. *)
From Coq Require Import Reals ZArith List Bool Arith String Ascii.
From Verif Require Import Base ListUtil Loop SensorModel OdometryModel.
Import ListNotations.
Local Open Scope R_scope.

(** a[i] for a vector or an array; as in src/rfsceresslam2dSim.cpp:761-769. *)
Definition rd {A : Type} (a : list A) (i : nat) : outcome A := of_option OutOfBounds (nth_error a i).

(** ** The least squares problem of the plane *)

(** NormalizeAngle, src/rfsceresslam2dSim.cpp:57-63; Int_part is the floor. *)
Definition normalize_angle (a : R) : R := a - 2 * PI * IZR (Int_part ((a + PI) / (2 * PI))).

(** RotationMatrix2D, src/rfsceresslam2dSim.cpp:65-73. *)
Definition rotation (a : R) : mx := mx_of [[cos a; - sin a]; [sin a; cos a]].

(** PoseGraph2dErrorTerm, src/rfsceresslam2dSim.cpp:83-100; the matrix of line 746 is diagonal, with
    the inverse standard deviations. *)
Definition pose_residual (vx vy vt : R) (u : odo2) (a b : pose2) : R * R * R :=
  let d := mapp 2 (tr (rotation (p_t a))) (vec_of [p_x b - p_x a; p_y b - p_y a]) in
  (1 / sqrt vx * (d 0%nat - o_x u), 1 / sqrt vy * (d 1%nat - o_y u),
   1 / sqrt vt * normalize_angle ((p_t b - p_t a) - o_t u)).

(** Observation2dErrorTerm, src/rfsceresslam2dSim.cpp:131-146, with the matrix of line 759. *)
Definition obs_residual (vr vb : R) (z : R * R) (a : pose2) (l : R * R) : R * R :=
  (1 / sqrt vr * (sqrt ((p_x a - fst l) * (p_x a - fst l) + (p_y a - snd l) * (p_y a - snd l)) - fst z),
   1 / sqrt vb * normalize_angle (atan2 (snd l - p_y a) (fst l - p_x a) - p_t a - snd z)).

(** The blocks params + i * PoseDim and params + off, src/rfsceresslam2dSim.cpp:756 and 768. *)
Definition pose_at (a : list R) (i : nat) : outcome pose2 :=
  let* x := rd a i in let* y := rd a (i + 1) in let* t := rd a (i + 2) in Val (P2 x y t).
(** Part of the above, src/rfsceresslam2dSim.cpp:756 and 768. *)
Definition lmk_at (a : list R) (i : nat) : outcome (R * R) :=
  let* x := rd a i in let* y := rd a (i + 1) in Val (x, y).

(** Half the squared residual is what Ceres adds per residual block, src/rfsceresslam2dSim.cpp:752-769. *)
Definition sq3 (r : R * R * R) : R := let '(x, y, z) := r in x * x + y * y + z * z.
(** The same with two components, src/rfsceresslam2dSim.cpp:761-769. *)
Definition sq2 (r : R * R) : R := fst r * fst r + snd r * snd r.

(** Residual blocks of the odometry, src/rfsceresslam2dSim.cpp:747-757: sum of the squared residuals. *)
Fixpoint odo_cost (vx vy vt : R) (a : list R) (i : nat) (odo : list odo2) : outcome R :=
  match odo with
  | [] => Val 0
  | u :: r =>
    let* p := pose_at a (i * 3) in
    let* q := pose_at a ((i + 1) * 3) in
    let* c := odo_cost vx vy vt a (S i) r in
    Val (sq3 (pose_residual vx vy vt u p q) + c)
  end.
(** Those of one scan, src/rfsceresslam2dSim.cpp:761-769: measurements with their associations; nT is
    trajectory_.size(). *)
Fixpoint scan_cost (vr vb : R) (nT : nat) (a : list R) (k : nat) (scan : list ((R * R) * Z)) : outcome R :=
  match scan with
  | [] => Val 0
  | (z, da) :: r =>
    let* c := scan_cost vr vb nT a k r in
    if (da <? 0)%Z then Val c else
    let* p := pose_at a (k * 3) in
    let* l := lmk_at a (nT * 3 + Z.to_nat da * 2) in
    Val (sq2 (obs_residual vr vb z p l) + c)
  end.
(** Part of the above, src/rfsceresslam2dSim.cpp:761-769. *)
Fixpoint scans_cost (vr vb : R) (nT : nat) (a : list R) (k : nat) (scans : list (list ((R * R) * Z))) : outcome R :=
  match scans with
  | [] => Val 0
  | s :: r =>
    let* c := scan_cost vr vb nT a k s in
    let* c' := scans_cost vr vb nT a (S k) r in
    Val (c + c')
  end.
(** The objective of the solver, half the sum of squares, for the parameters params,
    src/rfsceresslam2dSim.cpp:735-770. *)
Definition cost_2d (vx vy vt vr vb : R) (a : list R) (odo : list odo2) (scans : list (list ((R * R) * Z))) : outcome R :=
  let* c := odo_cost vx vy vt a 0 odo in
  let* c' := scans_cost vr vb (S (List.length odo)) a 0 scans in
  Val (1 / 2 * (c + c')).

(** ** The least squares problem of the line *)

(** ObsevationError1d, src/rfsceresslam1dSim.cpp:61-67. *)
Definition residual_1d (obs sd pose landmark : R) : R := (landmark - pose - obs) / sd.

(** src/rfsceresslam1dSim.cpp:633-642. *)
Fixpoint odo_cost_1d (vardx : R) (a : list R) (i : nat) (odo : list R) : outcome R :=
  match odo with
  | [] => Val 0
  | u :: r =>
    let* p := rd a i in
    let* q := rd a (i + 1) in
    let* c := odo_cost_1d vardx a (S i) r in
    Val (residual_1d u (sqrt vardx) p q * residual_1d u (sqrt vardx) p q + c)
  end.
(** src/rfsceresslam1dSim.cpp:643-653. *)
Fixpoint scan_cost_1d (varz : R) (nT : nat) (a : list R) (k : nat) (scan : list (R * Z)) : outcome R :=
  match scan with
  | [] => Val 0
  | (z, da) :: r =>
    let* c := scan_cost_1d varz nT a k r in
    if (da <? 0)%Z then Val c else
    let* p := rd a k in
    let* l := rd a (nT + Z.to_nat da) in
    Val (residual_1d z (sqrt varz) p l * residual_1d z (sqrt varz) p l + c)
  end.
(** Part of the above, src/rfsceresslam1dSim.cpp:643-653. *)
Fixpoint scans_cost_1d (varz : R) (nT : nat) (a : list R) (k : nat) (scans : list (list (R * Z))) : outcome R :=
  match scans with
  | [] => Val 0
  | s :: r =>
    let* c := scan_cost_1d varz nT a k s in
    let* c' := scans_cost_1d varz nT a (S k) r in
    Val (c + c')
  end.
(** The objective, src/rfsceresslam1dSim.cpp:626-653. *)
Definition cost_1d (vardx varz : R) (a odo : list R) (scans : list (list (R * Z))) : outcome R :=
  let* c := odo_cost_1d vardx a 0 odo in
  let* c' := scans_cost_1d varz (S (List.length odo)) a 0 scans in
  Val (1 / 2 * (c + c')).

(** The noise given to the optimiser, src/rfsceresslam1dSim.cpp:528-532 and 460-463. *)
Definition set_noise_1d (vardx varz p_infl z_infl dt : R) : R * R := (vardx * (p_infl * dt * dt), varz * z_infl).

(** ** Parameter arrays *)
Section Arrays.
Context {A : Type}.
Variables P D : nat.   (* PoseDim, LandmarkDim *)

(** The array for a trajectory (without its first pose) and a map, src/rfsceresslam1dSim.cpp:539-547,
    src/rfsceresslam2dSim.cpp:646-658; init gives the same layout (C100_init). *)
Definition param_array (traj lms : list (list A)) : list A := (List.concat (tl traj) ++ List.concat lms)%list.
(** NumParameters, include/RFSCeresSLAM.hpp:431-436. *)
Definition num_params (nT nL : nat) : nat := (nT - 1) * P + nL * D.
(** Evaluate reads this many elements (include/RFSCeresSLAM.hpp:460-495), and so do the loops that
    print or copy the array. *)
Definition read_all (a : list A) (n : nat) : outcome (list A) :=
  if (n <=? List.length a)%nat then Val (firstn n a) else UB OutOfBounds.

(** run, src/rfsceresslam1dSim.cpp:536-632: the arrays as read, after Evaluate with gtparams, init,
    landmarks_.resize( groundtruth_landmark_.size() ) of line 562, and the loops up to line 632. *)
Definition run_arrays_1d (gt_traj gt_lms traj lms : list (list A)) : outcome (list A * list A) :=
  let gtparams := param_array gt_traj gt_lms in
  let* _ := read_all gtparams (num_params (List.length gt_traj) (List.length gt_lms)) in
  let initParams := param_array traj lms in
  let nL := List.length gt_lms in
  let* i := read_all initParams (num_params (List.length traj) nL) in
  let* g := read_all gtparams (num_params (List.length traj) nL) in
  Val (i, g).
(** run, src/rfsceresslam2dSim.cpp:642-694: the resize (line 673) is commented out. *)
Definition run_arrays_2d (gt_traj gt_lms traj lms : list (list A)) : outcome (list A * list A) :=
  let gtparams := param_array gt_traj gt_lms in
  let* _ := read_all gtparams (num_params (List.length gt_traj) (List.length gt_lms)) in
  let initParams := param_array traj lms in
  let nL := List.length lms in
  let* i := read_all initParams (num_params (List.length traj) nL) in
  let* g := read_all gtparams (num_params (List.length traj) nL) in
  Val (i, g).
End Arrays.

(** ** Odometry and dead reckoning *)
Section Reckoning.
Context {X U : Type}.
Variable step : X -> U -> X.   (* motionModel.step *)

(** Body of the loop, src/rfsceresslam1dSim.cpp:234-246 and src/rfspsoslam1dSim.cpp:213-225 (index
    k - 1), src/rfsceresslam2dSim.cpp:334-343 and src/rfspsoslam2dSim.cpp:224-236 (index k):
    odometry_ and deadReckoning_pose_ after step k, with the sampled displacement out. *)
Definition reckon_body (index : nat -> nat) (k : nat) (out : U) (s : list U * list X) : outcome (list U * list X) :=
  let odometry := fst s ++ [out] in
  let* x := rd (snd s) (k - 1) in
  let* u := rd odometry (index k) in
  Val (odometry, snd s ++ [step x u]).
(** Part of the above, src/rfsceresslam1dSim.cpp:234-246, src/rfspsoslam1dSim.cpp:213-225, src/rfsceresslam2dSim.cpp:334-343, src/rfspsoslam2dSim.cpp:224-236. *)
Fixpoint reckon_loop (index : nat -> nat) (k : nat) (outs : list U) (s : list U * list X) : outcome (list U * list X) :=
  match outs with
  | [] => Val s
  | o :: r => let* s' := reckon_body index k o s in reckon_loop index (S k) r s'
  end.
(** generateOdometry of the line, src/rfsceresslam1dSim.cpp:212-249, src/rfspsoslam1dSim.cpp:192-228,
    src/rfspsoorbslam1dSim.cpp:195-231. *)
Definition odometry_line (x0 : X) (outs : list U) := reckon_loop (fun k => (k - 1)%nat) 1 outs ([], [x0]).
(** generateOdometry of the plane, src/rfsceresslam2dSim.cpp:308-347, src/rfspsoslam2dSim.cpp:198-240:
    the push_back of a first element is commented out. *)
Definition odometry_plane (x0 : X) (outs : list U) := reckon_loop (fun k => k) 1 outs ([], [x0]).
End Reckoning.

(** ** Files *)
Local Open Scope string_scope.
(** Conversions of a format string without "%%"; the formats of src/rfsceresslam1dSim.cpp:395-439. *)
Fixpoint conversions (f : string) : nat :=
  match f with
  | EmptyString => 0
  | String c r => (if Ascii.eqb c "%" then 1 else 0) + conversions r
  end%nat.
(** fprintf: every conversion takes an argument; fewer arguments than conversions is undefined
    (an argument that was never passed is read), more are ignored; src/rfsceresslam1dSim.cpp:395-439. *)
Definition fprintf {A : Type} (f : string) (args : list A) : outcome (list A) :=
  if (conversions f <=? List.length args)%nat then Val (firstn (conversions f) args) else UB Uninit.
(** Part of the above, src/rfsceresslam1dSim.cpp:395-439. *)
Fixpoint print_rows {A : Type} (f : string) (rows : list (list A)) : outcome (list (list A)) :=
  match rows with
  | [] => Val []
  | r :: rest => let* x := fprintf f r in let* y := print_rows f rest in Val (x :: y)
  end.

(** The data of a simulation on the line: poses, displacements, measurements and dead reckoning with
    their times, landmarks with the time of the first detection; src/rfsceresslam1dSim.cpp:736-755. *)
Record simdata := SimData { d_pose : list (R * R); d_lmk : list (R * R); d_odo : list (R * R); d_meas : list (R * R); d_dr : list (R * R) }.
(** Part of the above, src/rfsceresslam1dSim.cpp:736-755. *)
Definition two (x : R * R) : list R := [fst x; snd x].
(** exportSimData, src/rfsceresslam1dSim.cpp:386-441, src/rfspsoslam1dSim.cpp:363-418; the files in
    the order of writing. *)
Definition export_1d (d : simdata) : outcome (list (list (list R))) :=
  let* p := print_rows "%f   %f" (map two (d_pose d)) in
  let* l := print_rows "%f   %f   %f" (map two (d_lmk d)) in
  let* o := print_rows "%f   %f" (map two (d_odo d)) in
  let* m := print_rows "%f   %f" (map two (d_meas d)) in
  let* r := print_rows "%f   %f" (map two (d_dr d)) in
  Val [p; l; o; m; r].
(** The same in src/rfspsoorbslam1dSim.cpp:369-428, without the descriptors. *)
Definition export_orb (d : simdata) : outcome (list (list (list R))) :=
  let* p := print_rows "%f   %f" (map two (d_pose d)) in
  let* l := print_rows "%f   %f   " (map two (d_lmk d)) in
  let* o := print_rows "%f   %f" (map two (d_odo d)) in
  let* m := print_rows "%f   %f   " (map two (d_meas d)) in
  let* r := print_rows "%f   %f" (map two (d_dr d)) in
  Val [p; l; o; m; r].
Local Close Scope string_scope.

(** ** Landmarks of the line *)
Local Open Scope Z_scope.
(** The test of src/rfsceresslam1dSim.cpp:263 and src/rfspsoslam1dSim.cpp:241 in exact arithmetic:
    kMax / n * c as a quotient; for n = 0 the value is inf * 0, a NaN, at the first comparison, which
    then is false, and c stays 0. *)
Definition due_line (kMax n c k : Z) : outcome bool :=
  Val (if n =? 0 then false else kMax * c <=? k * n).
(** The test of src/rfspsoorbslam1dSim.cpp:244, integer division. *)
Definition due_orb (kMax n c k : Z) : outcome bool :=
  if n =? 0 then UB DivByZero else Val (Z.quot (kMax * c) n <=? k).
(** The loop, src/rfsceresslam1dSim.cpp:260-281, src/rfspsoorbslam1dSim.cpp:241-264: the steps in which
    a landmark is made. *)
Fixpoint make_steps (due : Z -> Z -> outcome bool) (len : nat) (k c : Z) : outcome (list Z) :=
  match len with
  | O => Val []
  | S l =>
    let* b := due c k in
    let* r := make_steps due l (k + 1) (if b then c + 1 else c) in
    Val (if b then k :: r else r)
  end.
(** The whole function; groundtruth_landmark_.reserve( n ) throws for a negative n
    (src/rfsceresslam1dSim.cpp:258, src/rfspsoorbslam1dSim.cpp:239). *)
Definition landmarks_line (kMax n : Z) : outcome (list Z) :=
  if n <? 0 then UB Aborted else make_steps (due_line kMax n) (Z.to_nat kMax) 0 0.
(** Part of the above, src/rfsceresslam1dSim.cpp:258, src/rfspsoorbslam1dSim.cpp:239. *)
Definition landmarks_orb (kMax n : Z) : outcome (list Z) :=
  if n <? 0 then UB Aborted else make_steps (due_orb kMax n) (Z.to_nat kMax) 0 0.
Local Close Scope Z_scope.

(** ** Measurements of the line *)
Section Measurements.
Variable c : scfg.
Variables poses lms : list R.            (* groundtruth_pose_, groundtruth_landmark_ *)
Variable noise : nat -> nat -> R.        (* noise of the sample of landmark m in step k *)
Variable u : nat -> nat -> R.            (* drand48() of line 331 *)
Variable alarms : nat -> list R.         (* ranges of the false alarms of step k, lines 347-356 *)
Variable tag : Z.                        (* association of a false alarm: -2, in the PSO driver -1 *)
Variable dT : Z.

(** The sample of landmark m in step k if it is kept, src/rfsceresslam1dSim.cpp:326-331.  sample adds
    the noise to the expected measurement (include/MeasurementModel.hpp:150-157) and returns what
    measure returns; the covariances do not matter for the value. *)
Definition seen (k m : nat) : outcome (option R) :=
  let* x := rd poses k in
  let* l := rd lms m in
  let e := measure_1d c x zero_mx l zero_mx zero_mx in
  let z := x_mean e + noise k m in
  Val (if x_ok e && (leb (Rabs z) (s_max c) && leb (s_min c) (Rabs z) && leb (u k m) (s_pd c)) then Some z else None).

(** measurements_, groundtruthDataAssociation_, lmkFirstObsTime_ (-1: never); src/rfsceresslam1dSim.cpp:745-755. *)
Record gen := Gen { g_z : list (Z * R); g_da : list Z; g_first : list Z }.

(** Body of the loop over the landmarks, src/rfsceresslam1dSim.cpp:324-344. *)
Definition detect_body (t : Z) (k m : nat) (s : gen) : outcome gen :=
  let* o := seen k m in
  match o with
  | None => Val s
  | Some z =>
    let* f := rd (g_first s) m in
    Val (Gen (g_z s ++ [(t, z)]) (g_da s ++ [Z.of_nat m]) (if (f =? -1)%Z then upd (g_first s) m t else g_first s))
  end.
(** Body of the loop over the time steps, src/rfsceresslam1dSim.cpp:319-366: t is the variable t. *)
Definition scan_body (k : nat) (s : gen * Z) : outcome (gen * Z) :=
  let t := snd s in
  let* _ := rd poses k in
  let* g := for_ (List.length lms) (detect_body t k) (fst s) in
  Val (Gen (g_z g ++ map (fun r => (t, r)) (alarms k)) (g_da g ++ map (fun _ => tag) (alarms k)) (g_first g), (t + dT)%Z).
(** generateMeasurements, src/rfsceresslam1dSim.cpp:312-368, src/rfspsoslam1dSim.cpp:289-346. *)
Definition generate (kMax : nat) : outcome gen :=
  let* s := for_ kMax scan_body (Gen [] [] (map (fun _ => (-1)%Z) lms), 0%Z) in Val (fst s).
End Measurements.

(** ** The optimisation loop of the swarm *)
(** What the driver does, in order; src/rfspsoorbslam1dSim.cpp:560-620. *)
Inductive act := Optimise (i : Z) | Evaluate (i : Z) | Move (i : Z) | Log (i : Z).
(** "optimizeEveryIterations_ > 0 && iteration % optimizeEveryIterations_ == 0",
    src/rfspsoslam1dSim.cpp:549. *)
Definition opt_due (every i : Z) : bool := ((0 <? every) && (Z.rem i every =? 0))%Z.
(** Body, src/rfspsoslam1dSim.cpp:549-608, src/rfspsoslam2dSim.cpp:568-627. *)
Definition body_1d (every i : Z) : list act :=
  (if opt_due every i then [Optimise i] else []) ++ [Evaluate i; Move i; Log i].
(** Body, src/rfspsoorbslam1dSim.cpp:560-620. *)
Definition body_orb (every i : Z) : list act :=
  [Evaluate i] ++ (if opt_due every i then [Optimise i; Evaluate i] else []) ++ [Move i; Log i].
(** Part of the above, src/rfspsoorbslam1dSim.cpp:560-620. *)
Fixpoint act_loop (go : Z -> bool) (body : Z -> list act) (fuel : nat) (i : Z) : outcome (list act) :=
  match fuel with
  | O => OutOfFuel
  | S f => if go i then let* r := act_loop go body f (i + 1)%Z in Val (body i ++ r) else Val []
  end.
(** run, src/rfspsoslam1dSim.cpp:513-610 ("iteration < maxiter_"). *)
Definition run_pso (maxiter every : Z) (fuel : nat) : outcome (list act) :=
  let* r := act_loop (fun i => (i <? maxiter)%Z) (body_1d every) fuel 1 in Val (Log 0 :: r).
(** run, src/rfspsoorbslam1dSim.cpp:523-622 ("iteration <= maxiter_"). *)
Definition run_orb (maxiter every : Z) (fuel : nat) : outcome (list act) :=
  let* r := act_loop (fun i => (i <=? maxiter)%Z) (body_orb every) fuel 1 in Val (Evaluate 0 :: Log 0 :: r).

(** One particle under these acts: solution (trajectory and landmarks) and currentLikelihood (None:
    minus infinity, include/RFSPSOParticle.hpp:62), and the rows written: iteration, likelihood,
    solution (src/rfspsoslam1dSim.cpp:582-605). *)
Section Particle.
Context {T L : Type}.
Variable lik : T -> L.              (* rfsMeasurementLikelihood( i ) *)
Variables opt move : Z -> T -> T.   (* optimizeParticles, moveParticles in iteration i *)
(** Solution, likelihood and rows of the log, src/rfspsoorbslam1dSim.cpp:526-620. *)
Record pstate := PState { ps_sol : T; ps_lik : option L; ps_rows : list (Z * option L * T) }.
(** Part of the above, src/rfspsoorbslam1dSim.cpp:526-620. *)
Definition perform (s : pstate) (a : act) : pstate :=
  match a with
  | Optimise i => PState (opt i (ps_sol s)) (ps_lik s) (ps_rows s)
  | Evaluate _ => PState (ps_sol s) (Some (lik (ps_sol s))) (ps_rows s)
  | Move i => PState (move i (ps_sol s)) (ps_lik s) (ps_rows s)
  | Log i => PState (ps_sol s) (ps_lik s) (ps_rows s ++ [(i, ps_lik s, ps_sol s)])
  end.
(** Part of the above, src/rfspsoorbslam1dSim.cpp:526-620. *)
Definition rows_of (l : list act) (t0 : T) : list (Z * option L * T) := ps_rows (fold_left perform l (PState t0 None [])).
End Particle.

(** ** optimizeParticles *)
(** The answer of the solver is written back, include/RFSPSOSLAM.hpp:482-488: new poses behind the
    first one, and as inputs[ k-1 ] their differences.  The array is walked front to back, which is
    the index (k-1)*PoseDim + d; prev is trajectory[ k-1 ]. *)
Fixpoint write_back (P : nat) (a : list R) (prev : list R) (n : nat) : outcome (list (list R) * list (list R)) :=
  match n with
  | O => Val ([], [])
  | S m =>
    if (P <=? List.length a)%nat then
      let p := firstn P a in
      let* r := write_back P (skipn P a) p m in
      Val (p :: fst r, map (fun q => fst q - snd q) (combine p prev) :: snd r)
    else UB OutOfBounds
  end.

(** ** Moving a trajectory *)
(** One component of one pose, include/RFSPSOSLAM.hpp:405-421: velocity and position after the move;
    the factors r1, r2 stand for (rand_num*10+drand48())/11.0 with the weights phi_p, phi_g; there is
    no neighbour term if the particle is its own best neighbour. *)
Definition move_comp (w r1 r2 : R) (x v b : R) (g : option R) : R * R :=
  let v1 := w * v + r1 * (b - x) in
  let v2 := match g with Some y => v1 + r2 * (y - x) | None => v1 end in
  (x + v2, v2).
(** A trajectory with velocities: lists of components of all poses.  The recorded best trajectory of
    the particle and of the neighbour have the same size (include/RFSPSOSLAM.hpp:404-421). *)
Fixpoint move_traj (w : R) (r : nat -> R * R) (i : nat) (t : list (R * R)) (b : list (R * R)) (g : option (list (R * R))) : list (R * R) :=
  match t, b with
  | (x, v) :: t', (bx, _) :: b' =>
    move_comp w (fst (r i)) (snd (r i)) x v bx (match g with Some ((y, _) :: _) => Some y | _ => None end)
    :: move_traj w r (S i) t' b' (match g with Some l => Some (tl l) | None => None end)
  | _, _ => []
  end.

(** ** Process noise in space *)
(** Configured variances: position, then the quaternion components, src/rbphdslam6dSim.cpp:116-122. *)
Record var7 := Var7 { n_x : R; n_y : R; n_z : R; n_qx : R; n_qy : R; n_qz : R; n_qw : R }.
(** Diagonal of the covariance of the simulated odometry, src/rbphdslam6dSim.cpp:275-297; the order of
    the components of a displacement is x, y, z, qx, qy, qz, qw (line 226). *)
Definition sim_noise (v : var7) (dt : R) : list R :=
  map (fun q => q * dt * dt) [n_x v; n_y v; n_z v; n_qw v; n_qx v; n_qy v; n_qz v].
(** That of the filter, src/rbphdslam6dSim.cpp:529-539. *)
Definition filter_noise (v : var7) (infl dt : R) : list R :=
  map (fun q => q * (infl * dt * dt)) [n_x v; n_y v; n_z v; n_qx v; n_qy v; n_qz v; n_qw v].
