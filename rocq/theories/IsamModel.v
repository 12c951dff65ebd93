(** Model of the part of include/RBLMBSLAM_2D.hpp and include/RBPHDSLAM_2D.hpp that reads ISAM data
    sets (readISAMFile, readISAMGroundTruth, parseISAMLine), of the drivers
    src/rblmbslamCityTrees10000.cpp and src/rbphdslamCityTrees10000.cpp, of the noise of simulated
    measurements, and of the holding of particles at the true pose in run().  Line numbers of
    RBLMBSLAM_2D.hpp; RBPHDSLAM_2D.hpp has the same text three lines further down.

    Simplifications.  Doubles are rationals.  A line is given by what sscanf reads from it.  Poses and
    landmarks are of any type, the motion and the inverse measurement are functions of them.  exit(1)
    is the result None. *)
From Coq Require Import ZArith List Bool Arith QArith Qcanon.
From Verif Require Import Base QcLra SimModel.
Import ListNotations.
Local Open Scope Qc_scope.

(** ** Covariances *)

(** information = information_sqrt.transpose() * information_sqrt, include/RBLMBSLAM_2D.hpp:255-259 and 301-304. *)
Definition mat := nat -> nat -> Qc.
(** Product of n x n matrices; include/RBLMBSLAM_2D.hpp:259. *)
Definition mmul (n : nat) (A B : mat) : mat := fun i j => fold_left (fun s k => s + A i k * B k j) (seq 0 n) 0.
(** transpose(); include/RBLMBSLAM_2D.hpp:259. *)
Definition tr (A : mat) : mat := fun i j => A j i.
(** information_sqrt of an odometry line, include/RBLMBSLAM_2D.hpp:255-258. *)
Definition upper3 (xx xy xt yy yt hh : Qc) : mat := fun i j =>
  match i, j with
  | 0%nat, 0%nat => xx | 0%nat, 1%nat => xy | 0%nat, 2%nat => xt
  | 1%nat, 1%nat => yy | 1%nat, 2%nat => yt | 2%nat, 2%nat => hh | _, _ => 0
  end.
(** information_sqrt of a landmark line, include/RBLMBSLAM_2D.hpp:301-303. *)
Definition upper2 (xx xy yy : Qc) : mat := fun i j =>
  match i, j with 0%nat, 0%nat => xx | 0%nat, 1%nat => xy | 1%nat, 1%nat => yy | _, _ => 0 end.
(** inverse() of a 2 x 2 matrix: cofactors over the determinant; None (infinite or NaN entries) if that is 0;
    include/RBLMBSLAM_2D.hpp:305. *)
Definition inv2 (A : mat) : option mat :=
  let d := A 0%nat 0%nat * A 1%nat 1%nat - A 0%nat 1%nat * A 1%nat 0%nat in
  if Qc_eq_dec d 0 then None
  else Some (fun i j => match i, j with
    | 0%nat, 0%nat => A 1%nat 1%nat / d | 0%nat, 1%nat => - A 0%nat 1%nat / d
    | 1%nat, 0%nat => - A 1%nat 0%nat / d | 1%nat, 1%nat => A 0%nat 0%nat / d | _, _ => 0 end).
(** Cofactor of (i, j) of a 3 x 3 matrix, rows and columns counted cyclically; include/RBLMBSLAM_2D.hpp:260. *)
Definition cof3 (A : mat) (i j : nat) : Qc :=
  let n k := match k with 0%nat => 1%nat | 1%nat => 2%nat | _ => 0%nat end in
  A (n i) (n j) * A (n (n i)) (n (n j)) - A (n i) (n (n j)) * A (n (n i)) (n j).
(** inverse() of a 3 x 3 matrix, include/RBLMBSLAM_2D.hpp:260. *)
Definition inv3 (A : mat) : option mat :=
  let d := A 0%nat 0%nat * cof3 A 0 0 + A 0%nat 1%nat * cof3 A 0 1 + A 0%nat 2%nat * cof3 A 0 2 in
  if Qc_eq_dec d 0 then None else Some (fun i j => cof3 A j i / d).
(** covariance of an odometry line, include/RBLMBSLAM_2D.hpp:255-260. *)
Definition cov3 (U : mat) : option mat := inv3 (mmul 3 (tr U) U).
(** covariance of a landmark line, include/RBLMBSLAM_2D.hpp:301-305. *)
Definition cov2 (U : mat) : option mat := inv2 (mmul 2 (tr U) U).

(** ** Lines *)

(** What parseISAMLine distinguishes, include/RBLMBSLAM_2D.hpp:224-324: a complete odometry line (i_x0, i_x1, x, y, theta and
    the upper triangle), a complete landmark line (i_x, i_landmark, x, y and the upper triangle), one of these from which
    sscanf reads fewer numbers, a line that starts with another word, a line without any word, and one
    whose first word has 500 or more characters. *)
Inductive line :=
| LOdometry (i0 i1 : Z) (x y th xx xy xt yy yt hh : Qc)
| LLandmark (i l : Z) (x y xx xy yy : Qc)
| LShort
| LOther
| LBlank
| LLong.

Section Read.
Context {P M : Type}.
Variable step : P -> Qc * Qc * Qc -> P.   (* motionModel.step, lines 268 and 279 *)
Variable inverse : P -> Qc * Qc -> M.      (* measurementModel.inverseMeasure, line 311 *)
Variable answer : Z -> Z -> bool.          (* "Continue?" for a constraint between these poses, lines 238-244 *)
Variable origin : P.                       (* pose_k(t), lines 170 and 196 *)

(** The members that reading changes, include/RBLMBSLAM_2D.hpp:947-985; the variances are None if they are not finite. *)
Record isam := Isam {
  odometry : list (Z * (Qc * Qc * Qc)); reckoned : list (Z * P); measured : list (Z * (Qc * Qc));
  gt_moves : list (Z * (Qc * Qc * Qc)); gt_poses : list (Z * P); gt_lms : list M; gt_first : list Z;
  vardx : option Qc; vardy : option Qc; vardz : option Qc; varzx : option Qc; varzy : option Qc }.

(** back() of a vector of poses; include/RBLMBSLAM_2D.hpp:268. *)
Definition last_pose (l : list (Z * P)) : outcome P := of_option OutOfBounds (option_map snd (nth_error l (length l - 1))).
(** groundtruth_pose_[i_x], include/RBLMBSLAM_2D.hpp:311. *)
Definition pose_at (l : list (Z * P)) (i : Z) : outcome P :=
  if (i <? 0)%Z then UB OutOfBounds else of_option OutOfBounds (option_map snd (nth_error l (Z.to_nat i))).

(** parseISAMLine, include/RBLMBSLAM_2D.hpp:224-324. *)
Definition parse (gt : bool) (l : line) (s : isam) : outcome (option isam) :=
  match l with
  | LOdometry i0 i1 x y th xx xy xt yy yt hh =>
    if negb (i1 =? i0 + 1)%Z && negb (answer i0 i1) then Val None
    else
      let c := cov3 (upper3 xx xy xt yy yt hh) in
      let u := (x, y, th) in
      if gt then
        let* p := last_pose (gt_poses s) in
        Val (Some (Isam (odometry s) (reckoned s) (measured s) (gt_moves s ++ [(i1, u)]) (gt_poses s ++ [(i1, step p u)])
          (gt_lms s) (gt_first s) (vardx s) (vardy s) (vardz s) (varzx s) (varzy s)))
      else
        let* p := last_pose (reckoned s) in
        Val (Some (Isam (odometry s ++ [(i1, u)]) (reckoned s ++ [(i1, step p u)]) (measured s) (gt_moves s) (gt_poses s)
          (gt_lms s) (gt_first s) (option_map (fun m => m 0%nat 0%nat) c) (option_map (fun m => m 1%nat 1%nat) c)
          (option_map (fun m => m 2%nat 2%nat) c) (varzx s) (varzy s)))
  | LLandmark i _ x y xx xy yy =>
    let c := cov2 (upper2 xx xy yy) in
    if gt then
      let* p := pose_at (gt_poses s) i in
      Val (Some (Isam (odometry s) (reckoned s) (measured s) (gt_moves s) (gt_poses s)
        (gt_lms s ++ [inverse p (x, y)]) (gt_first s ++ [i]) (vardx s) (vardy s) (vardz s) (varzx s) (varzy s)))
    else
      Val (Some (Isam (odometry s) (reckoned s) (measured s ++ [(i, (x, y))]) (gt_moves s) (gt_poses s) (gt_lms s) (gt_first s)
        (vardx s) (vardy s) (vardz s) (option_map (fun m => m 0%nat 0%nat) c) (option_map (fun m => m 1%nat 1%nat) c)))
  | LShort => Val None
  | LOther => Val (Some s)
  | LBlank => UB Uninit          (* linestart is read although sscanf stored nothing, lines 227-228 *)
  | LLong => UB OutOfBounds      (* "%s" into linestart[500], line 227 *)
  end.

(** The loop over the lines, include/RBLMBSLAM_2D.hpp:173-176 and 200-203. *)
Fixpoint parse_all (gt : bool) (ls : list line) (s : isam) : outcome (option isam) :=
  match ls with
  | [] => Val (Some s)
  | l :: r =>
    let* o := parse gt l s in
    match o with None => Val None | Some s' => parse_all gt r s' end
  end.

(** readISAMFile, include/RBLMBSLAM_2D.hpp:160-179; [f] is None if the file cannot be opened. *)
Definition read_isam (f : option (list line)) (s : isam) : outcome (option isam) :=
  match f with
  | None => Val None
  | Some ls => parse_all false ls (Isam (odometry s) (reckoned s ++ [(0%Z, origin)]) (measured s) (gt_moves s) (gt_poses s)
      (gt_lms s) (gt_first s) (vardx s) (vardy s) (vardz s) (varzx s) (varzy s))
  end.
(** readISAMGroundTruth, include/RBLMBSLAM_2D.hpp:187-205. *)
Definition read_truth (f : option (list line)) (s : isam) : outcome (option isam) :=
  match f with
  | None => Val None
  | Some ls => parse_all true ls (Isam (odometry s) (reckoned s) (measured s) (gt_moves s) (gt_poses s ++ [(0%Z, origin)])
      (gt_lms s) (gt_first s) (vardx s) (vardy s) (vardz s) (varzx s) (varzy s))
  end.

(** The settings that matter here, include/RBLMBSLAM_2D.hpp:99-135. *)
Record settings := Settings {
  c_dx : Qc; c_dy : Qc; c_dz : Qc; c_zx : Qc; c_zy : Qc; c_dT : Qc; c_pinfl : Qc; c_zinfl : Qc }.
(** readConfigFile, include/RBLMBSLAM_2D.hpp:81-152. *)
Definition read_config (c : settings) (s : isam) : isam :=
  Isam (odometry s) (reckoned s) (measured s) (gt_moves s) (gt_poses s) (gt_lms s) (gt_first s)
    (Some (c_dx c)) (Some (c_dy c)) (Some (c_dz c)) (Some (c_zx c)) (Some (c_zy c)).
(** A new object: the vectors are empty (the variances are set by the first readConfigFile);
    include/RBLMBSLAM_2D.hpp:67-69. *)
Definition fresh : isam := Isam [] [] [] [] [] [] [] None None None None None.

(** main, src/rblmbslamCityTrees10000.cpp:62-83, src/rbphdslamCityTrees10000.cpp:62-83: the settings are read again
    after the files. *)
Definition main_read (c : settings) (f g : option (list line)) : outcome (option isam) :=
  let* a := read_isam f (read_config c fresh) in
  match a with
  | None => Val None
  | Some s =>
    let* b := read_truth g s in
    match b with None => Val None | Some s => Val (Some (read_config c s)) end
  end.
End Read.

(** The diagonal of the process noise of the filter, include/RBLMBSLAM_2D.hpp:646-652. *)
Definition filter_Q {P M : Type} (c : settings) (s : @isam P M) : list (option Qc) :=
  map (option_map (fun v => v * (c_pinfl c * c_dT c * c_dT c))) [vardx s; vardy s; vardz s].
(** The diagonal of the measurement noise of the filter with the Cartesian sensor, include/RBLMBSLAM_2D.hpp:660-668. *)
Definition filter_R {P M : Type} (c : settings) (s : @isam P M) : list (option Qc) :=
  map (option_map (fun v => v * c_zinfl c)) [varzx s; varzy s].

(** ** Noise of simulated measurements *)

(** A measurement model is its R_ here: MeasurementModel::MeasurementModel(), setNoise, getNoise;
    include/MeasurementModel.hpp:69, 78-88. *)
Definition mm_new : mat := fun _ _ => 0.
(** diag(a, b); include/RBLMBSLAM_2D.hpp:472-475. *)
Definition diag2 (a b : Qc) : mat := fun i j => match i, j with 0%nat, 0%nat => a | 1%nat, 1%nat => b | _, _ => 0 end.
(** setNoise, include/MeasurementModel.hpp:78-80. *)
Definition mm_set (R mm : mat) : mat := let _ := mm in R.
(** getNoise, include/MeasurementModel.hpp:86-88. *)
Definition mm_get (mm : mat) : mat := mm.
(** The covariance used by sample in RBPHDSLAM_2D::generateMeasurements, include/RBPHDSLAM_2D.hpp:471-479; a and b are
    varzr_, varzb_ or varzx_, varzy_. *)
Definition simulated_phd (a b : Qc) : mat := mm_set (diag2 a b) mm_new.
(** The same in RBLMBSLAM_2D::generateMeasurements, include/RBLMBSLAM_2D.hpp:468-477: covZ is not used, R is
    overwritten by getNoise. *)
Definition simulated_lmb (a b : Qc) : mat := let mm := mm_new in let _ := diag2 a b in let _ := mm_get mm in mm.

(** ** run() *)
Section Run.
Context {P D U A : Type}.
Variable predict : U -> list (P * D) -> list (P * D).  (* pFilter_->predict *)
Variable update : list A -> list (P * D) -> list (P * D). (* pFilter_->update *)

(** setParticlePose(i, p), include/RBLMBFilter.hpp:374-378: the pose is replaced, weight and map stay. *)
Definition set_pose (i : nat) (p : P) (ps : list (P * D)) : outcome (list (P * D)) :=
  match nth_error ps i with
  | None => UB OutOfBounds
  | Some (_, d) => Val (firstn i ps ++ (p, d) :: skipn (S i) ps)
  end.
(** "for( int i = 0; i < nParticles_; i++)", include/RBLMBSLAM_2D.hpp:795-796: positions i to i + n - 1. *)
Fixpoint set_poses (n i : nat) (p : P) (ps : list (P * D)) : outcome (list (P * D)) :=
  match n with
  | O => Val ps
  | S n' => let* ps := set_pose i p ps in set_poses n' (S i) p ps
  end.

(** Which ground truth pose is imposed at step k: include/RBLMBSLAM_2D.hpp:794-797. *)
Definition hold_lmb (k : nat) : option nat := if (k <=? 4)%nat then Some (k + 1)%nat else None.
(** include/RBPHDSLAM_2D.hpp:793-796. *)
Definition hold_phd (k : nat) : option nat := if (Z.of_nat k <=? -1100)%Z then Some k else None.
(** src/fastslam2dSim.cpp:580-583 (h = 100), src/rbphdslam2dSim_amplitude.cpp:559-562 (100), src/rblmbslam2dSim.cpp:576-579,
    src/rbcbmemberslam2dSim.cpp:578-581 and src/rbphdslam6dSim.cpp:693-696 (50). *)
Definition hold_sim (h k : nat) : option nat := if (k <=? h)%nat then Some k else None.

(** The loop over the steps k, k+1, ..., include/RBLMBSLAM_2D.hpp:746-812: the particles that enter pFilter_->update at each
    step.  [n] is nParticles_, [us] odometry_[k], odometry_[k+1], ..., [gt] groundtruth_pose_, [zs] measurements_[zIdx], ... *)
Fixpoint run_loop (hold : nat -> option nat) (n : nat) (gt : list (Z * P)) (steps k : nat) (us : list (Z * U)) (zs : list (Z * A))
    (ps : list (P * D)) : outcome (list (list (P * D))) :=
  match steps with
  | O => Val []
  | S steps' =>
    match us with
    | [] => UB OutOfBounds
    | (t, u) :: us' =>
      let ps := predict u ps in
      let* ps :=
        match hold k with
        | None => Val ps
        | Some j => let* p := of_option OutOfBounds (nth_error gt j) in set_poses n 0 (snd p) ps
        end in
      match zs with
      | [] => UB OutOfBounds
      | _ =>
        let '(b, rest) := take_at t zs in
        omap (cons ps) (run_loop hold n gt steps' (S k) us' rest (update b ps))
      end
    end
  end.
End Run.

(** ** src/examples/ospaErrorFromFile.cpp *)

(** "in >> x; in >> y; if(!in.good()) break; push_back", src/examples/ospaErrorFromFile.cpp:69-78: the points read from a
    file that holds the numbers [xs], and [more] tells if anything (say a newline) follows the last of
    them; reading a number that ends the file sets eofbit. *)
Fixpoint read_points (xs : list Qc) (more : bool) : list (Qc * Qc) :=
  match xs with
  | x :: y :: r =>
    match r with
    | [] => if more then [(x, y)] else []
    | _ => (x, y) :: read_points r more
    end
  | _ => []
  end.
