(** Model of the measurement models: src/MeasurementModel_Rng1D.cpp, src/MeasurementModel_XY.cpp,
    src/MeasurementModel_RngBrg.cpp (src/MeasurementModel_RngBrg_amplitude.cpp has the same
    code for everything but clutterIntensity) and src/MeasurementModel_6D.cpp.

    Over the reals, so rounding is outside the model.  atan2 of the C library and Eigen's
    matrix and quaternion functions are written out below.  A division by a zero range gives
    inf or NaN in C++; here the matrices are then absent (None). *)
From Coq Require Import Reals List Bool.
From Verif Require Import Base AngleModel.
Import ListNotations.
Local Open Scope R_scope.

(** ** Matrices (Eigen) *)

(** A matrix or a vector of any size; only the entries within the size matter;
    the Eigen types of include/RandomVec.hpp:75-80. *)
Definition mx := nat -> nat -> R.
(** Part of the above, include/RandomVec.hpp:75-80. *)
Definition vec := nat -> R.

(** Matrix from its rows, Eigen's comma initialiser; as in src/MeasurementModel_RngBrg.cpp:94-100. *)
Definition mx_of (l : list (list R)) : mx := fun i j => nth j (nth i l []) 0.
(** Part of the above, src/MeasurementModel_RngBrg.cpp:94-100. *)
Definition vec_of (l : list R) : vec := fun i => nth i l 0.

(** Sum of f l * g l over l < n; a sum in the products of src/MeasurementModel_RngBrg.cpp:102. *)
Fixpoint dot (n : nat) (f g : vec) : R :=
  match n with
  | O => 0
  | S k => dot k f g + f k * g k
  end.

(** Product with inner dimension n, transpose, sum and product with a vector;
    Eigen, as in src/MeasurementModel_RngBrg.cpp:102. *)
Definition mmul (n : nat) (A B : mx) : mx := fun i j => dot n (A i) (fun l => B l j).
(** Part of the above, src/MeasurementModel_RngBrg.cpp:102. *)
Definition tr (A : mx) : mx := fun i j => A j i.
(** Part of the above, src/MeasurementModel_RngBrg.cpp:102. *)
Definition madd (A B : mx) : mx := fun i j => A i j + B i j.
(** Part of the above, src/MeasurementModel_RngBrg.cpp:102. *)
Definition mapp (n : nat) (A : mx) (v : vec) : vec := fun i => dot n (A i) v.

(** H * P * H.transpose() with P of size n; src/MeasurementModel_RngBrg.cpp:102 and 133. *)
Definition sandwich (n : nat) (H P : mx) : mx := mmul n (mmul n H P) (tr H).

(** cov = H_lmk * landmarkUncertainty * H_lmk^T + H_robot * robotUncertainty * H_robot^T + R_,
    e.g. src/MeasurementModel_RngBrg.cpp:102; n and k are the sizes of landmark and pose. *)
Definition expected_cov (n k : nat) (Hl Hr LS PS Rn : mx) : mx :=
  madd (madd (sandwich n Hl LS) (sandwich k Hr PS)) Rn.

(** ** Configuration and results *)

(** Config of the four models, e.g. include/MeasurementModel_RngBrg.hpp:65-71. *)
Record scfg := SCfg { s_pd : R; s_clutter : R; s_max : R; s_min : R; s_buf : R }.

(** A pose in the plane; src/MeasurementModel_RngBrg.cpp:77-89. *)
Record pose2 := P2 { p_x : R; p_y : R; p_t : R }.

(** What measure writes: the return value, the mean, and the two Jacobians with the
    covariance unless a range of zero makes them NaN; src/MeasurementModel_RngBrg.cpp:94-112. *)
Record lin := Lin { l_lmk : mx; l_pose : mx; l_cov : mx }.
(** Part of the above, src/MeasurementModel_RngBrg.cpp:94-112. *)
Record expected (A : Type) := Exp { x_ok : bool; x_mean : A; x_lin : option lin }.
Arguments Exp {A} _ _ _.
Arguments x_ok {A} _.
Arguments x_mean {A} _.
Arguments x_lin {A} _.

(** "range > rangeLimMax_ || range < rangeLimMin_" false, e.g.
    src/MeasurementModel_RngBrg.cpp:111-114. *)
Definition in_limits (c : scfg) (range : R) : bool :=
  if Rlt_dec (s_max c) range then false else if Rlt_dec range (s_min c) then false else true.

(** ** One dimension, src/MeasurementModel_Rng1D.cpp *)

(** measure, lines 67-102. *)
Definition measure_1d (c : scfg) (x : R) (PS : mx) (m : R) (LS Rn : mx) : expected R :=
  let z := m - x in
  Exp (in_limits c (Rabs z)) z
      (Some (Lin (mx_of [[1]]) (mx_of [[-1]]) (madd (madd LS PS) Rn))).

(** inverseMeasure, lines 104-119. *)
Definition inverse_1d (x z : R) (Rn : mx) : R * mx := (x + z, Rn).

(** ** Cartesian, src/MeasurementModel_XY.cpp *)

(** measure, lines 70-117. *)
Definition measure_xy (c : scfg) (p : pose2) (PS : mx) (l : R * R) (LS Rn : mx) : expected (R * R) :=
  let dx := fst l - p_x p in
  let dy := snd l - p_y p in
  let cc := cos (p_t p) in
  let ss := sin (p_t p) in
  let range := sqrt (dx ^ 2 + dy ^ 2) in
  let Hl := mx_of [[cc; ss]; [- ss; cc]] in
  let Hr := mx_of [[- cc; - ss; - dx * ss + dy * cc]; [ss; - cc; - dx * cc - dy * ss]] in
  Exp (in_limits c range) (cc * dx + ss * dy, - ss * dx + cc * dy)
      (Some (Lin Hl Hr (expected_cov 2 3 Hl Hr LS PS Rn))).

(** inverseMeasure, lines 119-142. *)
Definition inverse_xy (p : pose2) (z : R * R) (Rn : mx) : (R * R) * mx :=
  let cc := cos (p_t p) in
  let ss := sin (p_t p) in
  let Hinv := mx_of [[cc; - ss]; [ss; cc]] in
  ((p_x p + cc * fst z - ss * snd z, p_y p + ss * fst z + cc * snd z), sandwich 2 Hinv Rn).

(** ** Range and bearing, src/MeasurementModel_RngBrg.cpp *)

(** atan2 of the C library; the reals have one zero, so atan2(-0, x) is not distinguished;
    src/MeasurementModel_RngBrg.cpp:89. *)
Definition atan2 (y x : R) : R :=
  if Rlt_dec 0 x then atan (y / x)
  else if Rlt_dec x 0 then (if Rlt_dec y 0 then atan (y / x) - PI else atan (y / x) + PI)
  else if Rlt_dec 0 y then PI / 2
  else if Rlt_dec y 0 then - (PI / 2)
  else 0.

(** measure, lines 70-115; the fuel is for the loops of lines 91-92. *)
Definition measure_rb (fuel : nat) (c : scfg) (p : pose2) (PS : mx) (l : R * R) (LS Rn : mx)
    : outcome (expected (R * R)) :=
  let dx := fst l - p_x p in
  let dy := snd l - p_y p in
  let range2 := dx ^ 2 + dy ^ 2 in
  let range := sqrt range2 in
  let* bearing := wrap fuel (atan2 dy dx - p_t p) in
  let Hl := mx_of [[dx / range; dy / range]; [- dy / range2; dx / range2]] in
  let Hr := mx_of [[- dx / range; - dy / range; 0]; [dy / range2; - dx / range2; -1]] in
  Val (Exp (in_limits c range) (range, bearing)
           (if Req_EM_T range 0 then None else Some (Lin Hl Hr (expected_cov 2 3 Hl Hr LS PS Rn)))).

(** inverseMeasure, lines 117-136. *)
Definition inverse_rb (p : pose2) (z : R * R) (Rn : mx) : (R * R) * mx :=
  let a := p_t p + snd z in
  let Hinv := mx_of [[cos a; - fst z * sin a]; [sin a; fst z * cos a]] in
  ((p_x p + fst z * cos a, p_y p + fst z * sin a), sandwich 2 Hinv Rn).

(** ** Three dimensions, src/MeasurementModel_6D.cpp *)

(** Eigen::Quaterniond; the four rotation entries of the pose are x, y, z, w; src/MeasurementModel_6D.cpp:87 and 138. *)
Record quat := Q4 { q_x : R; q_y : R; q_z : R; q_w : R }.
(** Part of the above, src/MeasurementModel_6D.cpp:87 and 138. *)
Definition conjugate (q : quat) : quat := Q4 (- q_x q) (- q_y q) (- q_z q) (q_w q).

(** Eigen's toRotationMatrix: meant for unit quaternions, not checked; src/MeasurementModel_6D.cpp:88 and 139. *)
Definition to_matrix (q : quat) : mx :=
  let tx := 2 * q_x q in
  let ty := 2 * q_y q in
  let tz := 2 * q_z q in
  mx_of [[1 - (ty * q_y q + tz * q_z q); ty * q_x q - tz * q_w q; tz * q_x q + ty * q_w q];
         [ty * q_x q + tz * q_w q; 1 - (tx * q_x q + tz * q_z q); tz * q_y q - tx * q_w q];
         [tz * q_x q - ty * q_w q; tz * q_y q + tx * q_w q; 1 - (tx * q_x q + ty * q_y q)]].

(** norm() of a vector with three entries; src/MeasurementModel_6D.cpp:103 and 167. *)
Definition norm3 (v : vec) : R := sqrt (v 0%nat ^ 2 + v 1%nat ^ 2 + v 2%nat ^ 2).

(** H_robot: lines 105-110; left the negative rotation, right the matrix that is
    called skew symmetric there. *)
Definition h_robot6 (H : mx) (m : vec) : mx := fun i j =>
  match j with
  | 0%nat | 1%nat | 2%nat => - H i j
  | _ => mx_of [[0; 2 * m 2%nat; - 2 * m 1%nat; 0];
                [- 2 * m 2%nat; 0; 2 * m 0%nat; 0];
                [2 * m 1%nat; - 2 * m 0%nat; 0; 0]] i (j - 3)%nat
  end.

(** measure, lines 72-126. *)
Definition measure_6d (c : scfg) (p : vec) (q : quat) (PS : mx) (l : vec) (LS Rn : mx) : expected vec :=
  let Hl := to_matrix (conjugate q) in
  let m := mapp 3 Hl (fun i => l i - p i) in
  let Hr := h_robot6 Hl m in
  Exp (in_limits c (norm3 m)) m (Some (Lin Hl Hr (expected_cov 3 7 Hl Hr LS PS Rn))).

(** inverseMeasure, lines 128-151. *)
Definition inverse_6d (p : vec) (q : quat) (z : vec) (Rn : mx) : vec * mx :=
  let Hinv := to_matrix q in
  ((fun i => mapp 3 Hinv z i + p i), sandwich 3 Hinv Rn).

(** ** Detection and clutter *)

(** a <= b and a >= b as tests; src/MeasurementModel_RngBrg.cpp:154-162. *)
Definition leb (a b : R) : bool := if Rle_dec a b then true else false.

(** probabilityOfDetection of the range-bearing, Cartesian and 6D models with the flag
    isCloseToSensingLimit, e.g. src/MeasurementModel_RngBrg.cpp:154-166. *)
Definition detection (c : scfg) (range : R) : R * bool :=
  if leb range (s_max c) && leb (s_min c) range
  then (s_pd c, leb (s_max c - s_buf c) range || leb range (s_min c + s_buf c))
  else (0, leb range (s_max c + s_buf c) && leb (s_min c - s_buf c) range).

(** The same for one dimension, src/MeasurementModel_Rng1D.cpp:135-147. *)
Definition detection_1d (c : scfg) (range : R) : R * bool :=
  ((if leb range (s_max c) && leb (s_min c) range then s_pd c else 0),
   leb (s_max c - s_buf c) range && leb range (s_max c + s_buf c) ||
   (leb (s_min c - s_buf c) range && leb range (s_min c + s_buf c))).

(** The range each model passes on: src/MeasurementModel_Rng1D.cpp:133,
    src/MeasurementModel_XY.cpp:157-158 (src/MeasurementModel_RngBrg.cpp:151-152) and
    src/MeasurementModel_6D.cpp:165-167. *)
Definition pd_1d (c : scfg) (x m : R) : R * bool := detection_1d c (Rabs (m - x)).
(** Part of the above, src/MeasurementModel_Rng1D.cpp:133, src/MeasurementModel_XY.cpp:157-158, src/MeasurementModel_RngBrg.cpp:151-152, src/MeasurementModel_6D.cpp:165-167. *)
Definition pd_2d (c : scfg) (p : pose2) (l : R * R) : R * bool :=
  detection c (sqrt ((fst l - p_x p) ^ 2 + (snd l - p_y p) ^ 2)).
(** Part of the above, src/MeasurementModel_Rng1D.cpp:133, src/MeasurementModel_XY.cpp:157-158, src/MeasurementModel_RngBrg.cpp:151-152, src/MeasurementModel_6D.cpp:165-167. *)
Definition pd_6d (c : scfg) (p l : vec) : R * bool := detection c (norm3 (fun i => l i - p i)).

(** clutterIntensity: uniform, e.g. src/MeasurementModel_RngBrg.cpp:169-172; with an
    exponential distribution of the amplitude in
    src/MeasurementModel_RngBrg_amplitude.cpp:169-173. *)
Definition clutter (c : scfg) : R := s_clutter c.
(** Part of the above, src/MeasurementModel_RngBrg.cpp:169-172, src/MeasurementModel_RngBrg_amplitude.cpp:169-173. *)
Definition clutter_amp (c : scfg) (amplitude : R) : R :=
  s_clutter c * exp (- amplitude * (7777 / 10000)) * (7777 / 10000).

(** clutterIntensityIntegral: src/MeasurementModel_RngBrg.cpp:175-178 (the same in
    src/MeasurementModel_XY.cpp:181-184 and src/MeasurementModel_RngBrg_amplitude.cpp:176-179),
    src/MeasurementModel_Rng1D.cpp:156-159 and src/MeasurementModel_6D.cpp:190-193. *)
Definition clutter_integral_2d (c : scfg) : R := s_clutter c * (2 * PI * (s_max c - s_min c)).
(** Part of the above, src/MeasurementModel_RngBrg.cpp:175-178, src/MeasurementModel_XY.cpp:181-184, src/MeasurementModel_RngBrg_amplitude.cpp:176-179, src/MeasurementModel_Rng1D.cpp:156-159, src/MeasurementModel_6D.cpp:190-193. *)
Definition clutter_integral_1d (c : scfg) : R := s_clutter c * (s_max c - s_min c).
(** Part of the above, src/MeasurementModel_RngBrg.cpp:175-178, src/MeasurementModel_XY.cpp:181-184, src/MeasurementModel_RngBrg_amplitude.cpp:176-179, src/MeasurementModel_Rng1D.cpp:156-159, src/MeasurementModel_6D.cpp:190-193. *)
Definition clutter_integral_6d (c : scfg) : R :=
  s_clutter c * (4 / 3 * PI * (s_max c ^ 3 - s_min c ^ 3)).
