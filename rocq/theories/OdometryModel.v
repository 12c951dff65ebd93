(** Model of the process models: src/ProcessModel_Odometry1D.cpp, src/ProcessModel_Odometry2D.cpp,
    src/ProcessModel_Odometry6D.cpp, src/ProcessModel_Ackerman2D.cpp, the functions sample,
    likelihood and logLikelihood of include/ProcessModel.hpp and the Gaussian densities of
    include/RandomVec.hpp.

    Over the reals, so rounding is outside the model.  Times are whole nanoseconds (their
    representation is the subject of TimeStampModel).  A function that ends the program with
    exit(1) gives UB Aborted, one that reads a member never written UB Uninit. *)
From Coq Require Import Reals ZArith List Bool.
From Verif Require Import Base SensorModel.
Import ListNotations.
Local Open Scope R_scope.

(** A RandomVec: value, covariance and time, include/RandomVec.hpp:655-660. *)
Record rv (A : Type) := Rv { v_x : A; v_cov : mx; v_time : Z }.
Arguments Rv {A} _ _ _.
Arguments v_x {A} _.
Arguments v_cov {A} _.
Arguments v_time {A} _.

(** Mat::Zero and setIdentity of Eigen; as in src/ProcessModel_Odometry2D.cpp:63 and 94. *)
Definition zero_mx : mx := fun _ _ => 0.
(** Part of the above, src/ProcessModel_Odometry2D.cpp:63 and 94. *)
Definition id_mx : mx := fun i j => if Nat.eqb i j then 1 else 0.

(** The Jacobian is written when a pointer is given (want), e.g.
    src/ProcessModel_Odometry2D.cpp:93-95. *)
Definition jac (want : bool) (H : mx) : option mx := if want then Some H else None.

(** ** One dimension, src/ProcessModel_Odometry1D.cpp:39-63 *)

(** old is the object s_k before the call: s_k.set(x, cov) of line 57 leaves its time. *)
Definition step_1d (old s : rv R) (u : R) (dT : Z) (want : bool) : outcome (rv R * option mx) :=
  Val (Rv (v_x s + u) zero_mx (v_time old), jac want id_mx).

(** ** The plane, src/ProcessModel_Odometry2D.cpp:41-96 *)

(** A displacement in the frame of the robot; src/ProcessModel_Odometry2D.cpp:75-77. *)
Record odo2 := O2 { o_x : R; o_y : R; o_t : R }.

(** The matrices called C: lines 72 and 80, and their product, line 84. *)
Definition c_mx (a : R) : mx := mx_of [[cos a; sin a]; [- sin a; cos a]].

(** Value of the new pose: lines 83-90. *)
Definition move_2d (p : pose2) (u : odo2) : pose2 :=
  let C_km := c_mx (p_t p) in
  let C_k := mmul 2 (c_mx (o_t u)) C_km in
  let d := mapp 2 (tr C_km) (vec_of [o_x u; o_y u]) in
  P2 (p_x p + d 0%nat) (p_y p + d 1%nat) (atan2 (C_k 0%nat 1%nat) (C_k 0%nat 0%nat)).

(** The whole function: covariance zero and t_km + dT in line 91, the Jacobian in 93-95. *)
Definition step_2d (old s : rv pose2) (u : odo2) (dT : Z) (want : bool) : outcome (rv pose2 * option mx) :=
  Val (Rv (move_2d (v_x s) u) zero_mx (v_time s + dT)%Z, jac want id_mx).

(** ** Space, src/ProcessModel_Odometry6D.cpp:41-84 *)

(** Vectors with three entries; pose and displacement are a vector and a quaternion;
    src/ProcessModel_Odometry6D.cpp:50-70. *)
Record v3 := V3 { a_x : R; a_y : R; a_z : R }.
(** Part of the above, src/ProcessModel_Odometry6D.cpp:50-70. *)
Definition add3 (a b : v3) : v3 := V3 (a_x a + a_x b) (a_y a + a_y b) (a_z a + a_z b).
(** Part of the above, src/ProcessModel_Odometry6D.cpp:50-70. *)
Definition scale3 (k : R) (a : v3) : v3 := V3 (k * a_x a) (k * a_y a) (k * a_z a).
(** Part of the above, src/ProcessModel_Odometry6D.cpp:50-70. *)
Definition cross (a b : v3) : v3 :=
  V3 (a_y a * a_z b - a_z a * a_y b) (a_z a * a_x b - a_x a * a_z b) (a_x a * a_y b - a_y a * a_x b).
(** Part of the above, src/ProcessModel_Odometry6D.cpp:50-70. *)
Record pose6 := P6 { r_p : v3; r_q : quat }.

(** Eigen's squared norm and normalize(); a zero quaternion stays as it is since Eigen 3.3
    and becomes NaN before (no theorem has it as an input); src/ProcessModel_Odometry6D.cpp:69. *)
Definition qnorm2 (q : quat) : R := q_x q ^ 2 + q_y q ^ 2 + q_z q ^ 2 + q_w q ^ 2.
(** Part of the above, src/ProcessModel_Odometry6D.cpp:69. *)
Definition normalize (q : quat) : quat :=
  if Rlt_dec 0 (qnorm2 q)
  then let n := sqrt (qnorm2 q) in Q4 (q_x q / n) (q_y q / n) (q_z q / n) (q_w q / n)
  else q.

(** Eigen's product of quaternions and _transformVector; src/ProcessModel_Odometry6D.cpp:73-74. *)
Definition qmul (a b : quat) : quat :=
  Q4 (q_w a * q_x b + q_x a * q_w b + q_y a * q_z b - q_z a * q_y b)
     (q_w a * q_y b + q_y a * q_w b + q_z a * q_x b - q_x a * q_z b)
     (q_w a * q_z b + q_z a * q_w b + q_x a * q_y b - q_y a * q_x b)
     (q_w a * q_w b - q_x a * q_x b - q_y a * q_y b - q_z a * q_z b).
(** Part of the above, src/ProcessModel_Odometry6D.cpp:73-74. *)
Definition transform (q : quat) (v : v3) : v3 :=
  let u := V3 (q_x q) (q_y q) (q_z q) in
  let uv := cross u v in
  let uv2 := add3 uv uv in
  add3 (add3 v (scale3 (q_w q) uv2)) (cross u uv2).

(** Lines 62-76. *)
Definition move_6d (p : pose6) (u : pose6) : pose6 :=
  let q_in := normalize (r_q u) in
  P6 (add3 (r_p p) (transform (r_q p) (r_p u))) (qmul (r_q p) q_in).

(** The whole function: exit when a Jacobian is wanted, lines 47-50; lines 79-83. *)
Definition step_6d (old s : rv pose6) (u : pose6) (dT : Z) (want : bool) : outcome (rv pose6 * option mx) :=
  if want then UB Aborted
  else Val (Rv (move_6d (v_x s) u) zero_mx (v_time s + dT)%Z, None).

(** ** Car, src/ProcessModel_Ackerman2D.cpp:49-82 *)

(** h_, l_, poi_offset_x_, poi_offset_y_: not initialised by the constructor of line 34
    (None) until setAckermanParams, lines 42-47. *)
Record car := Car { k_h : R; k_l : R; k_dx : R; k_dy : R }.

(** Velocity and steering; src/ProcessModel_Ackerman2D.cpp:56-57. *)
Record steer := Steer { u_v : R; u_r : R }.

(** One turn at most: lines 74-78. *)
Definition wrap_once (a : R) : R :=
  if Rlt_dec PI a then a - 2 * PI else if Rlt_dec a (- PI) then a + 2 * PI else a.

(** Lines 56-78; dt is dT in seconds, line 58. *)
Definition move_car (c : car) (p : pose2) (u : steer) (dt : R) : pose2 :=
  let cs := cos (p_t p) in
  let sn := sin (p_t p) in
  let tn := tan (u_r u) in
  let v := u_v u / (1 - tn * k_h c / k_l c) in
  P2 (p_x p + dt * (v * cs - v / k_l c * tn * (k_dx c * sn + k_dy c * cs)))
     (p_y p + dt * (v * sn + v / k_l c * tn * (k_dx c * cs - k_dy c * sn)))
     (wrap_once (p_t p + dt * v / k_l c * tn)).

(** Seconds of a time in nanoseconds, getTimeAsDouble, src/TimeStamp.cpp. *)
Definition seconds (t : Z) : R := IZR t / 1000000000.

(** The whole function: s_k.set(x, t) of line 80 leaves the covariance of s_k; division by
    zero gives inf or NaN in C++, here UB DivByZero. *)
Definition step_car (c : option car) (old s : rv pose2) (u : steer) (dT : Z) (want : bool)
    : outcome (rv pose2 * option mx) :=
  if want then UB Aborted
  else match c with
       | None => UB Uninit
       | Some c =>
         if Req_EM_T (k_l c) 0 then UB DivByZero
         else if Req_EM_T (1 - tan (u_r u) * k_h c / k_l c) 0 then UB DivByZero
         else Val (Rv (move_car c (v_x s) u (seconds dT)) (v_cov old) (v_time s + dT)%Z, None)
       end.

(** ** include/ProcessModel.hpp *)

Section Process.
Variables (St In : Type).
Variable step : rv St -> rv St -> In -> Z -> bool -> outcome (rv St * option mx).

(** RandomVec::sample and the input's sample: the generator is outside the model, a draw is
    given as a function; for the state it also gets the covariance it is drawn with. *)
Variable draw_in : In -> In.
Variable draw : mx -> St -> St.

(** Q_ != Mat::Zero() with matrices of size n; include/ProcessModel.hpp:148. *)
Definition nonzero (n : nat) (Q : mx) : bool :=
  existsb (fun i => existsb (fun j => if Req_EM_T (Q i j) 0 then false else true) (seq 0 n)) (seq 0 n).

(** sample, lines 125-153; Q_ is not initialised by the default constructor, lines 64-66
    (None). *)
Definition sample (n : nat) (Q : option mx) (old s : rv St) (u : In) (dT : Z) (additive input : bool)
    : outcome (rv St) :=
  let* r := step old s (if input then draw_in u else u) dT false in
  if additive then
    match Q with
    | None => UB Uninit
    | Some Q => if nonzero n Q then Val (Rv (draw Q (v_x (fst r))) Q (v_time (fst r))) else Val (fst r)
    end
  else Val (fst r).
End Process.
Arguments sample {St In} _ _ _ _ _ _ _ _ _ _ _.

(** ** Gaussian density, include/RandomVec.hpp *)

(** A pose in the plane as a vector; include/RandomVec.hpp:655 for the pose of src/ProcessModel_Odometry2D.cpp:66. *)
Definition vec2 (p : pose2) : vec := vec_of [p_x p; p_y p; p_t p].

(** e_ = x_eval - x_ and e^T * Sx_inv_ * e, include/RandomVec.hpp:426-448; the inverse is given. *)
Definition maha_n (n : nat) (Sinv : mx) (e : vec) : R := dot n e (mapp n Sinv e).

(** exp(-md2/2) / sqrt((2 PI)^n det) for a regular covariance, include/RandomVec.hpp:456-470. *)
Definition gauss (n : nat) (det md2 : R) : R := exp (-1 / 2 * md2) / sqrt ((2 * PI) ^ n * det).
(** Its logarithm, include/RandomVec.hpp:477-492. *)
Definition log_gauss (n : nat) (det md2 : R) : R := -1 / 2 * md2 - ln (sqrt ((2 * PI) ^ n * det)).

(** likelihood of include/ProcessModel.hpp:172-186 in the plane. *)
Definition motion_likelihood (Sinv : mx) (det : R) (s_k s_km : pose2) (u : odo2) : R :=
  let pred := move_2d s_km u in
  gauss 3 det (maha_n 3 Sinv (fun i => vec2 s_k i - vec2 pred i)).

(** The overloads with pose_grad, include/ProcessModel.hpp:205-229 and 247-271, for any
    dimension and prediction: value and gradient -Sx_inv_ * e. *)
Definition likelihood_grad (n : nat) (Sinv : mx) (det : R) (pred x : vec) : R * vec :=
  let e := fun i => x i - pred i in
  (gauss n det (maha_n n Sinv e), fun i => - mapp n Sinv e i).
(** Part of the above, include/ProcessModel.hpp:205-229 and 247-271. *)
Definition log_likelihood_grad (n : nat) (Sinv : mx) (det : R) (pred x : vec) : R * vec :=
  let e := fun i => x i - pred i in
  (log_gauss n det (maha_n n Sinv e), fun i => - mapp n Sinv e i).

(** The same overloads as programs: they hand step a Jacobian, lines 213 and 255. *)
Definition grad_step {St In : Type} (step : rv St -> rv St -> In -> Z -> bool -> outcome (rv St * option mx))
    (fresh s_km : rv St) (u : In) (dT : Z) : outcome (rv St) :=
  omap fst (step fresh s_km u dT true).

(** ** The same densities with IEEE special values

    Doubles without rounding: reals, two infinities, not-a-number; the zero has no sign. *)
(** Special values of the doubles in include/RandomVec.hpp:456-490. *)
Inductive xr := Fin (r : R) | Inf (neg : bool) | NaN.
(** Part of the above, include/RandomVec.hpp:456-490. *)
Definition neg_of (r : R) : bool := if Rlt_dec r 0 then true else false.
(** Part of the above, include/RandomVec.hpp:456-490. *)
Definition xmul (a b : xr) : xr :=
  match a, b with
  | NaN, _ | _, NaN => NaN
  | Fin x, Fin y => Fin (x * y)
  | Fin x, Inf s | Inf s, Fin x => if Req_EM_T x 0 then NaN else Inf (xorb s (neg_of x))
  | Inf s, Inf t => Inf (xorb s t)
  end.
(** Part of the above, include/RandomVec.hpp:456-490. *)
Definition xdiv (a b : xr) : xr :=
  match a, b with
  | NaN, _ | _, NaN => NaN
  | Fin x, Fin y => if Req_EM_T y 0 then (if Req_EM_T x 0 then NaN else Inf (neg_of x)) else Fin (x / y)
  | Fin x, Inf _ => Fin 0
  | Inf s, Fin y => Inf (xorb s (neg_of y))
  | Inf _, Inf _ => NaN
  end.
(** Part of the above, include/RandomVec.hpp:456-490. *)
Definition xsub (a b : xr) : xr :=
  match a, b with
  | NaN, _ | _, NaN => NaN
  | Fin x, Fin y => Fin (x - y)
  | Fin _, Inf s => Inf (negb s)
  | Inf s, Fin _ => Inf s
  | Inf s, Inf t => if Bool.eqb s t then NaN else Inf s
  end.
(** Part of the above, include/RandomVec.hpp:456-490. *)
Definition xexp (a : xr) : xr :=
  match a with Fin x => Fin (exp x) | Inf true => Fin 0 | Inf false => Inf false | NaN => NaN end.
(** Part of the above, include/RandomVec.hpp:456-490. *)
Definition xln (a : xr) : xr :=
  match a with
  | Fin x => if Rlt_dec 0 x then Fin (ln x) else if Req_EM_T x 0 then Inf true else NaN
  | Inf true => NaN | Inf false => Inf false | NaN => NaN
  end.
(** Part of the above, include/RandomVec.hpp:456-490. *)
Definition xsqrt (a : xr) : xr :=
  match a with
  | Fin x => if Rlt_dec x 0 then NaN else Fin (sqrt x)
  | Inf true => NaN | Inf false => Inf false | NaN => NaN
  end.
(** "if (l != l) l = 0", include/RandomVec.hpp:465-466 and 487-488. *)
Definition zero_nan (a : xr) : xr := match a with NaN => Fin 0 | _ => a end.

(** gaussian_pdf_factor_, lines 460 and 481. *)
Definition xfactor (n : nat) (det : R) : xr := xsqrt (Fin ((2 * PI) ^ n * det)).
(** evalGaussianLikelihood, lines 456-470, and evalGaussianLogLikelihood, lines 477-492, from
    the squared distance and the determinant. *)
Definition xlik (n : nat) (det : R) (md2 : xr) : xr :=
  zero_nan (xdiv (xexp (xmul (Fin (-1 / 2)) md2)) (xfactor n det)).
(** Part of the above, include/RandomVec.hpp:456-470, include/RandomVec.hpp:477-492. *)
Definition xloglik (n : nat) (det : R) (md2 : xr) : xr :=
  zero_nan (xsub (xmul (Fin (-1 / 2)) md2) (xln (xfactor n det))).
(** mahalanobisDist2 in one dimension, lines 441-448: e * (1 / var) * e. *)
Definition xmaha1 (x var at_ : R) : xr :=
  xmul (xmul (Fin (at_ - x)) (xdiv (Fin 1) (Fin var))) (Fin (at_ - x)).
