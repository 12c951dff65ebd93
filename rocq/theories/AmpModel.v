(** Model of include/Measurement_amplitude.hpp (measurements with an amplitude), of the generation and
    export of such measurements in src/rbphdslam2dSim_amplitude.cpp, and of MeasurementModel::sample,
    include/MeasurementModel.hpp, for range and bearing.

    Over the reals, so rounding is outside the model.  The likelihood of range and bearing
    (include/RandomVec.hpp:456-470, modelled in RVecModel.v) is a parameter here. *)
From Coq Require Import Reals List Bool String.
From Verif Require Import Base ListUtil SensorModel DriveModel.
Import ListNotations.
Local Open Scope R_scope.

(** ** Objects *)
(** Measurement2d_amplitude, include/Measurement_amplitude.hpp:11-91: mean and covariance of range and
    bearing, amplitude_, and mean_ and cov_, which are None as long as nothing was written to them. *)
Record ameas := AM { a_z : R * R; a_S : mx; a_amp : R; a_mean : option R; a_cov : option R }.

(** The constructors of lines 15-38. *)
Definition construct (z : R * R) (S : mx) : ameas := AM z S 1 (Some 10) (Some 2).
(** The copy constructor, lines 43-46: mean_ and cov_ are left as they are. *)
Definition copy (o : ameas) : ameas := AM (a_z o) (a_S o) (a_amp o) None None.
(** operator=, lines 52-56. *)
Definition assign (l r : ameas) : ameas := AM (a_z r) (a_S r) (a_amp r) (a_mean l) (a_cov l).
(** setAmplitude, lines 61-63. *)
Definition set_amp (o : ameas) (a : R) : ameas := AM (a_z o) (a_S o) a (a_mean o) (a_cov o).

(** A program working on measurements; objects are numbered in the order of construction. *)
Inductive op :=
| New (z : R * R) (Sx : mx)  (* lines 15-38 *)
| Copy (i : nat)             (* lines 43-46 *)
| Assign (i j : nat)         (* lines 52-56 *)
| SetAmp (i : nat) (a : R).  (* lines 61-63 *)

(** One operation on the objects so far; using a number without an object is out of bounds;
    include/Measurement_amplitude.hpp:40-71. *)
Definition exec (m : list ameas) (o : op) : outcome (list ameas) :=
  match o with
  | New z Sx => Val (m ++ [construct z Sx])
  | Copy i => let* x := of_option OutOfBounds (nth_error m i) in Val (m ++ [copy x])
  | Assign i j => let* x := of_option OutOfBounds (nth_error m i) in
                  let* y := of_option OutOfBounds (nth_error m j) in Val (upd m i (assign x y))
  | SetAmp i a => let* x := of_option OutOfBounds (nth_error m i) in Val (upd m i (set_amp x a))
  end.
(** Part of the above, include/Measurement_amplitude.hpp:40-71. *)
Fixpoint run (m : list ameas) (p : list op) : outcome (list ameas) :=
  match p with
  | [] => Val m
  | o :: p' => let* m' := exec m o in run m' p'
  end.

Section Likelihood.
(** Measurement2d::evalGaussianLikelihood. *)
Variable spatial : R * R -> mx -> R * R -> R.

(** evalGaussianLikelihood, include/Measurement_amplitude.hpp:78-82. *)
Definition likelihood (e x : ameas) : outcome R :=
  let* mean := of_option Uninit (a_mean e) in
  let* cov := of_option Uninit (a_cov e) in
  Val (spatial (a_z e) (a_S e) (a_z x) * exp (- (1 / 2) * (a_amp x - mean) ^ 2 / cov) / sqrt (2 * PI * cov)).
End Likelihood.

(** ** Simulation *)
(** The amplitude of a detection, src/rbphdslam2dSim_amplitude.cpp:334-337; [s] is the stream of
    gen_norm_, [p] its position, [fuel] bounds the number of further draws.  Returns the amplitude and
    the next position. *)
Fixpoint draw_amp (fuel : nat) (s : nat -> R) (p : nat) : outcome (R * nat) :=
  let a := 10 + s p * sqrt 2 in
  if Rlt_dec a 0 then match fuel with O => OutOfFuel | S f => draw_amp f s (S p) end
  else Val (a, S p).
(** The amplitude of a false alarm, line 366; [e] is the draw of gen_exp_. *)
Definition false_amp (e : R) : R := e / (7777 / 10000).

(** A stored measurement: time, range, bearing, amplitude; src/rbphdslam2dSim_amplitude.cpp:425-434. *)
Record stored := Stored { m_t : R; m_r : R; m_b : R; m_a : R }.
(** exportSimData, measurement.dat, lines 425-434. *)
Definition export_meas (l : list stored) : outcome (list (list R)) :=
  print_rows "%f %f %f" (map (fun m => [m_t m; m_r m; m_b m]) l).

(** ** Sampling a measurement *)
Section Sample.
(** Lower Cholesky factor of a matrix of the given size, Eigen's LLT. *)
Variable chol : nat -> mx -> mx.

(** RandomVec::sample, include/RandomVec.hpp:598-618 and 624-644: the mean moved by the factor times
    the noise; the cached factor belongs to the covariance (C29). *)
Definition noise (n : nat) (S : mx) (s : nat -> R) (k : nat) : vec := mapp n (chol n S) (fun i => s (k + i)%nat).

(** What sample leaves: the return value, mean and covariance of the measurement (absent if NaN), and
    the next position in the stream of the generator; include/MeasurementModel.hpp:129-160. *)
Record sampled := Sampled { z_ok : bool; z_mean : R * R; z_cov : option mx; z_next : nat }.

(** MeasurementModel::sample, include/MeasurementModel.hpp:129-159, of the range and bearing model with
    noise covariance Rn; [useZ], [useP], [useL] are the three flags; [s] is the stream of the generator
    of the thread, [k] its position. *)
Definition sample_rb (fuel : nat) (c : scfg) (Rn : mx) (p : pose2) (PS : mx) (l : R * R) (LS : mx)
    (useZ useP useL : bool) (s : nat -> R) (k : nat) : outcome sampled :=
  let np := noise 3 PS s k in
  let p' := if useP then P2 (p_x p + np 0%nat) (p_y p + np 1%nat) (p_t p + np 2%nat) else p in
  let k1 := if useP then (k + 3)%nat else k in
  let nl := noise 2 LS s k1 in
  let l' := if useL then (fst l + nl 0%nat, snd l + nl 1%nat) else l in
  let k2 := if useL then (k1 + 2)%nat else k1 in
  let* e := measure_rb fuel c p' PS l' LS Rn in
  if x_ok e && useZ then
    let nz := noise 2 Rn s k2 in
    Val (Sampled true (fst (x_mean e) + nz 0%nat, snd (x_mean e) + nz 1%nat) (Some Rn) (k2 + 2))
  else Val (Sampled (x_ok e) (x_mean e) (option_map l_cov (x_lin e)) k2).

(** The simulated detection of one landmark, src/rbphdslam2dSim_amplitude.cpp:325-341 (the same in
    include/RBPHDSLAM_2D.hpp:517-531): [u] is the draw of drand48; None if nothing is stored. *)
Definition detect (fuel : nat) (c : scfg) (Rn : mx) (p : pose2) (PS : mx) (l : R * R) (LS : mx)
    (s : nat -> R) (k : nat) (u : R) : outcome (option (R * R)) :=
  let* e := sample_rb fuel c Rn p PS l LS true false false s k in
  Val (if z_ok e && leb (fst (z_mean e)) (s_max c) && leb (s_min c) (fst (z_mean e)) && leb u (s_pd c)
       then Some (z_mean e) else None).
End Sample.
