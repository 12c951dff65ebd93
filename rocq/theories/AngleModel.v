(** Model of the loops that bring an angle back to one turn:
    src/KalmanFilter.cpp:28-42 (calculateInnovation), src/KalmanFilter_RngBrg_amplitude.cpp:52-66,
    include/KalmanFilter_VictoriaPark.hpp:56-75, src/MeasurementModel_RngBrg.cpp:91-92 and
    src/MeasurementModel_RngBrg_amplitude.cpp:91-92.

    Twice: over the reals, and over IEEE double precision numbers (Flocq's binary_float with
    round to nearest even, as x86-64 and ARM compute).  The loops get fuel; OutOfFuel after
    every amount of fuel means that the loop does not terminate. *)
From Coq Require Import Reals ZArith.
From Flocq Require Import Core BinarySingleNaN.
From Verif Require Import Base.
Local Open Scope R_scope.

(** while(a > PI) a -= 2 * PI;; src/KalmanFilter.cpp:34-35, src/MeasurementModel_RngBrg.cpp:91. *)
Fixpoint wrap_down (fuel : nat) (a : R) : outcome R :=
  match fuel with
  | O => OutOfFuel
  | S f => if Rlt_dec PI a then wrap_down f (a - 2 * PI) else Val a
  end.

(** while(a < -PI) a += 2 * PI;; src/KalmanFilter.cpp:36-37, src/MeasurementModel_RngBrg.cpp:92. *)
Fixpoint wrap_up (fuel : nat) (a : R) : outcome R :=
  match fuel with
  | O => OutOfFuel
  | S f => if Rlt_dec a (- PI) then wrap_up f (a + 2 * PI) else Val a
  end.

(** Both loops, src/KalmanFilter.cpp:34-37. *)
Definition wrap (fuel : nat) (a : R) : outcome R := let* b := wrap_down fuel a in wrap_up fuel b.

(** Thresholds of KalmanFilter::Config, include/KalmanFilter.hpp:151-156. *)
Record thresholds := Thr { th_range : R; th_bearing : R }.

(** "t > 0 && fabs(v) > t", src/KalmanFilter.cpp:32 and 38. *)
Definition exceeds (t v : R) : bool :=
  if Rlt_dec 0 t then (if Rlt_dec t (Rabs v) then true else false) else false.

(** calculateInnovation of the range-bearing filters, src/KalmanFilter.cpp:28-42; None when it
    returns false.  Measurements are (range, bearing). *)
Definition innovation2 (fuel : nat) (th : thresholds) (z_exp z_act : R * R) : outcome (option (R * R)) :=
  let dr := fst z_act - fst z_exp in
  let db := snd z_act - snd z_exp in
  if exceeds (th_range th) dr then Val None
  else
    let* b := wrap fuel db in
    if exceeds (th_bearing th) b then Val None else Val (Some (dr, b)).

(** ** Double precision *)

(** double; the type in src/KalmanFilter.cpp:34-37. *)
Definition double := binary_float 53 1024.
Lemma Hprec : Prec_gt_0 53. Proof. reflexivity. Qed.
Lemma Hmax : Prec_lt_emax 53 1024. Proof. reflexivity. Qed.

(** PI = acos(-1) (include/RandomVec.hpp:58) is 0x1.921fb54442d18p+1, and twice that is exact. *)
Definition PId : double := @B754_finite 53 1024 false 7074237752028440 (-51) eq_refl.
(** Part of the above, include/RandomVec.hpp:58. *)
Definition TwoPId : double := @B754_finite 53 1024 false 7074237752028440 (-50) eq_refl.

(** The same loops in double precision; a comparison with NaN is false; src/KalmanFilter.cpp:34-37. *)
Definition subd (a b : double) : double := @Bminus 53 1024 Hprec Hmax mode_NE a b.
(** Part of the above, src/KalmanFilter.cpp:34-37. *)
Definition addd (a b : double) : double := @Bplus 53 1024 Hprec Hmax mode_NE a b.
(** Part of the above, src/KalmanFilter.cpp:34-37. *)
Fixpoint wrapd_down (fuel : nat) (a : double) : outcome double :=
  match fuel with
  | O => OutOfFuel
  | S f => if Bltb PId a then wrapd_down f (subd a TwoPId) else Val a
  end.
(** Part of the above, src/KalmanFilter.cpp:34-37. *)
Fixpoint wrapd_up (fuel : nat) (a : double) : outcome double :=
  match fuel with
  | O => OutOfFuel
  | S f => if Bltb a (Bopp PId) then wrapd_up f (addd a TwoPId) else Val a
  end.
(** Part of the above, src/KalmanFilter.cpp:34-37. *)
Definition wrapd (fuel : nat) (a : double) : outcome double :=
  let* b := wrapd_down fuel a in wrapd_up fuel b.

(** ** The distance reported with the correction *)

(** A symmetric 2x2 matrix: S_inv, include/KalmanFilter.hpp:244. *)
Record sym2 := Sym2 { s11 : R; s12 : R; s22 : R }.

(** e^T S_inv e; include/RandomVec.hpp:428-448. *)
Definition quad2 (S : sym2) (e : R * R) : R :=
  fst e * (s11 S * fst e + s12 S * snd e) + snd e * (s12 S * fst e + s22 S * snd e).

(** mahalanobisDist2 of the measurement from the expected one, include/RandomVec.hpp:428-435,
    called at include/KalmanFilter.hpp:259 and 328: the plain difference. *)
Definition maha2 (S : sym2) (z_exp z_act : R * R) : R :=
  quad2 S (fst z_act - fst z_exp, snd z_act - snd z_exp).
