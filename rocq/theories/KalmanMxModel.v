(** The linear algebra of KalmanFilter::correct for matrices of any size over any ordered
    field (include/KalmanFilter.hpp:249-252, 309-311 and 323).

    Simplifications.  Field arithmetic is exact.  The expected measurement is the mean, the
    covariance S, its inverse (Eigen's inverse; getCovInv, include/KalmanFilter.hpp:244) and
    the Jacobian H; S is H P H^T plus the remaining noise, as every measurement model of the
    library computes it (e.g. src/MeasurementModel_XY.cpp:102). *)
From mathcomp Require Import all_ssreflect all_algebra.
Set Implicit Arguments.
Unset Strict Implicit.
Unset Printing Implicit Defensive.
Import Order.Theory GRing.Theory Num.Theory.
Local Open Scope ring_scope.

Section Mx.
Variable F : realFieldType.
Variables n m : nat.

(** K = P * H.transpose() * S_inv, include/KalmanFilter.hpp:249 and 309. *)
Definition gain (P : 'M[F]_n) (H : 'M[F]_(m, n)) (Sinv : 'M[F]_m) : 'M[F]_(n, m) :=
  P *m H^T *m Sinv.

(** P_updated, include/KalmanFilter.hpp:250-251 and 310-311. *)
Definition cov_updated (P : 'M[F]_n) (K : 'M[F]_(n, m)) (H : 'M[F]_(m, n)) : 'M[F]_n :=
  let P1 := (1%:M - K *m H) *m P in
  2%:R^-1 *: (P1 + P1^T).

(** m_updated, include/KalmanFilter.hpp:252 and 323. *)
Definition mean_updated (x : 'cV[F]_n) (K : 'M[F]_(n, m)) (innov : 'cV[F]_m) : 'cV[F]_n :=
  x + K *m innov.

(** Innovation covariance of a measurement model: the landmark part and everything else
    (pose part and R_), src/MeasurementModel_XY.cpp:102. *)
Definition innov_cov (P : 'M[F]_n) (H : 'M[F]_(m, n)) (N : 'M[F]_m) : 'M[F]_m :=
  H *m P *m H^T + N.

(** Landmark with mean and covariance; one accepted correction
    (include/KalmanFilter.hpp:242-254) with noise N, Jacobian H and innovation i. *)
Definition correct_mx (l : 'cV[F]_n * 'M[F]_n) (H : 'M[F]_(m, n)) (N : 'M[F]_m) (i : 'cV[F]_m)
    : 'cV[F]_n * 'M[F]_n :=
  let K := gain l.2 H (invmx (innov_cov l.2 H N)) in
  (mean_updated l.1 K i, cov_updated l.2 K H).

(** A sensor whose expected measurement is H x + b, as MeasurementModel_Rng1D
    (src/MeasurementModel_Rng1D.cpp:83-84) and, for a fixed pose, MeasurementModel_XY
    (src/MeasurementModel_XY.cpp:92-97) are: one reading is H, N, b and the measurement.  The
    corrections of include/KalmanFilter.hpp:218-268 one after the other. *)
Record reading := Reading { r_H : 'M[F]_(m, n); r_N : 'M[F]_m; r_b : 'cV[F]_m; r_z : 'cV[F]_m }.
(** Part of the above, src/MeasurementModel_Rng1D.cpp:83-84, src/MeasurementModel_XY.cpp:92-97, include/KalmanFilter.hpp:218-268. *)
Definition correct_lin (l : 'cV[F]_n * 'M[F]_n) (r : reading) : 'cV[F]_n * 'M[F]_n :=
  correct_mx l (r_H r) (r_N r) (r_z r - (r_H r *m l.1 + r_b r)).
(** Part of the above, src/MeasurementModel_Rng1D.cpp:83-84, src/MeasurementModel_XY.cpp:92-97, include/KalmanFilter.hpp:218-268. *)
Definition run_lin (rs : seq reading) (l : 'cV[F]_n * 'M[F]_n) : 'cV[F]_n * 'M[F]_n :=
  foldl correct_lin l rs.

End Mx.
