(** The Kalman correction for landmarks and measurements of any dimension. *)
From mathcomp Require Import all_ssreflect all_algebra.
From Verif Require Import KalmanMxModel KalmanMxSpec KalmanMxProofs.
Set Implicit Arguments.
Unset Strict Implicit.
Unset Printing Implicit Defensive.
Import Order.Theory GRing.Theory Num.Theory.
Local Open Scope ring_scope.

(** * C48, any dimension *)

(** The corrected covariance is symmetric, positive semidefinite and not larger than the prior
    one in any direction. *)
Theorem C48_matrix : forall (F : realFieldType) (n m : nat) (x : 'cV[F]_n) (P : 'M[F]_n)
    (H : 'M[F]_(m, n)) (N : 'M[F]_m) (i : 'cV[F]_m),
  symmetric P -> psd P -> symmetric N -> posdef N ->
  let P' := (correct_mx (x, P) H N i).2 in
  symmetric P' /\ forall v, 0 <= qform P' v /\ qform P' v <= qform P v.
Proof. exact: cov_bounds. Qed.
Print Assumptions C48_matrix.

(** A sequence of corrections with a sensor that is linear in the landmark is the batch
    estimate in information form. *)
Theorem C48_matrix_run : forall (F : realFieldType) (n m : nat) (rs : seq (reading F n m))
    (l : 'cV[F]_n * 'M[F]_n),
  symmetric l.2 -> psd l.2 -> l.2 \in unitmx ->
  (forall r, List.In r rs -> symmetric (r_N r) /\ posdef (r_N r)) ->
  let f := run_lin rs l in
  [/\ symmetric f.2, psd f.2, f.2 \in unitmx,
      invmx f.2 = invmx l.2 + \sum_(r <- rs) info_mx r
    & invmx f.2 *m f.1 = invmx l.2 *m l.1 + \sum_(r <- rs) info_vec r].
Proof. exact: run_info. Qed.
Print Assumptions C48_matrix_run.

(** The hypotheses hold for the unit matrix (KalmanMxProofs.one_posdef), and so for a prior in
    the plane with two scalar readings of the sum of its coordinates. *)
Definition r_ex (z : rat) : reading rat_realFieldType 2 1 := Reading (const_mx 1) 1%:M 0 (const_mx z).

Example C48_matrix_ex :
  let f := run_lin [:: r_ex 3%:R; r_ex 5%:R] (0, 1%:M) in
  [/\ symmetric f.2, psd f.2, f.2 \in unitmx,
      invmx f.2 = invmx 1%:M + \sum_(r <- [:: r_ex 3%:R; r_ex 5%:R]) info_mx r
    & invmx f.2 *m f.1 = invmx 1%:M *m 0 + \sum_(r <- [:: r_ex 3%:R; r_ex 5%:R]) info_vec r].
Proof.
  apply: C48_matrix_run => /=.
  - exact: trmx1.
  - by apply: posdef_psd; apply: one_posdef.
  - exact: unitmx1.
  - move=> r [<-|[<-|//]]; split; try exact: trmx1; exact: one_posdef.
Qed.
