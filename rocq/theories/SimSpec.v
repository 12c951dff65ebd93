(** Notions used to state the properties of the simulators and of the log analysis (C110-C121);
    independent of the functions of SimModel (only its
    record types are used). *)
From Coq Require Import List Arith ZArith QArith Qcanon Reals.
From Verif Require Import QcLra SimModel.
Import ListNotations.

(** A list of steps in increasing order. *)
Definition increasing (ks : list Z) : Prop :=
  forall i j a b, (i < j)%nat -> nth_error ks i = Some a -> nth_error ks j = Some b -> (a < b)%Z.

(** Distance of two points of the plane. *)
Definition dist2 (a b : R * R) : R := sqrt ((fst a - fst b) ^ 2 + (snd a - snd b) ^ 2)%R.

(** Probability that a Poisson variable with the given mean is at most [n]. *)
Definition poisson_cdf (mean : R) (n : nat) : R :=
  sum_f_R0 (fun i => mean ^ i / INR (fact i) * exp (- mean))%R n.

(** Values of drand48: at least 0, below 1. *)
Definition unit_stream (rnd : nat -> Qc) : Prop := forall p, (0 <= rnd p < 1)%Qc.

(** The time of the first measurement of landmark [m] in a list of (time, landmark). *)
Definition first_measured (zs : list (Z * nat)) (m : nat) (t : Z) : Prop :=
  In (t, m) zs /\ forall t', In (t', m) zs -> (t <= t')%Z.
Definition never_measured (zs : list (Z * nat)) (m : nat) : Prop := forall t, ~ In (t, m) zs.

(** The measurements of a time, in the order of the list. *)
Definition at_time {A : Type} (t : Z) (zs : list (Z * A)) : list A :=
  map snd (filter (fun z => (fst z =? t)%Z) zs).

(** A list of stamped values in order of time. *)
Definition time_ordered {A : Type} (zs : list (Z * A)) : Prop :=
  forall i j a b, (i < j)%nat -> nth_error zs i = Some a -> nth_error zs j = Some b -> (fst a <= fst b)%Z.

(** [i] is the first index of a largest weight. *)
Definition heaviest (ws : list Qc) (i : nat) : Prop :=
  exists w, nth_error ws i = Some w /\ (forall j v, nth_error ws j = Some v -> (v <= w)%Qc) /\
  (forall j v, (j < i)%nat -> nth_error ws j = Some v -> (v < w)%Qc).

(** Two angles that describe the same direction. *)
Definition same_direction (a b : R) : Prop := cos a = cos b /\ sin a = sin b.

(** The times of the steps 0 .. kMax-1. *)
Definition step_times (kMax dT : Z) : list Z := map (fun i => (Z.of_nat i * dT)%Z) (seq 0 (Z.to_nat kMax)).

(** The displacement of a segment respects the configured limits. *)
Definition legal (l : limits) (m : motion) : Prop :=
  (l_minx l * l_dt l <= m_x m < l_maxx l * l_dt l /\
   - (l_maxy l * l_dt l) <= m_y m /\ m_y m <= l_maxy l * l_dt l /\
   - (l_maxr l * l_dt l) <= m_r m /\ m_r m <= l_maxr l * l_dt l)%Qc.

(** Limits that make sense. *)
Definition proper (l : limits) : Prop := (0 < l_maxx l /\ 0 <= l_maxy l /\ 0 <= l_maxr l /\ 0 < l_dt l)%Qc.

(** Each pose follows from the previous one by the displacement of its step. *)
Definition follows {pose : Type} (step : pose -> motion -> pose) (x0 : pose) (us : list (Z * motion)) (xs : list (Z * pose)) : Prop :=
  length xs = length us /\
  forall i t u, nth_error us i = Some (t, u) ->
    exists x y, (i = 0%nat /\ x = x0 \/ exists j tx, i = S j /\ nth_error xs j = Some (tx, x)) /\
      nth_error xs i = Some (t, y) /\ y = step x u.

(** Two times that the reader does not confuse. *)
Definition apart (tol t t' : Qc) : Prop := (t + tol <= t' \/ t' + tol <= t)%Qc.
Fixpoint all_apart (tol : Qc) (ts : list Qc) : Prop :=
  match ts with [] => True | t :: ts' => (forall t', In t' ts' -> apart tol t t') /\ all_apart tol ts' end.

