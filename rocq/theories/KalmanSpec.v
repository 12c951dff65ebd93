(** What the theorems about the Kalman filter speak about.  Independent of the model except
    for the record of a mean with its variance. *)
From Coq Require Import List Bool ZArith QArith Qcanon.
From Verif Require Import KalmanModel.
Import ListNotations.
Local Open Scope Qc_scope.

(** x lies between a and b, in either order. *)
Definition between (a b x : Qc) : Prop := (a <= x /\ x <= b) \/ (b <= x /\ x <= a).

(** The elements whose flag is true. *)
Definition taken {A : Type} (l : list A) (flags : list bool) : list A :=
  map fst (filter snd (combine l flags)).

(** Sum of a function over a list. *)
Fixpoint sumf {A : Type} (f : A -> Qc) (l : list A) : Qc :=
  match l with [] => 0 | a :: r => f a + sumf f r end.

(** Information one measurement from a pose carries about a scalar landmark: the inverse of
    the variance of "pose + measurement", and that times "pose + measurement". *)
Definition info (R : Qc) (pz : gauss1 * Qc) : Qc := / (g_var (fst pz) + R).
Definition info_mean (R : Qc) (pz : gauss1 * Qc) : Qc :=
  (g_mean (fst pz) + snd pz) * / (g_var (fst pz) + R).

(** n times x, and the sum of a list of integers. *)
Fixpoint times (n : nat) (x : Qc) : Qc := match n with O => 0 | S k => x + times k x end.
Definition zsum (l : list Z) : Z := fold_right Z.add 0%Z l.
