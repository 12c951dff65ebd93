(** Specification for the measurement models: motions, and integrals over what a sensor can
    measure. *)
From Coq Require Import Reals.
From Coquelicot Require Import Coquelicot.
From Verif Require Import SensorModel.
Local Open Scope R_scope.

(** Pose and landmark in the plane as functions of a parameter. *)
Record path2 := Path2 { w_x : R -> R; w_y : R -> R; w_t : R -> R; w_u : R -> R; w_v : R -> R }.
Definition pose_at (w : path2) (t : R) : pose2 := P2 (w_x w t) (w_y w t) (w_t w t).
Definition lmk_at (w : path2) (t : R) : R * R := (w_u w t, w_v w t).

(** The velocities at a parameter. *)
Definition moves (w : path2) (t : R) (dp dl : vec) : Prop :=
  is_derive (w_x w) t (dp 0%nat) /\ is_derive (w_y w) t (dp 1%nat) /\ is_derive (w_t w) t (dp 2%nat) /\
  is_derive (w_u w) t (dl 0%nat) /\ is_derive (w_v w) t (dl 1%nat).

(** Integrals of a function of the measurement over everything between the range limits:
    signed ranges, range and bearing, the ring in the plane, the shell in space. *)
Definition over_1d (c : scfg) (f : R -> R) : R :=
  RInt f (- s_max c) (- s_min c) + RInt f (s_min c) (s_max c).
Definition over_rb (c : scfg) (f : R -> R -> R) : R :=
  RInt (fun r => RInt (fun b => f r b) (- PI) PI) (s_min c) (s_max c).
Definition over_ring (c : scfg) (f : R -> R -> R) : R :=
  RInt (fun r => RInt (fun b => f (r * cos b) (r * sin b) * r) (- PI) PI) (s_min c) (s_max c).
Definition over_shell (c : scfg) (f : R -> R -> R -> R) : R :=
  RInt (fun r => RInt (fun a => RInt (fun b =>
    f (r * sin a * cos b) (r * sin a * sin b) (r * cos a) * (r ^ 2 * sin a)) (- PI) PI) 0 PI)
    (s_min c) (s_max c).
