(** Specifications for measurements with amplitudes. *)
From Coq Require Import Reals List Bool.
From Verif Require Import ListUtil SensorModel AmpModel.
Import ListNotations.
Local Open Scope R_scope.

(** Density of the normal distribution. *)
Definition normal (mean var a : R) : R := exp (- (a - mean) ^ 2 / (2 * var)) / sqrt (2 * PI * var).
(** Distribution function of the exponential distribution with rate one. *)
Definition exp_cdf (x : R) : R := 1 - exp (- x).

(** A diagonal matrix of size two. *)
Definition diag2 (a b : R) : mx := mx_of [[a; 0]; [0; b]].
(** Cholesky factors of diagonal matrices are the square roots. *)
Definition chol_diag (chol : nat -> mx -> mx) : Prop :=
  forall a b, 0 <= a -> 0 <= b -> chol 2%nat (diag2 a b) = diag2 (sqrt a) (sqrt b).

(** Distance from a pose to a landmark. *)
Definition distance (p : pose2) (l : R * R) : R := sqrt ((fst l - p_x p) ^ 2 + (snd l - p_y p) ^ 2).

(** Values of the objects as a user sees them: range and bearing, covariance, amplitude. *)
Definition value (o : ameas) : (R * R) * mx * R := (a_z o, a_S o, a_amp o).
(** Was object number i constructed from data (true) or as a copy (false)? *)
Definition origin (o : op) : list bool := match o with New _ _ => [true] | Copy _ => [false] | _ => [] end.
Definition origins (p : list op) : list bool := flat_map origin p.

(** One operation on values: copies and assignments copy everything a user can see. *)
Definition exec_value (m : list ((R * R) * mx * R)) (o : op) : list ((R * R) * mx * R) :=
  let get i := nth i m (0, 0, fun _ _ => 0, 0) in
  match o with
  | New z Sx => m ++ [(z, Sx, 1)]
  | Copy i => m ++ [get i]
  | Assign i j => upd m i (get j)
  | SetAmp i a => upd m i (fst (get i), a)
  end.

(** Pose and landmark as used: moved by the noise if asked for. *)
Definition used_pose (chol : nat -> mx -> mx) (p : pose2) (PS : mx) (useP : bool) (s : nat -> R) (k : nat) : pose2 :=
  let d i := dot 3 (chol 3%nat PS i) (fun j => s (k + j)%nat) in
  if useP then P2 (p_x p + d 0%nat) (p_y p + d 1%nat) (p_t p + d 2%nat) else p.
Definition used_lmk (chol : nat -> mx -> mx) (l : R * R) (LS : mx) (useL : bool) (s : nat -> R) (k : nat) : R * R :=
  let d i := dot 2 (chol 2%nat LS i) (fun j => s (k + j)%nat) in
  if useL then (fst l + d 0%nat, snd l + d 1%nat) else l.

