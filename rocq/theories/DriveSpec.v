(** Vocabulary for C149-C162. *)
From Coq Require Import Reals ZArith List Bool Arith.
From Verif Require Import SensorModel OdometryModel.
Import ListNotations.
Local Open Scope R_scope.

(** Directions that differ by whole turns. *)
Definition same_direction (a b : R) : Prop := exists k : Z, a = b + IZR k * (2 * PI).

(** Pose b is pose a after the displacement u, given in the frame of a. *)
Definition moved_by (u : odo2) (a b : pose2) : Prop :=
  p_x b = p_x a + (o_x u * cos (p_t a) - o_y u * sin (p_t a)) /\
  p_y b = p_y a + (o_x u * sin (p_t a) + o_y u * cos (p_t a)) /\
  same_direction (p_t b) (p_t a + o_t u).
(** The landmark is at range and bearing z from pose p. *)
Definition located (z : R * R) (p : pose2) (l : R * R) : Prop :=
  fst l = p_x p + fst z * cos (p_t p + snd z) /\ snd l = p_y p + fst z * sin (p_t p + snd z).

(** ** Sums over a trajectory and over scans *)
Section Sums.
Context {X U Y W : Type}.
(** Over successive elements of a trajectory and the displacement between them. *)
Fixpoint chain_sum (f : U -> X -> X -> R) (xs : list X) (us : list U) : R :=
  match xs, us with
  | x :: (y :: _) as r, u :: us' => f u x y + chain_sum f (tl xs) us'
  | _, _ => 0
  end.
(** Over the measurements of a scan that belong to a landmark; associations below zero do not. *)
Definition scan_sum (f : W -> X -> Y -> R) (x : X) (ls : list Y) (s : list (W * Z)) : R :=
  fold_right (fun zd r => match (if Z.ltb (snd zd) 0 then None else nth_error ls (Z.to_nat (snd zd))) with
                          | Some l => f (fst zd) x l + r
                          | None => r
                          end) 0 s.
(** Over all scans, scan k with pose k. *)
Fixpoint scans_sum (f : W -> X -> Y -> R) (xs : list X) (ls : list Y) (ss : list (list (W * Z))) : R :=
  match xs, ss with
  | x :: xs', s :: ss' => scan_sum f x ls s + scans_sum f xs' ls ss'
  | _, _ => 0
  end.
(** Every association is to one of n landmarks or negative. *)
Definition assoc_within (n : nat) (ss : list (list (W * Z))) : Prop :=
  forall s z da, In s ss -> In (z, da) s -> (da < Z.of_nat n)%Z.
End Sums.

(** ** Densities of the line *)
(** Logarithm of the density of a normal variable with variance v at distance e from its mean. *)
Definition log_normal (v e : R) : R := - (e * e) / (2 * v) - ln (sqrt (2 * PI * v)).
(** That of a trajectory and a map given displacements and measurements, with variances q and r. *)
Definition log_posterior (q r : R) (xs ls us : list R) (ss : list (list (R * Z))) : R :=
  chain_sum (fun u x y => log_normal q (y - x - u)) xs us + scans_sum (fun z x l => log_normal r (l - x - z)) xs ls ss.

(** ** Trajectories *)
(** States after every displacement. *)
Fixpoint path {X U : Type} (step : X -> U -> X) (x : X) (us : list U) : list X :=
  match us with [] => [] | u :: r => step x u :: path step (step x u) r end.

(** ** Layout of the parameters in the plane *)
Definition pose_comps (p : pose2) : list R := [p_x p; p_y p; p_t p].
Definition point_comps (l : R * R) : list R := [fst l; snd l].
Definition params_2d (ps : list pose2) (ls : list (R * R)) : list R := concat (map pose_comps ps) ++ concat (map point_comps ls).

(** ** Measurements *)
(** Sample of a landmark l from position x with noise w and detection draw u: both the true and the
    sampled distance are within the limits and the draw does not exceed the probability. *)
Definition hits (c : scfg) (x l w u z : R) : Prop :=
  z = l - x + w /\ s_min c <= Rabs (l - x) <= s_max c /\ s_min c <= Rabs z <= s_max c /\ u <= s_pd c.

(** ** Iterations *)
(** The numbers a, a + 1, ..., a + n - 1. *)
Fixpoint count_up (a : Z) (n : nat) : list Z := match n with O => [] | S m => a :: count_up (a + 1) m end.
(** Iteration i of a swarm: the solver is asked every so many iterations, then the particle moves. *)
Section Logged.
Context {T L : Type}.
Variable lik : T -> L.
Variables opt move : Z -> T -> T.
Variable every : Z.
Definition asked (i : Z) (t : T) : T := if (0 <? every)%Z && (i mod every =? 0)%Z then opt i t else t.
(** Solutions after the iterations in the list. *)
Definition after (is : list Z) (t : T) : T := fold_left (fun t i => move i (asked i t)) is t.
(** Row of iteration i: likelihood of the solution before the move, solution after it. *)
Definition row_of (t0 : T) (i : nat) : Z * option L * T :=
  let t := after (count_up 1 i) t0 in
  let p := asked (Z.of_nat (S i)) t in (Z.of_nat (S i), Some (lik p), move (Z.of_nat (S i)) p).
End Logged.

(** Trajectories of a swarm: initial ones, and those a move makes of a trajectory, a recorded best and
    the recorded best of another particle. *)
Inductive roams (mv : (nat -> R * R) -> list (R * R) -> list (R * R) -> option (list (R * R)) -> list (R * R))
  (init : list (R * R) -> Prop) : list (R * R) -> Prop :=
| roams_init : forall t, init t -> roams mv init t
| roams_own : forall r t b, roams mv init t -> roams mv init b -> roams mv init (mv r t b None)
| roams_other : forall r t b g, roams mv init t -> roams mv init b -> roams mv init g -> roams mv init (mv r t b (Some g)).

(** ** Weighted squared errors in the plane *)
(** The representative of a direction in [-pi, pi). *)
Definition principal_error (err : R -> R) : Prop := forall a, - PI <= err a < PI /\ same_direction (err a) a.
(** Displacement from a to b in the frame of a, compared with u. *)
Definition pose_error (err : R -> R) (vx vy vt : R) (u : odo2) (a b : pose2) : R :=
  let dx := p_x b - p_x a in let dy := p_y b - p_y a in
  (cos (p_t a) * dx + sin (p_t a) * dy - o_x u) ^ 2 / vx + (- sin (p_t a) * dx + cos (p_t a) * dy - o_y u) ^ 2 / vy +
  (err (p_t b - (p_t a + o_t u))) ^ 2 / vt.
(** Range and bearing of l from p, compared with z. *)
Definition obs_error (err : R -> R) (vr vb : R) (z : R * R) (p : pose2) (l : R * R) : R :=
  let dx := fst l - p_x p in let dy := snd l - p_y p in
  (sqrt (dx ^ 2 + dy ^ 2) - fst z) ^ 2 / vr + (err (atan2 dy dx - (p_t p + snd z))) ^ 2 / vb.

(** Component-wise sum. *)
Definition vsum (a b : list R) : list R := map (fun q => fst q + snd q) (combine a b).
