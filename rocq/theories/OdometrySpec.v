(** Specification for the process models: rigid motions and composed displacements. *)
From Coq Require Import Reals ZArith List.
From Coquelicot Require Import Coquelicot.
From Verif Require Import SensorModel OdometryModel.
Import ListNotations.
Local Open Scope R_scope.

(** Where a point given in the frame of a pose (or of a displacement) is in the frame the
    pose is given in: turn by the heading, then shift. *)
Definition place (x y a : R) (pt : R * R) : R * R :=
  (x + (cos a * fst pt - sin a * snd pt), y + (sin a * fst pt + cos a * snd pt)).

(** First u, then w. *)
Definition compose2 (u w : odo2) : odo2 :=
  let q := place (o_x u) (o_y u) (o_t u) (o_x w, o_y w) in
  O2 (fst q) (snd q) (o_t u + o_t w).
Fixpoint compose_all (u : odo2) (us : list odo2) : odo2 :=
  match us with
  | [] => u
  | w :: r => compose2 u (compose_all w r)
  end.

(** The same in space; the rotation as the usual matrix of a unit quaternion. *)
Definition rotate (q : quat) (v : v3) : v3 :=
  let r := mapp 3 (to_matrix q) (vec_of [a_x v; a_y v; a_z v]) in
  V3 (r 0%nat) (r 1%nat) (r 2%nat).
Definition place6 (p : pose6) (pt : v3) : v3 := add3 (r_p p) (rotate (r_q p) pt).
Definition unit (q : quat) : Prop := qnorm2 q = 1.
Definition not_zero (q : quat) : Prop := qnorm2 q <> 0.

Definition sum_z (l : list Z) : Z := fold_right Z.add 0%Z l.

(** A smooth motion of a pose in the plane, without a landmark. *)
Definition moves3 (x y a : R -> R) (t : R) (d : vec) : Prop :=
  is_derive x t (d 0%nat) /\ is_derive y t (d 1%nat) /\ is_derive a t (d 2%nat).

(** Steps in place, one after the other. *)
Fixpoint run {St In : Type} (step : rv St -> rv St -> In -> Z -> bool -> Base.outcome (rv St * option mx))
    (s : rv St) (l : list (In * Z)) : Base.outcome (rv St) :=
  match l with
  | [] => Base.Val s
  | (u, dT) :: r => Base.obind (step s s u dT false) (fun s' => run step (fst s') r)
  end.
