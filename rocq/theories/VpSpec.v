(** Words for the statements about the tree sensor (C122-C128). *)
From Coq Require Import Reals List Bool ZArith.
From Verif Require Import VpModel.
Import ListNotations.
Local Open Scope R_scope.

(** The direction of beam k: two beams to a degree. *)
Definition beam_angle (k : Z) : R := IZR k * (PI / 360).

(** A ray at an angle delta from the centre of a circle of the given radius at the given distance
    meets the circle in front of the sensor. *)
Definition meets (distance radius delta : R) : Prop :=
  Rabs (distance * sin delta) <= radius /\ 0 < cos delta.

(** Beam b of the scan is not blocked before [from]; 0 stands for no echo. *)
Definition unblocked (scan : list R) (from : R) (b : Z) : bool :=
  match nth_error scan (Z.to_nat b) with
  | Some v => if Rlt_dec from v then true else if Req_EM_T v 0 then true else false
  | None => false
  end.
(** How many of the n beams from beam b on, around the circle of 720, are not blocked. *)
Definition unblocked_beams (scan : list R) (from : R) (b : Z) (n : nat) : nat :=
  length (filter (fun i => unblocked scan from ((b + Z.of_nat i) mod 720)) (seq 0 n)).

(** Cross product of two points given by range and direction. *)
Definition cross (r a r' a' : R) : R := (r * cos a) * (r' * sin a') - (r * sin a) * (r' * cos a').
(** Area (shoelace formula) between the sensor and the ends of the beams k, k+1, ... *)
Fixpoint fan (k : Z) (l : list R) : R :=
  match l with
  | x :: ((y :: _) as l') => cross x (beam_angle k) y (beam_angle (k + 1)) / 2 + fan (k + 1) l'
  | _ => 0
  end.
(** Area of the polygon through the ends of all beams of a scan all around. *)
Definition polygon (l : list R) : R :=
  fan 0 l + cross (last l 0) (beam_angle (Z.of_nat (length l) - 1)) (hd 0 l) (beam_angle 0) / 2.

(** Range and bearing within the limits of the configuration. *)
Definition within (c : vcfg) (z : circ) : Prop :=
  c_bmin c <= m_b z <= c_bmax c /\ c_rmin c <= m_r z <= c_rmax c.

(** The table of detection probabilities at a number of beams, the last entry for more. *)
Definition table_at (tab : list R) (k : nat) : R := nth (Nat.min k (length tab - 1)) tab 0.

(** The number of beams [n] on a tree with half angle [g] at bearing [b], the first one with number [k0]. *)
Definition covers (b g : R) (k0 : Z) (n : nat) : Prop :=
  b - g <= beam_angle k0 < b - g + PI / 360 /\ INR n * (PI / 360) <= 2 * g < (INR n + 1) * (PI / 360).
