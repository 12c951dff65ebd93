(** Model of include/ORB.hpp (binary descriptors), and of the descriptor parts of
    include/LandmarkWithDescriptor.hpp, MeasurementWithDescriptor.hpp and
    MeasurementModelWithDescriptor.hpp.

    A std::bitset<256> is the list of its 256 bits, lowest first; std::pow is exact, over the
    rationals.  lrand48 is a stream of integers (its values are between 0 and 2^31 - 1, which the
    theorems that need it assume) read at a position. *)
From Coq Require Import ZArith List Bool QArith Qcanon.
Import ListNotations.

(** The member desc, line 47. *)
Definition bits := list bool.

(** std::bitset<256> from an integer. *)
Definition of_long (v : Z) : bits := map (fun i => Z.testbit v (Z.of_nat i)) (seq 0 256).

(** Operators of std::bitset<256>: shift to higher positions, and the bitwise ones. *)
Definition shl (k : nat) (d : bits) : bits := firstn 256 (repeat false k ++ d).
(** Part of the above, MeasurementModelWithDescriptor.hpp:47. *)
Fixpoint bitwise (f : bool -> bool -> bool) (a b : bits) : bits :=
  match a, b with
  | x :: a', y :: b' => f x y :: bitwise f a' b'
  | _, _ => []
  end.
(** Part of the above, MeasurementModelWithDescriptor.hpp:47. *)
Fixpoint count (d : bits) : nat :=
  match d with
  | [] => 0
  | true :: d' => S (count d')
  | false :: d' => count d'
  end.

(** The loop of lines 51-54, n rounds. *)
Fixpoint fill (s : nat -> Z) (n k : nat) (d : bits) : bits :=
  match n with
  | O => d
  | S n' => fill s n' (S k) (bitwise orb (shl 32 d) (of_long (s k)))
  end.

(** random, lines 49-56: eight draws from position k on. *)
Definition random (s : nat -> Z) (k : nat) : bits := fill s 7 (S k) (of_long (s k)).

(** sample, lines 58-68: 24 draws from position k on. *)
Definition sample (s : nat -> Z) (k : nat) (d : bits) : bits :=
  let mask := random s k in
  let mask := bitwise andb mask (random s (k + 8)) in
  let mask := bitwise andb mask (random s (k + 16)) in
  bitwise xorb d mask.

(** distance, lines 78-80. *)
Definition distance (a b : bits) : nat := count (bitwise xorb a b).

Local Open Scope Qc_scope.

(** The literals 2.10, 1.1 and 2.0. *)
Definition c210 : Qc := Q2Qc (210 # 100).
(** Part of the above, MeasurementModelWithDescriptor.hpp:78-80. *)
Definition c11 : Qc := Q2Qc (11 # 10).
(** Part of the above, MeasurementModelWithDescriptor.hpp:78-80. *)
Definition c2 : Qc := Q2Qc 2.

(** likelihood, lines 69-72. *)
Definition likelihood (a b : bits) : Qc := ((1 / c210) / (1 - 1 / c210)) ^ distance a b * (1 / c11) ^ 32.

(** falseAlarmLikelihood, lines 73-76. *)
Definition false_alarm : Qc := (1 / c2 / (1 - 1 / c210)) ^ 256 * (1 / c11) ^ 32.

(** ** Vectors with descriptors *)

(** LandmarkWithDescriptor<LandmarkType, ORBDescriptor> and MeasurementWithDescriptor: the vector
    and the descriptor; include/LandmarkWithDescriptor.hpp, include/MeasurementWithDescriptor.hpp. *)
Record described (X : Type) := Described { d_vec : X; d_desc : bits }.
Arguments Described {X}. Arguments d_vec {X}. Arguments d_desc {X}.

(** evalGaussianLikelihood of LandmarkWithDescriptor, include/LandmarkWithDescriptor.hpp:47-57:
    likelihood and squared distance.  g is that of the base class; None is a mDist2 that is not
    written. *)
Definition lmk_likelihood {X : Type} (g : X -> X -> Qc * Qc) (a b : described X) : Qc * option Qc :=
  let l := likelihood (d_desc a) (d_desc b) in
  if Qc_eq_dec l 0 then (0, None)
  else (fst (g (d_vec a) (d_vec b)) * l, Some (snd (g (d_vec a) (d_vec b)))).

(** evalGaussianLikelihood of MeasurementWithDescriptor, include/MeasurementWithDescriptor.hpp:48-54. *)
Definition meas_likelihood {X : Type} (g : X -> X -> Qc * Qc) (a b : described X) : Qc * Qc :=
  (fst (g (d_vec a) (d_vec b)) * likelihood (d_desc a) (d_desc b), snd (g (d_vec a) (d_vec b))).

(** clutterIntensity and (inherited) clutterIntensityIntegral of MeasurementModelWithDescriptor,
    include/MeasurementModelWithDescriptor.hpp:135-138. *)
Definition desc_clutter {Z : Type} (c : Z -> Qc) (z : described Z) : Qc := c (d_vec z) * false_alarm.
(** Part of the above, include/MeasurementModelWithDescriptor.hpp:135-138. *)
Definition desc_integral (i : Qc) : Qc := i.

(** measure and inverseMeasure, include/MeasurementModelWithDescriptor.hpp:58-71 and 128-133. *)
Definition desc_measure {P L Z : Type} (m : P -> L -> bool * Z) (p : P) (l : described L) : bool * described Z :=
  let r := m p (d_vec l) in (fst r, Described (snd r) (d_desc l)).
(** Part of the above, include/MeasurementModelWithDescriptor.hpp:58-71 and 128-133. *)
Definition desc_inverse {P L Z : Type} (i : P -> Z -> L) (p : P) (z : described Z) : described L :=
  Described (i p (d_vec z)) (d_desc z).
