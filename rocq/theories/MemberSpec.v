(** Vocabulary for C89-C94. *)
From Coq Require Import ZArith List Bool Arith QArith Qcanon.
From Verif Require Import Base QcLra PermanentSpec LmbModel LmbSpec MemberModel.
Import ListNotations.
Local Open Scope Qc_scope.

Section Spec.
Context {G : Type}.
Variable probDet : G -> Qc.
Variable correct : nat -> G -> option (G * Qc).
Variable clutter : nat -> Qc.
Notation pd := (pd_of probDet).
Notation lik := (lik_of correct).

(** Proper sensor: probabilities of detection, likelihoods and clutter are what their names say. *)
Definition sensor_ok (nZ : nat) : Prop :=
  (forall g, 0 <= probDet g <= 1) /\ (forall z g g' l, correct z g = Some (g', l) -> 0 <= l) /\
  (forall z, (z < nZ)%nat -> 0 < clutter z).

(** The track may exist, may be detected, and measurement z is possible for it. *)
Definition explains (t : track G) (z : nat) : Prop := 0 < tP t /\ 0 < pd t /\ 0 < lik t z.

(** Equation of the CB-MeMBer filter for the probability of the track of a measurement. *)
Definition cb_num (ts : list (track G)) (z : nat) : Qc :=
  qsum (map (fun t => tP t * (1 - tP t) * (pd t * lik t z) / ((1 - tP t * pd t) * (1 - tP t * pd t))) ts).
Definition cb_den (ts : list (track G)) (z : nat) : Qc :=
  clutter z + qsum (map (fun t => tP t * (pd t * lik t z) / (1 - tP t * pd t)) ts).
(** Sum of the weights of the Gaussians of a new track before normalising. *)
Definition cb_mass (ts : list (track G)) (z : nat) : Qc :=
  qsum (map (fun t => tP t / (1 - tP t) * (pd t * lik t z)) ts).

(** Exact Bayes weight of a joint event: every track is gone, missed or seen, measurements that no
    track gave are clutter. *)
Definition fate (t : track G) (s : status) : Qc :=
  match s with
  | Gone => 1 - tP t
  | Missed => tP t * (1 - pd t)
  | Seen z => tP t * (pd t * lik t z)
  end.
Fixpoint fates (ts : list (track G)) (e : list status) : Qc :=
  match ts, e with
  | t :: ts', s :: e' => fate t s * fates ts' e'
  | _, _ => 1
  end.
Fixpoint false_alarms (nZ : nat) (e : list status) : Qc :=
  match nZ with
  | O => 1
  | S k => (if seen k e then 1 else clutter k) * false_alarms k e
  end.
Definition joint (nZ : nat) (ts : list (track G)) (e : list status) : Qc := fates ts e * false_alarms nZ e.

(** How many of the tracks exist in an event. *)
Fixpoint head_count (e : list status) : Qc :=
  match e with
  | [] => 0
  | Gone :: r => head_count r
  | _ :: r => 1 + head_count r
  end.

(** [v] is the expected number of landmarks given the measurements. *)
Definition expected_count (nZ : nat) (ts : list (track G)) (v : Qc) : Prop :=
  exists es, NoDup es /\ (forall e, In e es <-> event (length ts) nZ e) /\
  qsum (map (joint nZ ts) es) <> 0 /\
  v = qsum (map (fun e => joint nZ ts e * head_count e) es) / qsum (map (joint nZ ts) es).

(** Expected number of landmarks of the map after an update. *)
Definition map_count (u : @updated G) : Qc :=
  qsum (map tP (u_old u)) + qsum (map n_P (new_kept u)).
End Spec.

Section Births.
Variable M : Type.

(** The numbers that particles leave unused are numbers of the measurements of the update. *)
Definition numbers_ok (c : call M) : Prop :=
  match c with
  | Update _ zs f _ => forall id k pe, In (k, pe) (f id) -> (k < length zs)%nat
  | Predict _ => True
  end.

(** No update without measurements comes between an update with measurements and the next
    predict. *)
Fixpoint no_empty_update (pending : bool) (cs : list (call M)) : Prop :=
  match cs with
  | [] => True
  | Update _ [] _ _ :: r => pending = false /\ no_empty_update false r
  | Update _ _ _ _ :: r => no_empty_update true r
  | Predict _ :: r => no_empty_update false r
  end.

(** The births of particle [id] from its unused measurements, last one first. *)
Definition births_of (kind : option Qc) (zs : list M) (id : nat) (us : list (nat * Qc)) (l : list (nat * M * Qc)) : Prop :=
  Forall2 (fun u b => nth_error zs (fst u) = Some (snd (fst b)) /\ fst (fst b) = id /\
                      snd b = match kind with Some pe => pe | None => snd u end) (rev us) l.
End Births.
