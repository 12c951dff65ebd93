(** Vocabulary for C43, C63 and C64. *)
From Coq Require Import ZArith List Bool Arith QArith Qcanon.
From Verif Require Import QcLra PermanentSpec RfsSpec LmbModel.
Import ListNotations.
Local Open Scope Qc_scope.

(** What may have happened to a track: it does not exist, it exists and was missed, or it exists
    and gave measurement z. *)
Inductive status := Gone | Missed | Seen (z : nat).

(** A joint event for k tracks and nZ measurements: no measurement comes from two tracks. *)
Definition event (k nZ : nat) (e : list status) : Prop :=
  length e = k /\ (forall z, In (Seen z) e -> (z < nZ)%nat) /\
  (forall i j z, nth_error e i = Some (Seen z) -> nth_error e j = Some (Seen z) -> i = j).

Definition alive (m : nat) (e : list status) : bool :=
  match nth_error e m with Some Gone => false | Some _ => true | None => false end.

Definition seen (z : nat) (e : list status) : bool :=
  existsb (fun s => match s with Seen y => Nat.eqb y z | _ => false end) e.

(** Track m gave measurement z. *)
Definition gave (m z : nat) (e : list status) : bool :=
  match nth_error e m with Some (Seen y) => Nat.eqb y z | _ => false end.

Section Spec.
Context {G : Type}.
Variable probDet : G -> Qc.
Variable correct : nat -> G -> option (G * Qc).
Variable clutter : nat -> Qc.
Variable thr : Qc.

(** Detection probability of a track, likelihood of a measurement given the track. *)
Definition pd_of (t : track G) : Qc := qsum (map (fun g => fst g * probDet (snd g)) (tG t)).
Definition lik_of (t : track G) (z : nat) : Qc :=
  qsum (map (fun g => match correct z (snd g) with Some (_, l) => l * fst g | None => 0 end) (tG t)).

(** Probability that the track exists and is seen, times likelihood ratio of the measurement to
    clutter; the filter drops values up to its threshold. *)
Definition pair_weight (t : track G) (z : nat) : Qc :=
  let x := tP t * pd_of t * lik_of t z / clutter z in if Qcltb thr x then x else 0.

Definition status_weight (t : track G) (s : status) : Qc :=
  match s with
  | Gone => 1 - tP t
  | Missed => tP t * (1 - pd_of t)
  | Seen z => pair_weight t z
  end.
Fixpoint event_weight (ts : list (track G)) (e : list status) : Qc :=
  match ts, e with
  | t :: ts', s :: e' => status_weight t s * event_weight ts' e'
  | _, _ => 1
  end.

(** [v] is the probability of the events satisfying P, given the measurements. *)
Definition posterior (ts : list (track G)) (nZ : nat) (P : list status -> bool) (v : Qc) : Prop :=
  exists es, NoDup es /\ (forall e, In e es <-> event (length ts) nZ e) /\
  qsum (map (event_weight ts) es) <> 0 /\
  v = qsum (map (event_weight ts) (filter P es)) / qsum (map (event_weight ts) es).
(** [v] is the sum of the weights of all events. *)
Definition evidence (ts : list (track G)) (nZ : nat) (v : Qc) : Prop :=
  exists es, NoDup es /\ (forall e, In e es <-> event (length ts) nZ e) /\ v = qsum (map (event_weight ts) es).

(** A well-formed track. *)
Definition good (t : track G) : Prop :=
  0 <= tP t <= 1 /\ (forall w g, In (w, g) (tG t) -> 0 <= w) /\ qsum (map fst (tG t)) = 1.
(** A track some of whose Gaussians may have been removed. *)
Definition fair (t : track G) : Prop :=
  0 <= tP t <= 1 /\ (forall w g, In (w, g) (tG t) -> 0 <= w) /\ qsum (map fst (tG t)) <= 1.

(** The tracks in view, and their table of likelihoods. *)
Definition visible (ts : list (track G)) : list (track G) := filter (fun t => Qcltb 0 (pd_of t)) ts.
Definition table (ts : list (track G)) (m z : nat) : Qc :=
  match nth_error ts m with Some t => pair_weight t z | None => 0 end.
(** Probability that the track exists and is seen. *)
Definition detect (ts : list (track G)) (m : nat) : Qc :=
  match nth_error ts m with Some t => pd_of t * tP t | None => 0 end.

(** Every group of tracks in view and measurements has at most eight members or at most 200 association
    hypotheses of positive weight. *)
Definition manageable (ts : list (track G)) (nZ : nat) : Prop :=
  forall il jl, component (table (visible ts)) (length (visible ts)) nZ il jl ->
  (length il + length jl <= 8)%nat \/ few 200 (table (visible ts)) (detect (visible ts)) (fun _ => 1) il jl.
End Spec.
