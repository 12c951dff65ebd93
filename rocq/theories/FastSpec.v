(** Vocabulary for C44, C65-C67: what one map update of FastSLAM should do, in terms of the map
    before and after.  No definition of the model of updateMap is used. *)
From Coq Require Import ZArith List Bool Arith QArith Qcanon Sorted.
From Verif Require Import QcLra.
Import ListNotations.
Local Open Scope nat_scope.

Section Spec.
Context {T : Type}.
Variable pdet : T -> Qc * bool.           (* probability of detection, close to the sensing limit *)
Variable logl : T -> option (nat -> Z).   (* log-likelihood of measurement z *)
Variable correct : nat -> T -> option T.  (* Kalman correction *)
Variable inv : nat -> T.                  (* inverse measurement *)
Variable expo : Z -> Qc.
Variable prn : list (Qc * T) -> list (Qc * T). (* removal of unlikely landmarks *)
Variable nZ : nat.
Variable pfa : Qc.
Variable lim : Z.
Variables prior lock : Qc.
Variable pruneT : nat.

Definition in_sight (t : T) : bool := negb (Qc_eq_bool (fst (pdet t)) 0) || snd (pdet t).
Definition loglik (t : T) (z : nat) : Z := match logl t with Some f => f z | None => lim end.

(** Applies f to each element and its index. *)
Definition indexed {A B : Type} (f : nat -> A -> B) (l : list A) : list B :=
  map (fun p => f (fst p) (snd p)) (combine (seq 0 (length l)) l).
Definition total_of {A : Type} (f : nat -> A -> Z) (l : list A) : Z := fold_right Z.add 0%Z (indexed f l).

(** A way to attribute measurements to landmarks: only landmarks in sight, only pairs above the
    limit, no measurement to two landmarks. *)
Definition consistent (M : list (Qc * T)) (a : nat -> option nat) : Prop :=
  (forall k z, a k = Some z -> z < nZ /\
     exists w t, nth_error M k = Some (w, t) /\ in_sight t = true /\ (lim < loglik t z)%Z) /\
  (forall k k' z, a k = Some z -> a k' = Some z -> k = k').

(** How much better than the limit the pairs of a are. *)
Definition gain (M : list (Qc * T)) (a : nat -> option nat) : Z :=
  total_of (fun k g => match a k with Some z => (loglik (snd g) z - lim)%Z | None => 0%Z end) M.

(** Pairs of a landmark and a measurement that have no competitor. *)
Definition candidate_pair (M : list (Qc * T)) (k z : nat) : bool :=
  match nth_error M k with
  | Some (_, t) => in_sight t && (z <? nZ) && (lim <? loglik t z)%Z
  | None => false
  end.
Definition alone (M : list (Qc * T)) (p : nat * nat) : bool :=
  candidate_pair M (fst p) (snd p) &&
  forallb (fun z => (z =? snd p) || negb (candidate_pair M (fst p) z)) (seq 0 nZ) &&
  forallb (fun k => (k =? fst p) || negb (candidate_pair M k (snd p))) (seq 0 (length M)).
Definition settled (M : list (Qc * T)) : list (nat * nat) :=
  filter (alone M) (list_prod (seq 0 (length M)) (seq 0 nZ)).
Definition seen_count (M : list (Qc * T)) : nat := length (filter (fun g => in_sight (snd g)) M).

(** The correction of landmark k under a: measurement used and new landmark. *)
Definition applied (a : nat -> option nat) (k : nat) (t : T) : option (nat * T) :=
  if in_sight t then
    match a k with
    | Some z => match correct z t with Some t' => Some (z, t') | None => None end
    | None => None
    end
  else None.

Definition prior_odds : Qc := (prior / (1 - prior))%Qc.
(** Bayes factors: a landmark that exists gives rise to its measurement with probability pd, and
    otherwise, like one that does not exist, a false alarm may. *)
Definition seen_factor (pd : Qc) : Qc := ((pd + (1 - pd) * pfa) / pfa)%Qc.
Definition missed_factor (pd : Qc) : Qc := (1 - pd)%Qc.

(** Landmark k (odds of existence, state) afterwards. *)
Definition after (a : nat -> option nat) (k : nat) (g : Qc * T) : Qc * T :=
  let '(w, t) := g in
  if in_sight t then
    match applied a k t with
    | Some (_, t') => ((w * (prior_odds * seen_factor (fst (pdet t))))%Qc, t')
    | None => if Qcltb lock w then (w, t) else ((w * (prior_odds * missed_factor (fst (pdet t))))%Qc, t)
    end
  else (w, t).

(** Log-likelihood of the measurements used. *)
Definition evidence (M : list (Qc * T)) (a : nat -> option nat) : Z :=
  total_of (fun k g => match applied a k (snd g) with Some (z, _) => loglik (snd g) z | None => 0%Z end) M.

(** Measurements not used for a landmark. *)
Definition is_used (M : list (Qc * T)) (a : nat -> option nat) (z : nat) : bool :=
  existsb (fun b => b) (indexed (fun k g => match applied a k (snd g) with Some (z', _) => z =? z' | None => false end) M).
Definition left_over (M : list (Qc * T)) (a : nat -> option nat) : list nat :=
  filter (fun z => negb (is_used M a z)) (seq 0 nZ).

(** Weight and map after an update of a particle of weight w under a, when every unused
    measurement starts a landmark. *)
Definition updated (w : Qc) (M : list (Qc * T)) (a : nat -> option nat) : Qc * list (Qc * T) :=
  let M' := indexed (after a) M in
  ((w * expo (evidence M a))%Qc,
   (if pruneT <=? nZ then prn M' else M') ++ map (fun z => (prior_odds, inv z)) (left_over M a)).

(** Associations to try: at most maxN, the best one first, in order, none worse than the best by
    maxDiff or more. *)
Definition ranked (maxDiff : Z) (maxN : nat) (M : list (Qc * T)) (l : list (nat -> option nat)) : Prop :=
  1 <= length l <= maxN /\ (forall a, In a l -> consistent M a) /\
  (forall a, hd_error l = Some a -> (forall b, consistent M b -> (gain M b <= gain M a)%Z) /\
     forall b, In b l -> (gain M a - gain M b < maxDiff)%Z) /\
  StronglySorted (fun a b => (gain M b <= gain M a)%Z) l.

(** Maps on which an update is well defined: probabilities of detection, bounded log-likelihoods
    (big is the weight Murty's algorithm uses for forbidden entries), and at least two rows of
    the table not settled. *)
Definition usable (big hi : Z) (M : list (Qc * T)) : Prop :=
  (forall w t, In (w, t) M -> (0 <= fst (pdet t) <= 1)%Qc) /\
  (forall w t z, In (w, t) M -> (loglik t z <= hi)%Z) /\
  ((Z.of_nat (Nat.max (seen_count M) nZ) - 1) * hi - Z.of_nat (Nat.max (seen_count M) nZ) * lim < big)%Z /\
  S (length (settled M)) < Nat.max (seen_count M) nZ.

(** The particles that replace a particle of weight w and map M when the associations l are
    tried: the weight is shared evenly. *)
Definition branches (w : Qc) (M : list (Qc * T)) (l : list (nat -> option nat)) : list (Qc * list (Qc * T)) :=
  map (updated (w / QcN (length l))%Qc M) l.
End Spec.

(** Existence of one landmark as a two-state Bayes filter: prior probability, then for each scan
    in which it was in range whether it was detected, the probability of detection and the
    probability of a false alarm in its place. *)
Record sighting := Sight { sg_seen : bool; sg_pd : Qc; sg_pfa : Qc }.
Definition sight_exists (e : sighting) : Qc :=
  if sg_seen e then (sg_pd e + (1 - sg_pd e) * sg_pfa e)%Qc else ((1 - sg_pd e) * (1 - sg_pfa e))%Qc.
Definition sight_absent (e : sighting) : Qc := if sg_seen e then sg_pfa e else (1 - sg_pfa e)%Qc.
Definition bayes (p : Qc) (e : sighting) : Qc :=
  (p * sight_exists e / (p * sight_exists e + (1 - p) * sight_absent e))%Qc.
(** A landmark whose odds exceed [lock] is not affected by misses. *)
Definition bayes_lock (lock p : Qc) (e : sighting) : Qc :=
  if negb (sg_seen e) && Qcltb lock (p / (1 - p))%Qc then p else bayes p e.
