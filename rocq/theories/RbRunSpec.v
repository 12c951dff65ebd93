(** Vocabulary for runs of the Rao-Blackwellised filters. *)
From Coq Require Import ZArith QArith Qcanon List Bool Arith.
From Verif Require Import Base QcLra ParticleModel ParticleSpec RbRunModel.
Import ListNotations.
Local Open Scope nat_scope.

(** Calls with whether they resampled. *)
Definition resampled {P D} (k : rcall P D) (s' : rbf P D) : bool :=
  match k with
  | RUpdate nz _ _ _ => (0 <? nz) && match rocc s' with Some b => b | None => false end
  | _ => false
  end.
Inductive rlogged {P D} (c : rcfg) : rbf P D -> list (rcall P D * bool) -> rbf P D -> Prop :=
| rlogged_nil : forall s, rlogged c s [] s
| rlogged_snoc : forall s h s1 k s', rlogged c s h s1 -> rdo c s1 k = Val s' -> rlogged c s (h ++ [(k, resampled k s')]) s'.

(** The history of one particle, on its own: it starts with pose x0, no trajectory, map d0 and
    weight one.  At each call it does what the call prescribes for the slot j it is in; it changes
    its slot only by a resampling, which resets its weight.  The factors g are those by which the
    updates with measurements multiply its weight. *)
Section History.
Context {P D : Type}.
Variable c : rcfg.
Variables (n : nat) (x0 : P) (d0 : D).
Variable g : rcall P D -> nat -> P -> D -> Qc.
Definition live (k : rcall P D) (j : nat) (x : P) (tr : list P) (d : D) : P * list P * D :=
  match k with
  | RPredict birth move stat => (move j x, if rkeep c then x :: tr else tr, stat (birth j x d))
  | RUpdate nz maps _ _ => (x, tr, if nz =? 0 then d else maps j x d)
  | RThreshold _ => (x, tr, d)
  end.
Definition weigh (k : rcall P D) (j : nat) (x : P) (d : D) (w : Qc) : Qc :=
  match k with RUpdate nz _ _ _ => if nz =? 0 then w else (g k j x d * w)%Qc | _ => w end.
Inductive history : list (rcall P D * bool) -> nat -> P * list P * D -> Qc -> Prop :=
| h_start : forall i, i < n -> history [] i (x0, [], d0) 1
| h_stay : forall h k j x tr d w, history h j (x, tr, d) w ->
    history (h ++ [(k, false)]) j (live k j x tr d) (weigh k j x d w)
| h_copy : forall h k j i x tr d w, history h j (x, tr, d) w -> i < n ->
    history (h ++ [(k, true)]) i (live k j x tr d) 1.
End History.

(** Every update of the run multiplies weights by the factors g, which are positive. *)
Definition multiplies {P D} (g : rcall P D -> nat -> P -> D -> Qc) (k : rcall P D) : Prop :=
  match k with
  | RUpdate _ _ wts _ => forall i x d, (0 < g k i x d)%Qc /\ forall w, wts i x d (Some w) = Some (g k i x d * w)%Qc
  | _ => True
  end.

(** Updates and measurements since the last resampling. *)
Fixpoint upd_since {P D} (h : list (rcall P D * bool)) : nat :=
  match h with
  | [] => 0
  | (k, b) :: r => if existsb snd r then upd_since r
                   else match k with RUpdate _ _ _ _ => if b then 0 else 1 | _ => 0 end + upd_since r
  end.
Fixpoint meas_since {P D} (h : list (rcall P D * bool)) : nat :=
  match h with
  | [] => 0
  | (k, b) :: r => if existsb snd r then meas_since r
                   else match k with RUpdate nz _ _ _ => if b then 0 else nz | _ => 0 end + meas_since r
  end.

(** Weights that are numbers stay non-negative; draws are in [0,1). *)
Definition sound_call {P D} (k : rcall P D) : Prop :=
  match k with
  | RUpdate _ _ wts u => (0 <= u < 1)%Qc /\ forall i x d v w, (forall q, v = Some q -> (0 <= q)%Qc) -> wts i x d v = Some w -> (0 <= w)%Qc
  | _ => True
  end.
