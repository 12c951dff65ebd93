(** Vocabulary of the properties of the particle swarm optimiser (C45-C47, C68-C70). *)
From Coq Require Import ZArith List Bool Arith Permutation.
From Verif Require Import Base OspaModel OspaSpec PsoModel.
Import ListNotations.
Local Open Scope nat_scope.

(** The order of log-likelihoods and the greatest element of a list. *)
Definition lle (a b : lik) : Prop :=
  match a, b with NegInf, _ => True | Fin x, Fin y => (x <= y)%Z | Fin _, NegInf => False end.
(** v is the greatest value of l, minus infinity if there is none. *)
Definition greatest (l : list lik) (v : lik) : Prop := (v = NegInf \/ In v l) /\ forall x, In x l -> lle x v.

(** ** Topology *)
(** Every particle informs itself, and all indices are valid. *)
Definition topology_ok (n : nat) (t : list (list nat)) : Prop :=
  length t = n /\ forall r l, nth_error t r = Some l -> In r l /\ forall x, In x l -> x < n.

(** ** Executions *)
Section Runs.
Context {A Tr : Type}.
Variable d : A -> A -> Z.
Variable c : Z.
Variable eval : Tr -> list A -> lik.
Variable plus : A -> A -> A.

(** The value of a particle. *)
Definition value (p : part (A := A) (Tr := Tr)) : lik := eval (traj p) (lms p).

(** Executions from s0: any sequence of evaluateLikelihoods and moveParticles, with every
    distribution of the iterations to threads, every schedule and every outcome of the random draws.
    [h] is the list of what was evaluated, the latest first: for each evaluation the value of every
    particle. *)
Inductive reach (s0 : pso (A := A) (Tr := Tr)) : pso (A := A) (Tr := Tr) -> list (list lik) -> Prop :=
| reach_start : reach s0 s0 []
| reach_move : forall s h rnd g K steer o s', reach s0 s h -> (forall i j, rnd i j < length (parts s)) ->
    moveParticles d c plus rnd g K steer o s = Val s' -> reach s0 s' h
| reach_eval : forall s h ch sched s', reach s0 s h -> Permutation (concat ch) (seq 0 (length (parts s))) ->
    evaluate eval ch sched s = Val s' -> reach s0 s' (map value (parts s) :: h).

(** Everything evaluated for particle i. *)
Definition column (i : nat) (h : list (list lik)) : list lik := map (fun r => nth i r NegInf) h.

(** ** Moving the map *)
(** Landmark i of the particle and landmark j of a best map belong together. *)
Definition together (asg : list nat) (l bl : list A) (i j : nat) : Prop :=
  nth_error asg i = Some j /\ exists x b, nth_error l i = Some x /\ nth_error bl j = Some b /\ (d b x < c)%Z.
(** The partner of landmark i in the best map. *)
Definition partner_of (asg : list nat) (l bl : list A) (i : nat) (m : option A) : Prop :=
  (exists j, together asg l bl i j /\ m = nth_error bl j) \/ ((forall j, ~ together asg l bl i j) /\ m = None).
End Runs.

(** There is a partner. *)
Definition is_some {B : Type} (m : option B) : bool := match m with Some _ => true | None => false end.
(** Landmark i is dropped: a landmark without partner in the own (neighbour's) best map if the draw for it
    says so, and one with a partner in the own best map if the five percent draw says so. *)
Definition deleted {A : Type} (o : draw (A := A)) (mp mg : option A) (i : nat) : bool :=
  (if is_some mp then r5 o i else rp o i) || (if is_some mg then false else rg o i).

(** The pairs kept or added: [ps] numbered from 0 on, those selected by [sel], rewritten by [f]. *)
Definition select {B C : Type} (sel : nat -> bool) (f : nat -> B -> C) (ps : list B) : list C :=
  map (fun q => f (fst q) (snd q)) (filter (fun q => sel (fst q)) (combine (seq 0 (length ps)) ps)).

(** ** Times *)
(** Ascending, equal times allowed. *)
Fixpoint ascending (l : list Z) : Prop :=
  match l with
  | x :: (y :: _) as r => (x <= y)%Z /\ ascending r
  | _ => True
  end.

Section Calls.
Context {I M : Type}.
Variable itime : I -> Z.
Variable mtime : M -> Z.

(** Batches made by any sequence of calls. *)
Inductive built : batch (I := I) (M := M) -> Prop :=
| built_new : built (BT [] [] [])
| built_add : forall b u, built b -> built (addInput itime u b)
| built_set : forall b us, built b -> built (setInputs itime us b)
| built_meas : forall b z b', built b -> addMeasurement mtime z b = Val b' -> built b'.

(** Inputs handed over at once, then any number of measurements. *)
Inductive filled (us : list I) : batch (I := I) (M := M) -> Prop :=
| filled_set : filled us (setInputs itime us (BT [] [] []))
| filled_meas : forall b z b', filled us b -> addMeasurement mtime z b = Val b' -> filled us b'.

(** The position of the first time equal to t. *)
Definition first_at (l : list Z) (t : Z) (k : nat) : Prop := nth_error l k = Some t /\ forall i x, i < k -> nth_error l i = Some x -> x <> t.
End Calls.
