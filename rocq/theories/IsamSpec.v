(** Vocabulary for C178 to C182. *)
From Coq Require Import ZArith List Bool Arith QArith Qcanon.
From Verif Require Import Base IsamModel.
Import ListNotations.
Local Open Scope Qc_scope.

(** C is the inverse of the n x n matrix A. *)
Definition inverse_of (n : nat) (A C : mat) : Prop := forall i j, (i < n)%nat -> (j < n)%nat ->
  mmul n A C i j = if Nat.eqb i j then 1 else 0.

(** The motions of a file with their times, and the sightings with the number of the pose. *)
Fixpoint moves (ls : list line) : list (Z * (Qc * Qc * Qc)) :=
  match ls with
  | [] => []
  | LOdometry _ i1 x y th _ _ _ _ _ _ :: r => (i1, (x, y, th)) :: moves r
  | _ :: r => moves r
  end.
Fixpoint sightings (ls : list line) : list (Z * (Qc * Qc)) :=
  match ls with
  | [] => []
  | LLandmark i _ x y _ _ _ :: r => (i, (x, y)) :: sightings r
  | _ :: r => sightings r
  end.

(** Lines that can be read: complete and, if a motion is not between consecutive poses, accepted by the user. *)
Definition readable (answer : Z -> Z -> bool) (l : line) : Prop :=
  match l with
  | LOdometry i0 i1 _ _ _ _ _ _ _ _ _ => i1 = (i0 + 1)%Z \/ answer i0 i1 = true
  | LLandmark _ _ _ _ _ _ _ | LOther => True
  | _ => False
  end.

(** Every sighting comes after the motion that leads to its pose: n motions have been read before. *)
Fixpoint known (n : nat) (ls : list line) : Prop :=
  match ls with
  | [] => True
  | LOdometry _ _ _ _ _ _ _ _ _ _ _ :: r => known (S n) r
  | LLandmark i _ _ _ _ _ _ :: r => (0 <= i <= Z.of_nat n)%Z /\ known n r
  | _ :: r => known n r
  end.

(** The k-th motion leads from pose k to pose k+1. *)
Fixpoint consecutive (k : Z) (ls : list line) : Prop :=
  match ls with
  | [] => True
  | LOdometry i0 i1 _ _ _ _ _ _ _ _ _ :: r => i0 = k /\ i1 = (k + 1)%Z /\ consecutive (k + 1) r
  | _ :: r => consecutive k r
  end.

(** The poses after p that follow from motions. *)
Fixpoint path {P : Type} (step : P -> Qc * Qc * Qc -> P) (p : P) (us : list (Z * (Qc * Qc * Qc))) : list (Z * P) :=
  match us with
  | [] => []
  | (t, u) :: r => (t, step p u) :: path step (step p u) r
  end.

(** The information (its triangular root) of the last motion and of the last sighting of a file. *)
Fixpoint last_motion (ls : list line) (d : option mat) : option mat :=
  match ls with
  | [] => d
  | LOdometry _ _ _ _ _ xx xy xt yy yt hh :: r => last_motion r (Some (upper3 xx xy xt yy yt hh))
  | _ :: r => last_motion r d
  end.
Fixpoint last_sighting (ls : list line) (d : option mat) : option mat :=
  match ls with
  | [] => d
  | LLandmark _ _ _ _ xx xy yy :: r => last_sighting r (Some (upper2 xx xy yy))
  | _ :: r => last_sighting r d
  end.

(** The numbers of a list of points. *)
Definition numbers (ps : list (Qc * Qc)) : list Qc := flat_map (fun p => [fst p; snd p]) ps.
