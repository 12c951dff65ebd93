(** Vocabulary for C95-C102. *)
From Coq Require Import ZArith List Bool Arith QArith Qcanon.
From Verif Require Import QcLra PermanentSpec RfsSpec.
Import ListNotations.
Local Open Scope Qc_scope.

(** Intensity a measurement is explained with if it belongs to no landmark: that of the clutter,
    at least e, if the association is unknown, one if it is known to be a false alarm, e if it is
    known to belong to a landmark. *)
Definition counted (clu : nat -> Qc) (da : nat -> Z) (e : Qc) (n : nat) : Qc :=
  if Z.eqb (da n) (-1) then (if Qcltb (clu n) e then e else clu n) else if Z.eqb (da n) (-2) then 1 else e.

(** Measurement n may be of landmark m. *)
Definition allowed (da : nat -> Z) (m n : nat) : bool := Z.eqb (da n) (Z.of_nat m) || Z.eqb (da n) (-1).

(** Weight of the pair: likelihood times detection probability, zero if the association is known to
    be another one or the ratio to the alternative (missed and clutter) does not reach the threshold. *)
Definition pair_weight (lik : nat -> nat -> Qc) (pd : nat -> Qc) (clu : nat -> Qc) (da : nat -> Z) (e thr : Qc) (m n : nat) : Qc :=
  let ratio := lik m n * pd m / ((1 - pd m) * counted clu da e n) in
  if allowed da m n && (Qcleb thr ratio && Qcltb e ratio) then lik m n * pd m else 0.

(** Landmarks with a positive detection probability. *)
Definition visible (pd : nat -> Qc) (M : nat) : list nat := filter (fun m => Qcltb 0 (pd m)) (seq 0 M).

(** ** Parameter vector *)
Section Layout.
Context {A : Type}.
(** Every pose has P components. *)
Definition wide (n : nat) (l : list (list A)) : Prop := Forall (fun x => length x = n) l.
End Layout.

(** ** Initial map *)
Section Map.
Context {M : Type}.
(** All measurements in order, with the index of their pose. *)
Fixpoint timed (k : nat) (scans : list (list (M * Z))) : list (nat * M * Z) :=
  match scans with
  | [] => []
  | s :: r => map (fun zd => (k, fst zd, snd zd)) s ++ timed (S k) r
  end.
(** The first measurement that belongs to landmark j. *)
Definition first_of (j : nat) (l : list (nat * M * Z)) : option (nat * M) :=
  match find (fun x => Z.eqb (snd x) (Z.of_nat j)) l with Some (k, z, _) => Some (k, z) | None => None end.
(** The measurements of unknown association, in order. *)
Definition unknown (l : list (nat * M * Z)) : list (nat * M) :=
  map (fun x => fst x) (filter (fun x => Z.eqb (snd x) (-1)) l).
(** Elements whose position is drawn. *)
Fixpoint selected {X : Type} (draw : nat -> bool) (i : nat) (l : list X) : list X :=
  match l with [] => [] | x :: r => if draw i then x :: selected draw (S i) r else selected draw (S i) r end.
(** Number of associated landmarks: one more than the greatest index. *)
Definition count_known (l : list (nat * M * Z)) : nat :=
  fold_right (fun x n => Nat.max (Z.to_nat (snd x + 1)) n) 0%nat l.
End Map.
