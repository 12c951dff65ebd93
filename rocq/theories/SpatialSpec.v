(** What a user of the spatial index relies on: a multiset of points. *)
From Coq Require Import List Bool Arith ZArith QArith Qcanon Permutation.
From Verif Require Import Base ListUtil QcLra SpatialModel.
Import ListNotations.
Local Open Scope Qc_scope.

(** All points stored in a box and below. *)
Fixpoint points (t : tree) : list nat :=
  let 'Box _ _ d _ ch := t in d ++ flat_map points ch.

(** Every box reports the number of points stored in it and below. *)
Definition exact_counts (root : tree) : Prop :=
  forall path b, get_at path root = Some b -> cnt b = Z.of_nat (length (points b)).

(** Closed axis-parallel box. *)
Definition in_closed (qmin qmax x : pos) : Prop := Forall2 Qcle qmin x /\ Forall2 Qcle x qmax.

(** A coordinate that is a multiple of the smallest box size, hence possibly on the face of a box. *)
Definition on_grid (m a : Qc) : Prop := exists z : Z, a = QcZ z * m.

Definition touches_grid (m : Qc) (x : pos) : Prop := exists k a, nth_error x k = Some a /\ on_grid m a.

(** A point on the boundary of the query box in a coordinate that is on the grid. *)
Definition touches (m : Qc) (qmin qmax x : pos) : Prop :=
  exists k a, nth_error x k = Some a /\ on_grid m a /\ (nth_error qmin k = Some a \/ nth_error qmax k = Some a).

(** Square of the Euclidean distance. *)
Fixpoint sqdist (a b : pos) : Qc :=
  match a, b with x :: a', y :: b' => (x - y) * (x - y) + sqdist a' b' | _, _ => 0 end.

Section Spec.
Variable m : Qc.
Variable P : nat -> pos.

(** Effect and answer of one call on the multiset of stored points. *)
Definition allowed (S : list nat) (o : op) (a : answer) (S' : list nat) : Prop :=
  match o with
  | Add d => a = ANone /\ Permutation S' (d :: S)
  | Remove d => (a = ABool true /\ Permutation S (d :: S')) \/
                (a = ABool false /\ Permutation S' S /\ (In d S -> touches_grid m (P d)))
  | Clear => a = ANone /\ S' = []
  | Size => a = ANum (Z.of_nat (length S)) /\ Permutation S' S
  | InBox qmin qmax => Permutation S' S /\ exists l rest, a = AList l /\ Permutation S (l ++ rest) /\
      (forall d, In d l -> in_closed qmin qmax (P d)) /\
      (forall d, In d rest -> in_closed qmin qmax (P d) -> touches m qmin qmax (P d))
  | Closest q => Permutation S' S /\ exists d, a = APoint d /\ In d S /\
      forall e, In e S -> sqdist (P d) q <= sqdist (P e) q
  end.

Inductive history : list nat -> list op -> list answer -> list nat -> Prop :=
| h_nil : forall S S', Permutation S S' -> history S [] [] S'
| h_cons : forall S o a S' l r S'', allowed S o a S' -> history S' l r S'' -> history S (o :: l) (a :: r) S''.

(** Calls for which the index has no defined behaviour. *)
Definition misuse (S : list nat) (o : op) : Prop :=
  match o with
  | Remove d => ~ In d S
  | Closest _ => S = []
  | _ => False
  end.

(** All coordinates have the dimension of the index. *)
Definition dims (n : nat) (o : op) : Prop :=
  match o with
  | InBox a b => length a = n /\ length b = n
  | Closest q => length q = n
  | _ => True
  end.
End Spec.
