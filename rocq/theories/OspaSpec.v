(** Optimal sub-pattern assignment, stated with partial matchings. *)
From Coq Require Import ZArith List Bool Arith.
Import ListNotations.
Local Open Scope Z_scope.

(** Sum of a list. *)
Definition total_of (l : list Z) : Z := fold_right Z.add 0 l.

(** A set of pairs (index in the first set, index in the second), no index twice. *)
Definition matching (n1 n2 : nat) (M : list (nat * nat)) : Prop :=
  NoDup (map fst M) /\ NoDup (map snd M) /\ forall i j, In (i, j) M -> (i < n1)%nat /\ (j < n2)%nat.

Section Spec.
Context {A : Type}.
Variable d : A -> A -> Z.

(** Distance of a pair, cut off at c. *)
Definition pair_cost (c : Z) (X Y : list A) (ij : nat * nat) : Z :=
  match nth_error X (fst ij), nth_error Y (snd ij) with
  | Some x, Some y => Z.min c (d x y)
  | _, _ => c
  end.

(** Cost of a matching of order p: p-th powers of the cut-off distances of the pairs, and c^p
    for every element of the larger set without partner. *)
Definition match_cost (p : nat) (c : Z) (X Y : list A) (M : list (nat * nat)) : Z :=
  total_of (map (fun ij => pair_cost c X Y ij ^ Z.of_nat p) M) +
  c ^ Z.of_nat p * (Z.of_nat (Nat.max (length X) (length Y)) - Z.of_nat (length M)).

(** v is the least cost of a matching. *)
Definition least (p : nat) (c : Z) (X Y : list A) (v : Z) : Prop :=
  (exists M, matching (length X) (length Y) M /\ match_cost p c X Y M = v) /\
  forall M, matching (length X) (length Y) M -> v <= match_cost p c X Y M.

(** A metric on the elements. *)
Definition metric : Prop :=
  (forall x y, 0 <= d x y) /\ (forall x y, d x y = 0 <-> x = y) /\
  (forall x y, d x y = d y x) /\ (forall x y z, d x z <= d x y + d y z).
End Spec.
