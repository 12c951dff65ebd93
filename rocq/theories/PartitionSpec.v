(** Vocabulary for C15-C16. *)
From Coq Require Import ZArith List Arith Relations.
Import ListNotations.

(** A row or a column of the matrix. *)
Inductive rc := Row (i : nat) | Col (j : nat).

(** The row and the column of a significant entry are linked ... *)
Inductive link (C : nat -> nat -> Z) (minL : Z) (nR nC : nat) : rc -> rc -> Prop :=
| link_intro : forall i j, i < nR -> j < nC -> (minL < C i j)%Z -> link C minL nR nC (Row i) (Col j).
(** ... and connected means linked by a chain. *)
Definition connected C minL nR nC := clos_refl_sym_trans rc (link C minL nR nC).

Definition in_range (nR nC : nat) (v : rc) : Prop :=
  match v with Row i => i < nR | Col j => j < nC end.

(** Vertex number used by the code for boost. *)
Definition num (nR : nat) (v : rc) : nat := match v with Row i => i | Col j => j + nR end.

(** Contract of boost::connected_components: components are numbered 0..ncc-1, all
    numbers are used, and two vertices get the same number exactly when connected. *)
Definition components_of C minL nR nC (cc : nat -> nat) (ncc : nat) : Prop :=
  (forall u, in_range nR nC u -> cc (num nR u) < ncc) /\
  (forall c, c < ncc -> exists u, in_range nR nC u /\ cc (num nR u) = c) /\
  (forall u v, in_range nR nC u -> in_range nR nC v ->
     (cc (num nR u) = cc (num nR v) <-> connected C minL nR nC u v)).

(** Membership in a block of row indices and column indices. *)
Definition inside (b : list nat * list nat) (v : rc) : Prop :=
  match v with Row i => In i (fst b) | Col j => In j (snd b) end.

(** The block has a significant entry. *)
Definition significant (C : nat -> nat -> Z) (minL : Z) (b : list nat * list nat) : Prop :=
  exists i j, In i (fst b) /\ In j (snd b) /\ (minL < C i j)%Z.

(** Size of the matrix a caller of getPartition asks for. *)
Definition wanted_size (ext : bool) (b : list nat * list nat) : nat * nat :=
  if ext then (length (fst b) + length (snd b), length (fst b) + length (snd b))
  else (length (fst b), length (snd b)).

(** Flag of the first and of the last call for partition p in a history. *)
Fixpoint first_flag (h : list (nat * bool)) (p : nat) : option bool :=
  match h with
  | [] => None
  | (q, e) :: h' => if Nat.eqb q p then Some e else first_flag h' p
  end.
Definition last_flag (h : list (nat * bool)) (p : nat) : option bool := first_flag (rev h) p.

(** The matrix of a partition with columns jl was allocated without, and is
    deleted with, the extension (excess), or the other way round (lost). *)
Definition excess (h : list (nat * bool)) (p : nat) (jl : list nat) : Prop :=
  first_flag h p = Some false /\ last_flag h p = Some true /\ jl <> [].
Definition lost (h : list (nat * bool)) (p : nat) (jl : list nat) : Prop :=
  first_flag h p = Some true /\ last_flag h p = Some false /\ jl <> [].
