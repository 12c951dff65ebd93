(** Vocabulary for C17-C18. *)
From Coq Require Import ZArith List Bool Arith QArith Qcanon Sorted.
From Verif Require Import QcLra PermanentSpec AssignSpec LexSpec PartitionSpec.
Import ListNotations.
Local Open Scope Qc_scope.

Definition qprod (l : list Qc) : Qc := fold_right Qcmult 1 l.

(** Weight of an association hypothesis h (see [association]): entry m of h is the measurement of
    landmark m, or nZ if it was missed.  Product of the likelihoods of the pairs, of 1 - pd over
    the missed landmarks and of the clutter intensities of the measurements without landmark. *)
Definition hyp_weight (nM nZ : nat) (L : nat -> nat -> Qc) (pd cl : nat -> Qc) (h : list nat) : Qc :=
  qprod (map (fun m => if Nat.ltb (nth m h 0%nat) nZ then L m (nth m h 0%nat) else 1 - pd m) (seq 0 nM)) *
  qprod (map cl (filter (fun z => negb (existsb (Nat.eqb z) h)) (seq 0 nZ))).

(** [v] is the sum of the weights of all association hypotheses. *)
Definition association_sum (nM nZ : nat) (L : nat -> nat -> Qc) (pd cl : nat -> Qc) (v : Qc) : Prop :=
  exists hs, NoDup hs /\ (forall h, In h hs <-> association nM nZ true h) /\
  v = qsum (map (hyp_weight nM nZ L pd cl) hs).

(** The same for the rows il and columns jl only. *)
Definition block_sum (L : nat -> nat -> Qc) (pd cl : nat -> Qc) (il jl : list nat) (v : Qc) : Prop :=
  association_sum (length il) (length jl) (fun a b => L (nth a il 0%nat) (nth b jl 0%nat))
    (fun a => pd (nth a il 0%nat)) (fun b => cl (nth b jl 0%nat)) v.

(** At most k hypotheses of the block have a weight other than zero. *)
Definition few (k : nat) (L : nat -> nat -> Qc) (pd cl : nat -> Qc) (il jl : list nat) : Prop :=
  forall hs, NoDup hs -> (forall h, In h hs -> association (length il) (length jl) true h /\
    hyp_weight (length il) (length jl) (fun a b => L (nth a il 0%nat) (nth b jl 0%nat))
      (fun a => pd (nth a il 0%nat)) (fun b => cl (nth b jl 0%nat)) h <> 0) -> (length hs <= k)%nat.

(** Which entries are positive. *)
Definition support (L : nat -> nat -> Qc) (i j : nat) : Z := if Qcltb 0 (L i j) then 1%Z else 0%Z.

(** Rows il and columns jl form a connected component of the table with a positive entry. *)
Definition component (L : nat -> nat -> Qc) (nM nZ : nat) (il jl : list nat) : Prop :=
  NoDup il /\ NoDup jl /\ (exists i j, In i il /\ In j jl /\ 0 < L i j) /\
  (forall u, inside (il, jl) u -> in_range nM nZ u) /\
  forall u v, inside (il, jl) u -> in_range nM nZ v -> (inside (il, jl) v <-> connected (support L) 0%Z nM nZ u v).

(** Landmarks no measurement of which has a positive likelihood. *)
Definition unseen (nM nZ : nat) (L : nat -> nat -> Qc) : list nat :=
  filter (fun m => forallb (fun z => Qcleb (L m z) 0) (seq 0 nZ)) (seq 0 nM).

(** Detection probabilities with those of the landmarks without possible measurement replaced by
    their complement. *)
Definition swapped (nZ : nat) (L : nat -> nat -> Qc) (pd : nat -> Qc) (m : nat) : Qc :=
  if forallb (fun z => Qcleb (L m z) 0) (seq 0 nZ) then 1 - pd m else pd m.

(** What Murty's algorithm guarantees for a matrix of non-negative weights with a real block of
    nR rows and nC columns (C21, there for integer scores): assignments in order of
    non-increasing weight, no two equal on the real rows, and, if the positive ones leave row i
    unassigned only through column nC + i, all positive ones are represented by one with the
    same real rows and no smaller weight. *)
Definition kbest_contract (kbest : nat -> nat -> (nat -> nat -> Qc) -> list (list nat)) : Prop :=
  forall nR nC E, (forall r c, 0 <= E r c) ->
  (forall a, In a (kbest nR nC E) -> assignment (nR + nC) a) /\
  NoDup (map (firstn nR) (kbest nR nC E)) /\
  StronglySorted (fun a b => product_along E 0 b <= product_along E 0 a) (kbest nR nC E) /\
  ((forall a, assignment (nR + nC) a -> 0 < product_along E 0 a ->
      forall i c, (i < nR)%nat -> nth_error a i = Some c -> (nC <= c)%nat -> c = (nC + i)%nat) ->
   forall b, assignment (nR + nC) b -> 0 < product_along E 0 b ->
   exists a, In a (kbest nR nC E) /\ firstn nR a = firstn nR b /\
     product_along E 0 b <= product_along E 0 a).
