(** Vocabulary for C12-C14 (reduction of assignment problems). *)
From Coq Require Import ZArith List Bool Arith Permutation.
From Verif Require Import AssignSpec.
Import ListNotations.
Local Open Scope Z_scope.

(** Lower (minVal) or upper limit applied to an entry. *)
Definition clamp (lim : Z) (minVal : bool) (v : Z) : Z :=
  if minVal then Z.max lim v else Z.min lim v.
Definition clamped (n : nat) (lim : Z) (minVal : bool) (C : nat -> nat -> Z) (x y : nat) : Z :=
  if (Nat.ltb x n && Nat.ltb y n)%bool then clamp lim minVal (C x y) else C x y.

(** The entry is strictly better than the limit. *)
Definition beyond (lim : Z) (minVal : bool) (v : Z) : Prop :=
  if minVal then lim < v else v < lim.

(** (i, j) is the only entry beyond the limit in its row and in its column. *)
Definition forced (C : nat -> nat -> Z) (n : nat) (lim : Z) (minVal : bool) (i j : nat) : Prop :=
  (i < n)%nat /\ (j < n)%nat /\ beyond lim minVal (C i j) /\
  (forall j', (j' < n)%nat -> j' <> j -> ~ beyond lim minVal (C i j')) /\
  (forall i', (i' < n)%nat -> i' <> i -> ~ beyond lim minVal (C i' j)).

(** The fixed pairs of a partial assignment given as a table of options. *)
Definition pairs (n : nat) (f : nat -> option nat) : list (nat * nat) :=
  flat_map (fun x => match f x with Some y => [(x, y)] | None => [] end) (seq 0 n).

Definition total (D : nat -> nat -> Z) (ps : list (nat * nat)) : Z :=
  fold_right (fun p s => D (fst p) (snd p) + s) 0 ps.

(** The fixed pairs and the remaining rows imap / columns jmap use every row and
    every column exactly once, fs is the score of the fixed pairs and Cr the
    remaining square matrix. *)
Definition splits (D : nat -> nat -> Z) (n : nat) (f : nat -> option nat) (fs : Z)
    (nr : nat) (Cr : nat -> nat -> Z) (imap jmap : list nat) : Prop :=
  length imap = nr /\ length jmap = nr /\
  Permutation (map fst (pairs n f) ++ imap) (seq 0 n) /\
  Permutation (map snd (pairs n f) ++ jmap) (seq 0 n) /\
  fs = total D (pairs n f) /\
  forall i j x y, nth_error imap i = Some x -> nth_error jmap j = Some y -> Cr i j = D x y.

(** [a] consists of the fixed pairs and of the pairs selected by [r] in the
    remaining matrix. *)
Definition completes (n : nat) (f : nat -> option nat) (imap jmap r a : list nat) : Prop :=
  (forall x y, (x < n)%nat -> f x = Some y -> nth_error a x = Some y) /\
  (forall k x, nth_error imap k = Some x -> exists q y,
     nth_error r k = Some q /\ nth_error jmap q = Some y /\ nth_error a x = Some y).
