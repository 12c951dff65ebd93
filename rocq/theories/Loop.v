(** Counting loops "for(k = 0; k < n; k++) s = f(k, s)" of C++; not a model of a single source
    line.  Each use cites the loop it stands for. *)
From Coq Require Import Arith Lia.
From Verif Require Import Base.

Fixpoint for_from {S : Type} (f : nat -> S -> outcome S) (k n : nat) (s : S) : outcome S :=
  match n with
  | 0 => Val s
  | Datatypes.S n' => let* s' := f k s in for_from f (Datatypes.S k) n' s'
  end.
Definition for_ {S : Type} (n : nat) (f : nat -> S -> outcome S) (s : S) : outcome S := for_from f 0 n s.

Lemma for_inv : forall {S : Type} (I : nat -> S -> Prop) f n s,
  I 0 s -> (forall k t, k < n -> I k t -> exists t', f k t = Val t' /\ I (Datatypes.S k) t') ->
  exists s', for_ n f s = Val s' /\ I n s'.
Proof.
  intros S I f n s H0 H. unfold for_.
  assert (G : forall d k t, k + d = n -> I k t -> exists s', for_from f k d t = Val s' /\ I n s').
  { induction d as [|d IH]; intros k t E Hk; cbn [for_from].
    - exists t. replace n with k by lia. auto.
    - destruct (H k t ltac:(lia) Hk) as (t' & Et & Ht). rewrite Et. cbn [obind]. apply IH; [lia|exact Ht]. }
  apply (G n 0); [reflexivity|exact H0].
Qed.

(** Loops that cannot fail. *)
Lemma for_val : forall {S : Type} (g : nat -> S -> S) f n s, (forall k t, k < n -> f k t = Val (g k t)) ->
  for_ n f s = Val (Nat.recursion s (fun k t => g k t) n).
Proof.
  intros S g f n s H.
  destruct (for_inv (fun k t => t = Nat.recursion s (fun k t => g k t) k) f n s eq_refl) as (s' & E & ->); [|exact E].
  intros k t Hk ->. exists (g k (Nat.recursion s (fun k t => g k t) k)). split; [apply H; exact Hk|].
  cbn. reflexivity.
Qed.
