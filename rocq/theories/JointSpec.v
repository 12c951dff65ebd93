(** Specification side of C175: the joint innovation of a hypothesis and its covariance. *)
From mathcomp Require Import all_ssreflect all_algebra.
From Verif Require Import JointModel.
Set Implicit Arguments.
Unset Strict Implicit.
Unset Printing Implicit Defensive.
Import Order.Theory GRing.Theory Num.Theory.
Local Open Scope ring_scope.

Section Spec.
Variable F : realFieldType.
Variables r l m : nat.

(** The innovations under one another, oldest first. *)
Fixpoint stack (h : seq (assoc F m)) : 'cV[F]_(dim h) :=
  match h with
  | [::] => 0
  | a :: h' => col_mx (stack h') a.2
  end.

(** The matrix with blocks C i on the diagonal and X i j (i later than j) beside it. *)
Fixpoint joint (X : nat -> nat -> 'M[F]_m) (C : nat -> 'M[F]_m) (h : seq (assoc F m)) : 'M[F]_(dim h) :=
  match h with
  | [::] => 0
  | a :: h' => block_mx (joint X C h') (blocks (X a.1) h')^T (blocks (X a.1) h') (C a.1)
  end.

(** Covariance of the innovations of landmarks i and j: the errors of robot and landmarks seen through the
    Jacobians; the noises of different measurements are independent. *)
Definition true_cross (e : est F r l m) (i j : nat) : 'M[F]_m :=
  e_Hr e i *m e_rr e *m (e_Hr e j)^T + e_Hr e i *m e_rl e j *m (e_Hl e j)^T +
  e_Hl e i *m e_lr e i *m (e_Hr e j)^T + e_Hl e i *m e_ll e i j *m (e_Hl e j)^T.
Definition true_cov (e : est F r l m) (i : nat) : 'M[F]_m := true_cross e i i + e_Q e.

(** x^T S^-1 x. *)
Definition maha (n : nat) (S : 'M[F]_n) (x : 'cV[F]_n) : F := (x^T *m invmx S *m x) 0 0.

(** Every leading block matrix, from the oldest association on, is invertible. *)
Fixpoint regular (X : nat -> nat -> 'M[F]_m) (C : nat -> 'M[F]_m) (h : seq (assoc F m)) : Prop :=
  match h with
  | [::] => True
  | a :: h' => joint X C (a :: h') \in unitmx /\ regular X C h'
  end.

(** Estimates of robot and landmarks that are not correlated. *)
Definition uncorrelated (e : est F r l m) : Prop :=
  (forall i, e_rl e i = 0) /\ (forall i, e_lr e i = 0) /\ (forall i j, i <> j -> e_ll e i j = 0).
End Spec.
