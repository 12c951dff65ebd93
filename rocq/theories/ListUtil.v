(** Generic list helpers used by the models (array update) and their lemmas.
    Not a model of any source file. *)
From Coq Require Import List Arith Lia Permutation.
Import ListNotations.

(** Array store a[i] = x on an array modelled as a list; out of range is a
    no-op, callers check the index first. *)
Fixpoint upd {A : Type} (l : list A) (i : nat) (a : A) : list A :=
  match l, i with
  | [], _ => []
  | _ :: r, O => a :: r
  | x :: r, S j => x :: upd r j a
  end.

Lemma upd_length : forall A (l : list A) i a, length (upd l i a) = length l.
Proof. induction l; destruct i; simpl; auto. Qed.

Lemma nth_error_upd_eq : forall A (l : list A) i a,
  i < length l -> nth_error (upd l i a) i = Some a.
Proof. induction l; destruct i; simpl; intros; try lia; auto. apply IHl; lia. Qed.

Lemma nth_error_upd_neq : forall A (l : list A) i j a,
  i <> j -> nth_error (upd l i a) j = nth_error l j.
Proof.
  induction l; destruct i; simpl; intros; auto; destruct j; simpl; auto; try congruence.
Qed.

Lemma nth_error_upd : forall A (l : list A) i j a,
  nth_error (upd l i a) j =
  if Nat.eq_dec i j then (if lt_dec i (length l) then Some a else None)
  else nth_error l j.
Proof.
  intros. destruct (Nat.eq_dec i j).
  - subst. destruct (lt_dec j (length l)).
    + now apply nth_error_upd_eq.
    + apply nth_error_None. rewrite upd_length. lia.
  - now apply nth_error_upd_neq.
Qed.

Lemma nth_upd_eq : forall A (l : list A) i a d,
  i < length l -> nth i (upd l i a) d = a.
Proof. intros. apply nth_error_nth. now apply nth_error_upd_eq. Qed.

Lemma nth_upd_neq : forall A (l : list A) i j a d,
  i <> j -> nth j (upd l i a) d = nth j l d.
Proof.
  induction l; destruct i; simpl; intros; auto; destruct j; simpl; auto; try congruence.
Qed.

Lemma upd_split : forall A (l : list A) i x a, nth_error l i = Some x ->
  exists l1 l2, l = l1 ++ x :: l2 /\ length l1 = i /\ upd l i a = l1 ++ a :: l2.
Proof.
  induction l; destruct i; simpl; intros; try discriminate.
  - inversion H; subst. exists [], l. auto.
  - destruct (IHl i x a0 H) as (l1 & l2 & H1 & H2 & H3).
    exists (a :: l1), l2. subst l. simpl. rewrite H3. auto.
Qed.

Lemma upd_app1 : forall A (l1 l2 : list A) i a, i < length l1 ->
  upd (l1 ++ l2) i a = upd l1 i a ++ l2.
Proof. induction l1; simpl; intros; try lia. destruct i; simpl; auto. f_equal. apply IHl1. lia. Qed.

Lemma upd_app2 : forall A (l1 l2 : list A) i a, length l1 <= i ->
  upd (l1 ++ l2) i a = l1 ++ upd l2 (i - length l1) a.
Proof.
  induction l1; simpl; intros. now rewrite Nat.sub_0_r.
  destruct i; try lia. simpl. f_equal. apply IHl1. lia.
Qed.

Lemma map_upd : forall A B (f : A -> B) l i a, map f (upd l i a) = upd (map f l) i (f a).
Proof. induction l; destruct i; simpl; intros; auto. now rewrite IHl. Qed.

Lemma upd_same : forall A (l : list A) i a, nth_error l i = Some a -> upd l i a = l.
Proof. induction l; destruct i; simpl; intros; try congruence. now rewrite IHl. Qed.

Lemma upd_upd : forall A (l : list A) i a b, upd (upd l i a) i b = upd l i b.
Proof. induction l; destruct i; simpl; intros; auto. now rewrite IHl. Qed.

Lemma upd_comm : forall A (l : list A) i j a b, i <> j ->
  upd (upd l i a) j b = upd (upd l j b) i a.
Proof.
  induction l; destruct i, j; simpl; intros; auto; try congruence.
  f_equal. apply IHl. congruence.
Qed.

Lemma list_ext : forall A (l1 l2 : list A),
  (forall i, nth_error l1 i = nth_error l2 i) -> l1 = l2.
Proof.
  induction l1; destruct l2; intros; auto.
  - specialize (H 0). discriminate.
  - specialize (H 0). discriminate.
  - f_equal.
    + specialize (H 0). simpl in H. congruence.
    + apply IHl1. intro i. exact (H (S i)).
Qed.

Lemma nth_error_lt : forall A (l : list A) i x, nth_error l i = Some x -> i < length l.
Proof. intros. apply nth_error_Some. congruence. Qed.

Lemma nth_error_ex : forall A (l : list A) i, i < length l -> exists x, nth_error l i = Some x.
Proof.
  intros. destruct (nth_error l i) eqn:E; eauto. apply nth_error_None in E. lia.
Qed.

Lemma nth_error_skipn : forall A (l : list A) i k, nth_error (skipn i l) k = nth_error l (i + k).
Proof. induction l; intros; destruct i; simpl; auto. now destruct k. Qed.

Lemma nth_error_firstn : forall A (l : list A) i k, k < i -> nth_error (firstn i l) k = nth_error l k.
Proof. induction l; intros; destruct i; simpl; auto; try lia. destruct k; simpl; auto. apply IHl. lia. Qed.
