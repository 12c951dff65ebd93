(** Enumeration of all arrangements of a duplicate-free list (proof device, not a
    model of any source file). *)
From Coq Require Import List Arith Lia Permutation Factorial.
From Verif Require Import ListUtil.
Import ListNotations.
Local Open Scope nat_scope.

Fixpoint enum (k : nat) (cs : list nat) : list (list nat) :=
  match k with
  | 0 => [[]]
  | S k' => flat_map (fun c => map (cons c) (enum k' (remove Nat.eq_dec c cs))) cs
  end.

Lemma remove_perm : forall c cs, NoDup cs -> In c cs -> Permutation cs (c :: remove Nat.eq_dec c cs).
Proof.
  induction cs as [|d cs IH]; simpl; intros Hnd Hin; [tauto|].
  inversion Hnd as [|? ? Hn Hnd']; subst. destruct (Nat.eq_dec c d) as [->|Hne].
  - rewrite notin_remove; auto.
  - destruct Hin as [->|Hin]; [congruence|]. rewrite (IH Hnd' Hin) at 1. apply perm_swap.
Qed.

Lemma remove_nodup : forall c cs, NoDup cs -> NoDup (remove Nat.eq_dec c cs).
Proof.
  induction cs as [|d cs IH]; simpl; intros Hnd; auto. inversion Hnd as [|? ? Hn Hnd']; subst.
  destruct (Nat.eq_dec c d); auto. constructor; auto. intros H. apply in_remove in H. tauto.
Qed.

Lemma remove_len : forall c cs, NoDup cs -> In c cs -> S (length (remove Nat.eq_dec c cs)) = length cs.
Proof. intros. rewrite (Permutation_length (remove_perm c cs H H0)). reflexivity. Qed.

Lemma enum_in : forall k cs p, NoDup cs -> length cs = k -> (In p (enum k cs) <-> Permutation p cs).
Proof.
  induction k as [|k IH]; intros cs p Hnd Hl; simpl.
  - destruct cs; [|discriminate]. split.
    + intros [<-|[]]. constructor.
    + intros H. apply Permutation_sym, Permutation_nil in H. auto.
  - rewrite in_flat_map. split.
    + intros (c & Hc & Hp). apply in_map_iff in Hp. destruct Hp as (q & <- & Hq).
      assert (Hq' : Permutation q (remove Nat.eq_dec c cs)).
      { apply IH; auto; [now apply remove_nodup|]. assert (Hr := remove_len c cs Hnd Hc). lia. }
      rewrite (remove_perm c cs Hnd Hc). now apply perm_skip.
    + intros Hp. destruct p as [|c q].
      { apply Permutation_nil in Hp. subst. discriminate. }
      assert (Hc : In c cs) by (apply (Permutation_in _ Hp); left; auto).
      exists c. split; auto. apply in_map. apply IH.
      * now apply remove_nodup.
      * assert (H := remove_len c cs Hnd Hc). lia.
      * apply Permutation_cons_inv with c. rewrite Hp. now apply remove_perm.
Qed.

Lemma nodup_flat_map : forall (f : nat -> list (list nat)) l, NoDup l ->
  (forall c, In c l -> NoDup (f c)) ->
  (forall c d x, In c l -> In d l -> In x (f c) -> In x (f d) -> c = d) -> NoDup (flat_map f l).
Proof.
  induction l as [|c l IH]; simpl; intros Hnd H1 H2; [constructor|].
  inversion Hnd as [|? ? Hn Hnd']; subst.
  assert (G1 : NoDup (f c)) by (apply H1; auto).
  assert (G2 : NoDup (flat_map f l)) by (apply IH; [auto|intros; apply H1; auto|intros; eapply H2; eauto]).
  assert (G3 : forall x, In x (f c) -> ~ In x (flat_map f l)).
  { intros x Hx Hx'. apply in_flat_map in Hx'. destruct Hx' as (d & Hd & Hx').
    assert (c = d) by (eapply H2; eauto). subst. contradiction. }
  induction (f c) as [|a m IHm]; simpl; auto. inversion G1 as [|? ? Ha G1']; subst. constructor.
  - rewrite in_app_iff. intros [H|H]; [contradiction|]. apply (G3 a); [now left|auto].
  - apply IHm; auto. intros x Hx. apply G3. now right.
Qed.

Lemma enum_nodup : forall k cs, NoDup cs -> length cs = k -> NoDup (enum k cs).
Proof.
  induction k as [|k IH]; intros cs Hnd Hl; simpl.
  - repeat constructor. auto.
  - apply nodup_flat_map; auto.
    + intros c Hc. apply FinFun.Injective_map_NoDup.
      * intros x y H. congruence.
      * apply IH; [now apply remove_nodup|]. assert (H := remove_len c cs Hnd Hc). lia.
    + intros c d x _ _ H1 H2. apply in_map_iff in H1, H2.
      destruct H1 as (q & <- & _), H2 as (q' & E & _). congruence.
Qed.

Lemma enum_length : forall k cs, NoDup cs -> length cs = k -> length (enum k cs) = fact k.
Proof.
  induction k as [|k IH]; intros cs Hnd Hl; auto. cbn [enum].
  assert (G : forall l, (forall c, In c l -> In c cs) ->
     length (flat_map (fun c => map (cons c) (enum k (remove Nat.eq_dec c cs))) l) = length l * fact k).
  { induction l as [|c l IHl]; intros Hin; auto. cbn [flat_map length].
    rewrite app_length, map_length, IHl by (intros; apply Hin; now right).
    rewrite IH; [lia|now apply remove_nodup|]. assert (H := remove_len c cs Hnd (Hin c (or_introl eq_refl))). lia. }
  rewrite G by auto. rewrite Hl. reflexivity.
Qed.

(** Any duplicate-free list of all permutations of 0..n-1 has n! elements. *)
Lemma all_perms_length : forall n ps, NoDup ps -> (forall p, In p ps <-> Permutation p (seq 0 n)) ->
  length ps = fact n.
Proof.
  intros n ps Hnd H. rewrite <- (enum_length n (seq 0 n)); [|apply seq_NoDup|apply seq_length].
  apply Permutation_length. apply NoDup_Permutation; auto.
  - apply enum_nodup; [apply seq_NoDup|apply seq_length].
  - intros p. rewrite H. symmetry. apply enum_in; [apply seq_NoDup|apply seq_length].
Qed.
