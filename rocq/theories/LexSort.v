(** A concrete priority queue for the examples (insertion sort, largest score first), and
    consequences of LexProofs2. *)
From Coq Require Import ZArith List Bool Arith Lia Permutation Sorted Factorial.
From Verif Require Import Base HungarianModel AssignSpec LexModel LexSpec LexProofs2.
Import ListNotations.
Local Open Scope Z_scope.

(** Stands for std::priority_queue, used at src/BruteForceAssignment.cpp:106,111-116. *)
Fixpoint insert (x : list nat * Z) (l : list (list nat * Z)) : list (list nat * Z) :=
  match l with
  | [] => [x]
  | y :: r => if snd x <=? snd y then y :: insert x r else x :: l
  end.
(** As above. *)
Definition isort (l : list (list nat * Z)) : list (list nat * Z) := fold_right insert [] l.

Lemma insert_perm : forall x l, Permutation (x :: l) (insert x l).
Proof.
  intros x l. induction l as [|y l IH]; simpl; auto. destruct (snd x <=? snd y); auto.
  eapply perm_trans; [apply perm_swap|]. now constructor.
Qed.

Lemma insert_sorted : forall x l, StronglySorted (fun a b => snd b <= snd a) l ->
  StronglySorted (fun a b => snd b <= snd a) (insert x l).
Proof.
  intros x l. induction l as [|y l IH]; simpl; intros H.
  - constructor; constructor.
  - inversion H as [|? ? Hs Hf]; subst. destruct (snd x <=? snd y) eqn:E.
    + apply Z.leb_le in E. constructor; auto. apply Forall_forall. intros z Hz.
      apply (Permutation_in _ (Permutation_sym (insert_perm x l))) in Hz. destruct Hz as [<-|Hz]; auto.
      rewrite Forall_forall in Hf. auto.
    + apply Z.leb_gt in E. constructor; auto. constructor; [lia|]. rewrite Forall_forall in Hf |- *.
      intros z Hz. specialize (Hf z Hz). lia.
Qed.

Lemma isort_ok : pq_contract isort.
Proof.
  intros l. induction l as [|x l [IH1 IH2]]; simpl.
  - split; constructor.
  - split; [|now apply insert_sorted]. eapply perm_trans; [|apply insert_perm]. now constructor.
Qed.

Lemma lex_empty : forall b, next (lex_new 0 0 b) = UB OutOfBounds.
Proof. intros [|]; reflexivity. Qed.

Lemma brute_max : forall pq, pq_contract pq -> forall fuel C n, (n <> 0)%nat -> (fact n < fuel)%nat ->
  exists res, brute pq fuel C n true = Val (C, res) /\
  length res = fact n /\ NoDup (map fst res) /\
  (forall a, In a (map fst res) <-> assignment n a) /\
  (forall a s, In (a, s) res -> s = score C a) /\
  StronglySorted (fun x y => better true (snd x) (snd y)) res.
Proof.
  intros pq Hpq fuel C n Hn Hf. destruct (brute_ok pq Hpq fuel C n true Hn Hf)
    as (C' & res & E & H1 & H2 & H3 & H4 & H5 & H6 & _).
  rewrite (H6 eq_refl) in E. exists res. repeat (split; [assumption|]). exact H5.
Qed.
