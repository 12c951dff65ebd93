(** Pruning in place: which tracks are left, and when it is undefined. *)
From Coq Require Import ZArith QArith Qcanon List Bool Arith Lia Permutation.
From Verif Require Import Base ListUtil MemberRunModel ExactSpec.
Import ListNotations.
Local Open Scope nat_scope.

Section Drop.
Context {A : Type}.
Variables holds low : A -> bool.
Notation stays := (filter (fun x => negb (low x))).

Lemma move_self : forall (l r : list A) x, move holds (l ++ x :: r) (length l) (length l) = if holds x then UB UseAfterFree else Val (l ++ x :: r).
Proof.
  intros l r x. unfold move. rewrite nth_error_app2 by lia. rewrite Nat.sub_diag. cbn [nth_error of_option obind]. rewrite Nat.eqb_refl. cbn [andb].
  destruct (holds x); [reflexivity|]. f_equal. rewrite upd_app2 by lia. rewrite Nat.sub_diag. reflexivity.
Qed.
Lemma move_last : forall (l m r : list A) x y, move holds (l ++ x :: m ++ y :: r) (length l + S (length m)) (length l) = Val (l ++ y :: m ++ y :: r).
Proof.
  intros l m r x y. unfold move. rewrite nth_error_app2 by lia. replace (length l + S (length m) - length l) with (S (length m)) by lia.
  cbn [nth_error]. rewrite nth_error_app2 by lia. rewrite Nat.sub_diag. cbn [nth_error of_option obind].
  rewrite nth_error_app2 by lia. rewrite Nat.sub_diag. cbn [nth_error of_option obind].
  replace (length l + S (length m) =? length l) with false by (symmetry; apply Nat.eqb_neq; lia). cbn [andb].
  f_equal. rewrite upd_app2 by lia. rewrite Nat.sub_diag. reflexivity.
Qed.

Lemma drop_loop_perm : forall l X Y,
  (exists X' Y', drop_loop holds low (l ++ X ++ Y) (length l) (length Y) = Val (X' ++ Y', length Y') /\ Permutation X' (stays l ++ X) /\
     (X = [] -> ~ doomed holds low l)) \/
  (drop_loop holds low (l ++ X ++ Y) (length l) (length Y) = UB UseAfterFree /\ X = [] /\ doomed holds low l).
Proof.
  induction l as [|x l IH] using rev_ind; intros X Y.
  - left. exists X, Y. cbn. split; [reflexivity|]. split; [apply Permutation_refl|]. intros _ (l & a & r & E & _). destruct l; discriminate.
  - rewrite app_length. cbn [length]. rewrite Nat.add_1_r. cbn [drop_loop]. rewrite <- app_assoc. cbn [app].
    rewrite nth_error_app2 by lia. rewrite Nat.sub_diag. cbn [nth_error of_option obind]. rewrite filter_app. cbn [filter].
    assert (Up : doomed holds low (l ++ [x]) <-> low x = true /\ (holds x = true \/ doomed holds low l)).
    { split.
      - intros (l1 & a & r & E & Ha & F). destruct r as [|b r] using rev_ind.
        + apply app_inj_tail in E as [-> ->]. split; [now inversion F|now left].
        + rewrite app_comm_cons, app_assoc in E. apply app_inj_tail in E as [-> ->]. inversion F as [|? ? F1 F2]; subst. apply Forall_app in F2 as [F2 F3].
          split; [now inversion F3|]. right. exists l1, a, r. split; [reflexivity|]. split; [exact Ha|]. now constructor.
      - intros [L [H|(l1 & a & r & -> & Ha & F)]].
        + exists l, x, []. split; [reflexivity|]. split; [exact H|]. constructor; [exact L|constructor].
        + exists l1, a, (r ++ [x]). split; [rewrite <- app_assoc; reflexivity|]. split; [exact Ha|]. inversion F; subst. constructor; [assumption|].
          apply Forall_app. split; [assumption|]. constructor; [exact L|constructor]. }
    destruct (low x) eqn:Lx; cbn [negb].
    + rewrite app_nil_r. destruct X as [|y X _] using rev_ind.
      * cbn [app]. replace (length (l ++ x :: Y) - 1 - length Y) with (length l) by (rewrite app_length; cbn [length]; lia).
        rewrite move_self. destruct (holds x) eqn:Hx; cbn [obind].
        -- right. split; [reflexivity|]. split; [reflexivity|]. apply Up. auto.
        -- destruct (IH [] (x :: Y)) as [(X' & Y' & E & P & N)|(E & _ & D)]; cbn [app length] in E; rewrite E.
           ++ left. exists X', Y'. split; [reflexivity|]. split; [exact P|]. intros _ D. apply Up in D as [_ [D|D]]; [discriminate|]. now apply N.
           ++ right. split; [reflexivity|]. split; [reflexivity|]. apply Up. auto.
      * replace (l ++ x :: (X ++ [y]) ++ Y) with (l ++ x :: X ++ y :: Y) by (rewrite <- app_assoc; reflexivity).
        replace (length (l ++ x :: X ++ y :: Y) - 1 - length Y) with (length l + S (length X)) by (rewrite app_length; cbn [length]; rewrite app_length; cbn [length]; lia).
        rewrite move_last. cbn [obind]. destruct (IH (y :: X) (y :: Y)) as [(X' & Y' & E & P & N)|(_ & C & _)]; [|discriminate].
        cbn [app length] in E. rewrite E. left. exists X', Y'. split; [reflexivity|]. split; [|intros C; now apply app_eq_nil in C as []].
        rewrite P. apply Permutation_app_head. apply Permutation_cons_append.
    + destruct (IH (x :: X) Y) as [(X' & Y' & E & P & N)|(_ & C & _)]; [|discriminate]. cbn [app] in E. rewrite E. left. exists X', Y'.
      split; [reflexivity|]. split; [rewrite P, <- app_assoc; apply Permutation_refl|]. intros -> D. apply Up in D as [D _]. discriminate.
Qed.
Theorem drop_perm : forall ts,
  (exists r, drop holds low ts = Val r /\ Permutation r (stays ts) /\ ~ doomed holds low ts) \/ (drop holds low ts = UB UseAfterFree /\ doomed holds low ts).
Proof.
  intros ts. unfold drop. destruct (drop_loop_perm ts [] []) as [(X' & Y' & E & P & N)|(E & _ & D)]; cbn [app length] in E; rewrite app_nil_r in E; rewrite E; cbn [obind fst snd].
  - left. exists X'. split; [f_equal; rewrite app_length, Nat.add_sub, firstn_app, Nat.sub_diag, firstn_all; cbn; now rewrite app_nil_r|].
    split; [rewrite P, app_nil_r; apply Permutation_refl|auto].
  - right. auto.
Qed.
End Drop.
