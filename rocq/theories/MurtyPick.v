(** A concrete priority queue for the examples, and the theorems in their final form. *)
From Coq Require Import ZArith List Bool Arith Lia Permutation Sorted Factorial.
From Verif Require Import Base ListUtil HungarianModel AssignSpec AssignLemmas EnumLemmas MurtyModel MurtySpec
  MurtyProofs MurtyProofs2 MurtyProofs3.
Import ListNotations.
Local Open Scope Z_scope.

(** Stands for std::priority_queue::top and pop, src/MurtyAlgorithm.cpp:143-145,330:
    the first member of largest score. *)
Fixpoint pick_max (q : list node) : option (node * list node) :=
  match q with
  | [] => None
  | x :: r => match pick_max r with
              | None => Some (x, [])
              | Some (y, s) => if ns x <? ns y then Some (y, x :: s) else Some (x, r)
              end
  end.

Lemma pick_max_ok : queue_contract pick_max.
Proof.
  intros q. induction q as [|x q IH]; [reflexivity|]. cbn [pick_max].
  destruct (pick_max q) as [[y s]|].
  - destruct IH as [Hp Hm]. destruct (Z.ltb_spec (ns x) (ns y)).
    + split.
      * eapply perm_trans; [apply perm_skip, Hp|apply perm_swap].
      * intros z [<-|Hz]; [lia|auto].
    + split; [auto|]. intros z [<-|Hz]; [lia|]. specialize (Hm z Hz). lia.
  - subst q. split; [auto|]. intros z [<-|[]]. lia.
Qed.

Lemma same_all : forall n a b, assignment n a -> assignment n b -> same_real n n a b -> a = b.
Proof.
  intros n a b Ha Hb H. apply list_ext. intros i.
  assert (La := assignment_length n a Ha). assert (Lb := assignment_length n b Hb).
  destruct (Nat.lt_ge_cases i n) as [Hi|Hi].
  - destruct (nth_error_ex _ a i ltac:(lia)) as [x Hx]. destruct (nth_error_ex _ b i ltac:(lia)) as [y Hy].
    rewrite Hx, Hy. f_equal. destruct (H i x y Hi Hx Hy) as [E|[Hnx _]]; auto.
    assert (x < n)%nat; [|lia]. apply (assignment_bound n a); auto. eapply nth_error_In; eauto.
  - rewrite (proj2 (nth_error_None a i)), (proj2 (nth_error_None b i)) by lia. reflexivity.
Qed.

Theorem murty_all : forall pick, queue_contract pick -> forall n C big, dominating n C big ->
  exists outs,
  (forall k, best_calls pick k (murty_new C n big) =
     Val (firstn k (answers 1 (score C) outs ++ repeat (-1, None, 0) k))) /\
  NoDup outs /\ (forall a, In a outs <-> assignment n a) /\ length outs = fact n /\
  StronglySorted (fun a b => score C b <= score C a) outs.
Proof.
  intros pick Hpick n C big Hdom.
  destruct (murty_complete n C big n n (le_n n) Hdom pick Hpick (murty_new C n big)) as (outs & Hc & H1 & H2 & H3 & H4 & _); auto.
  { repeat split. }
  exists outs. split; [exact Hc|]. split; [exact H1|].
  assert (Hiff : forall a, In a outs <-> assignment n a).
  { intros a. split; [apply H2|]. intros Ha. destruct (H4 a Ha) as (a' & Hin & Hs).
    now rewrite <- (same_all n a' a (H2 a' Hin) Ha Hs). }
  split; [exact Hiff|]. split; [|exact H3]. now apply all_perms_length.
Qed.

Theorem murty_block : forall pick, queue_contract pick -> forall n C big nR nC, dominating n C big ->
  exists outs,
  (forall k, best_calls pick k (setRealAssignmentBlock (murty_new C n big) nR nC) =
     Val (firstn k (answers 1 (score C) outs ++ repeat (-1, None, 0) k))) /\
  NoDup outs /\ (forall a, In a outs -> assignment n a) /\
  StronglySorted (fun a b => score C b <= score C a) outs /\
  (forall b, assignment n b -> exists a, In a outs /\ same_real (Nat.min nR n) (Nat.min nC n) a b).
Proof.
  intros pick Hpick n C big nR nC Hdom.
  destruct (murty_complete n C big (Nat.min nR n) (Nat.min nC n) ltac:(lia) Hdom pick Hpick
    (setRealAssignmentBlock (murty_new C n big) nR nC)) as (outs & Hc & H1 & H2 & H3 & H4 & _); auto.
  { repeat split. }
  exists outs. auto.
Qed.

(** Matrices as the filters build them. *)
Theorem murty_filter : forall pick, queue_contract pick -> forall n C big nR nC, dominating n C big ->
  exists outs,
  (forall k, best_calls pick k (setRealAssignmentBlock (murty_new C n big) nR nC) =
     Val (firstn k (answers 1 (score C) outs ++ repeat (-1, None, 0) k))) /\
  NoDup (map (firstn (Nat.min nR n)) outs) /\ (forall a, In a outs -> assignment n a) /\
  StronglySorted (fun a b => score C b <= score C a) outs /\
  forall miss tau, (forall a, assignment n a -> tau <= score C a ->
      forall i c, (i < Nat.min nR n)%nat -> nth_error a i = Some c -> (Nat.min nC n <= c)%nat -> c = miss i) ->
    forall b, assignment n b -> tau <= score C b ->
    exists a, In a outs /\ firstn (Nat.min nR n) a = firstn (Nat.min nR n) b /\ score C b <= score C a.
Proof.
  intros pick Hpick n C big nR nC Hdom.
  destruct (murty_complete n C big (Nat.min nR n) (Nat.min nC n) ltac:(lia) Hdom pick Hpick
    (setRealAssignmentBlock (murty_new C n big) nR nC)) as (outs & Hc & H1 & H2 & H3 & _ & H5 & H6); auto.
  { repeat split. }
  exists outs. auto 10.
Qed.

Theorem murty_default : forall pick, queue_contract pick -> forall n C B, 0 <= B ->
  (forall x y, (x < n)%nat -> (y < n)%nat -> - B <= C x y <= B) -> (2 * Z.of_nat n - 1) * B < 10000 ->
  exists outs,
  (forall k, best_calls pick k (murty_new C n 10000) =
     Val (firstn k (answers 1 (score C) outs ++ repeat (-1, None, 0) k))) /\
  NoDup outs /\ (forall a, In a outs <-> assignment n a) /\ length outs = fact n /\
  StronglySorted (fun a b => score C b <= score C a) outs.
Proof.
  intros pick Hpick n C B HB Hr Hb. apply murty_all; auto. exists (- B), B. split; [auto|]. split; [lia|]. nia.
Qed.
