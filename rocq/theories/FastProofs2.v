(** Proofs about FastSLAM::updateMap, part 2: the loop over the hypotheses and what the
    assignments found by Murty's algorithm mean for the landmarks. *)
From Coq Require Import ZArith List Bool Arith QArith Qcanon Lia Permutation Sorted.
From Verif Require Import Base ListUtil QcLra Loop HungarianModel AssignSpec AssignLemmas ReduceModel ReduceSpec
  ReduceProofs ReduceProofs2 ReduceProofs3 ReduceProofs4
  MurtyModel MurtySpec MurtyProofs MurtyPick OspaSpec OspaProofs BirthModel FastModel FastSpec FastProofs.
Import ListNotations.
Local Open Scope nat_scope.

Lemma firstn_pad : forall A (x : A) l k, firstn k (l ++ repeat x (S k)) = firstn k (l ++ repeat x k).
Proof.
  intros A x l k. revert l. induction k as [|k IH]; intros l; [reflexivity|].
  destruct l as [|y l]; cbn [app repeat firstn].
  - f_equal. apply (IH []).
  - f_equal. change (x :: x :: repeat x k) with (repeat x (S (S k))). rewrite !firstn_app. f_equal.
    assert (G : forall a b c, c <= a -> c <= b -> firstn c (repeat x a) = firstn c (repeat x b)).
    { clear. intros a b c. revert a b. induction c as [|c IH]; intros [|a] [|b] H1 H2; try lia; auto. cbn. f_equal. apply IH; lia. }
    apply (G (S (S k)) (S k)); lia.
Qed.

Section Hyps.
Variable pick : list node -> option (node * list node).
Variable nZ : nat.
Variable maxDiff : Z.
Variable maxN : nat.
Variables (nr : nat) (f : nat -> option nat) (imap jmap : list nat).
Variable D : nat -> nat -> Z.
Hypothesis Himap : length imap = nr.
Hypothesis Hjmap : length jmap = nr.
Hypothesis Hnd : NoDup imap.

(** The table da_current for the assignment r of the reduced problem. *)
Definition da_for (r : list nat) (d : nat -> option nat) : Prop :=
  (forall k x, nth_error imap k = Some x -> exists q y, nth_error r k = Some q /\ nth_error jmap q = Some y /\
     d x = if y <? nZ then Some y else None) /\
  (forall x, ~ In x imap -> d x = f x).

Lemma remap_loop : forall r, assignment nr r -> exists d, for_ nr (remap nZ imap jmap r) f = Val d /\ da_for r d.
Proof using Himap Hjmap Hnd.
  intros r Hr. assert (Lr := assignment_length _ _ Hr).
  destruct (for_inv (fun m g =>
    (forall k x, k < m -> nth_error imap k = Some x -> exists q y, nth_error r k = Some q /\ nth_error jmap q = Some y /\
       g x = if y <? nZ then Some y else None) /\
    (forall x, (forall k, k < m -> nth_error imap k <> Some x) -> g x = f x)) (remap nZ imap jmap r) nr f) as (d & E & H1 & H2).
  - split; [intros; lia|auto].
  - intros m g Hm [I1 I2]. unfold remap.
    destruct (nth_error_ex _ imap m ltac:(lia)) as [x Hx]. destruct (nth_error_ex _ r m ltac:(lia)) as [q Hq].
    assert (Hqn : q < nr) by (apply (assignment_bound nr r); [auto|now apply nth_error_In in Hq]).
    destruct (nth_error_ex _ jmap q ltac:(lia)) as [y Hy].
    rewrite Hx. cbn [of_option obind]. rewrite Hq. cbn [of_option obind]. rewrite Hy. cbn [of_option obind].
    eexists. split; [reflexivity|]. split.
    + intros k x' Hk Hx'. unfold fset. destruct (Nat.eqb_spec x' x) as [->|Hne].
      * assert (k = m). { apply (proj1 (NoDup_nth_error imap) Hnd); [apply nth_error_lt in Hx'; lia|congruence]. }
        subst k. exists q, y. auto.
      * apply I1; [|auto]. destruct (Nat.eq_dec k m); [subst; congruence|lia].
    + intros x' H'. unfold fset. destruct (Nat.eqb_spec x' x) as [->|Hne].
      * exfalso. apply (H' m); [lia|auto].
      * apply I2. intros k Hk. apply H'. lia.
  - exists d. split; [exact E|]. split.
    + intros k x Hx. apply H1; [apply nth_error_lt in Hx; lia|auto].
    + intros x Hx. apply H2. intros k _ Hk. apply Hx. now apply nth_error_In in Hk.
Qed.

Lemma find_best : forall M M' k a s, findNextBest pick M = Val (M', (k, a, s)) -> k <> (-1)%Z ->
  mk M' <> 0 /\ mbest M' = (if Nat.eqb (mk M) 0 then s else mbest M).
Proof.
  intros M M' k a s H Hk. unfold findNextBest in H. destruct (Nat.eqb_spec (mk M) 0).
  - destruct (hungarian (mC M) (mn M) true) as [r| |]; try discriminate. cbn [obind] in H.
    destruct (snd r) as [[a0 s0]|]; [|discriminate]. injection H as <- <- <- <-. cbn. auto.
  - destruct (pick (mq M)) as [[p q]|]; [|injection H as <- <- <- <-; congruence].
    destruct (make_children M p (seq (nid p) (partition_max M - nid p))) as [cs| |]; try discriminate. cbn [obind] in H.
    destruct (pick (q ++ cs)) as [[hi q']|]; injection H as <- <- <- <-; [|congruence]. cbn. auto.
Qed.

(** The first answer and the ones after it. *)
Lemma calls_step : forall M x (l : list answer), (forall k, best_calls pick k M = Val (firstn k (x :: l ++ repeat (-1, None, 0)%Z k))) ->
  exists M', findNextBest pick M = Val (M', x) /\
  forall k, best_calls pick k M' = Val (firstn k (l ++ repeat (-1, None, 0)%Z k)).
Proof.
  intros M x l H. assert (H1 := H 1). cbn [best_calls] in H1. destruct (findNextBest pick M) as [r| |] eqn:E; try discriminate.
  cbn [obind fst snd firstn] in H1. injection H1 as H1. destruct r as [M' x']. cbn [snd] in H1. subst x'.
  exists M'. split; [reflexivity|]. intros k. assert (Hk := H (S k)). cbn [best_calls] in Hk. rewrite E in Hk. cbn [obind fst snd firstn] in Hk.
  destruct (best_calls pick k M') as [r| |]; try discriminate. cbn [obind] in Hk. injection Hk as Hk. rewrite Hk. f_equal. apply (firstn_pad answer).
Qed.

Section Outs.
Variable outs : list (list nat).
Variable r0 : list nat.
Hypothesis Houts : forall r, In r outs -> assignment nr r.
Hypothesis Hhead : exists t, outs = r0 :: t.
Notation sc := (score D).

Definition accepted (h : nat) (r : list nat) : Prop := nth_error outs h = Some r /\ (sc r0 - sc r < maxDiff)%Z.

Lemma hyps_gen : forall fuel M nH da pre rest,
  outs = pre ++ rest -> length pre = nH ->
  (forall k, best_calls pick k M = Val (firstn k (answers (S nH) sc rest ++ repeat (-1, None, 0)%Z k))) ->
  (nH = 0 -> mk M = 0) -> (nH <> 0 -> mk M <> 0 /\ mbest M = sc r0) ->
  length da = nH -> (forall h d, nth_error da h = Some d -> exists r, accepted h r /\ da_for r d) ->
  nH <= maxN -> maxN <= fuel + nH ->
  exists H ds, hyps pick nZ maxDiff maxN fuel nr f imap jmap M nH da = Val (H, ds) /\ length ds = H /\ nH <= H <= maxN /\
    (forall h d, nth_error ds h = Some d -> exists r, accepted h r /\ da_for r d) /\
    (H < maxN -> forall r, nth_error outs H = Some r -> (maxDiff <= sc r0 - sc r)%Z).
Proof using Himap Hjmap Hnd Houts Hhead.
  intros fuel. induction fuel as [|fuel IH]; intros M nH da pre rest Eo Lp Hc Hk0 Hk1 Ld Hda Hle Hfuel.
  { cbn [hyps]. rewrite (proj2 (Nat.ltb_ge nH maxN)) by lia.
    exists nH, da. split; [congruence|]. split; [lia|]. split; [lia|]. split; [auto|lia]. }
  cbn [hyps]. destruct (Nat.ltb_spec nH maxN) as [Hlt|Hge].
  2: { exists nH, da. split; [reflexivity|]. split; [auto|]. split; [lia|]. split; [auto|lia]. }
  destruct rest as [|r rest].
  - assert (H1 := Hc 1). cbn in H1. destruct (findNextBest pick M) as [x| |]; try discriminate. cbn [obind snd] in H1.
    injection H1 as H1. cbn [obind]. destruct x as [M' x]. cbn [snd] in H1. subst x. cbn [Z.eqb].
    exists nH, da. split; [reflexivity|]. split; [auto|]. split; [lia|]. split; [auto|].
    intros _ r Hr. apply nth_error_lt in Hr. rewrite Eo, app_nil_r in Hr. lia.
  - cbn [answers app] in Hc. apply calls_step in Hc. destruct Hc as (M' & Ef & Hc'). rewrite Ef. cbn [obind].
    destruct (Z.eqb_spec (Z.of_nat (S nH)) (-1)) as [E|Hne]; [lia|].
    destruct (find_best _ _ _ _ _ Ef ltac:(lia)) as [Hmk Hmb].
    assert (Hr : nth_error outs nH = Some r). { rewrite Eo, nth_error_app2 by lia. now replace (nH - length pre) with 0 by lia. }
    assert (Hbest : mbest M' = sc r0).
    { rewrite Hmb. destruct (Nat.eq_dec nH 0) as [E0|E0].
      - rewrite (Hk0 E0). cbn [Nat.eqb]. destruct Hhead as [t Ht]. rewrite E0, Ht in Hr. cbn in Hr. congruence.
      - destruct (Hk1 E0) as [K1 K2]. apply Nat.eqb_neq in K1. now rewrite K1. }
    rewrite Hbest. destruct (Z.leb_spec maxDiff (sc r0 - sc r)) as [Hbig|Hsmall].
    + rewrite Nat2Z.id. replace (S nH - 1) with nH by lia. exists nH, da. split; [reflexivity|]. split; [auto|]. split; [lia|].
      split; [auto|]. intros _ r' Hr'. congruence.
    + cbn [of_option obind]. destruct (remap_loop r) as (d & Ed & Hd).
      { apply Houts. now apply nth_error_In in Hr. }
      rewrite Ed. cbn [obind]. rewrite Nat2Z.id.
      destruct (IH M' (S nH) (da ++ [d]) (pre ++ [r]) rest) as (H & ds & E & L & B & F & G).
      * now rewrite <- app_assoc.
      * rewrite app_length. cbn. lia.
      * exact Hc'.
      * lia.
      * auto.
      * rewrite app_length. cbn. lia.
      * intros h d' Hh. destruct (Nat.lt_ge_cases h (length da)) as [Hl|Hl].
        -- rewrite nth_error_app1 in Hh by auto. auto.
        -- rewrite nth_error_app2 in Hh by auto. destruct (h - length da) as [|e] eqn:Eh; [|destruct e; discriminate].
           cbn in Hh. injection Hh as <-. exists r. split; [|exact Hd]. split; [|exact Hsmall].
           now replace h with nH by lia.
      * lia.
      * lia.
      * exists H, ds. split; [exact E|]. split; [auto|]. split; [lia|]. auto.
Qed.
End Outs.
End Hyps.
