(** Correctness of HungarianMethod::run, part 1: labelling and tree invariants. *)
From Coq Require Import ZArith List Bool Arith Lia Permutation.
From Verif Require Import Base ListUtil HungarianModel AssignSpec.
Import ListNotations.
Local Open Scope Z_scope.

(** ** Generic facts *)

Lemma fset_eq : forall A (f : nat -> A) i v, fset f i v i = v.
Proof. intros. unfold fset. now rewrite Nat.eqb_refl. Qed.

Lemma fset_neq : forall A (f : nat -> A) i j v, j <> i -> fset f i v j = f j.
Proof. intros. unfold fset. apply Nat.eqb_neq in H. now rewrite H. Qed.

Lemma fset_cases : forall A (f : nat -> A) i v j,
  (j = i /\ fset f i v j = v) \/ (j <> i /\ fset f i v j = f j).
Proof.
  intros. destruct (Nat.eq_dec j i).
  - left. subst. split; auto. apply fset_eq.
  - right. split; auto. now apply fset_neq.
Qed.

Lemma first_some : forall f n y, first f n = Some y -> (y < n)%nat /\ f y = true.
Proof.
  unfold first. intros. apply find_some in H. destruct H as [H1 H2].
  apply in_seq in H1. split; auto; lia.
Qed.

Lemma first_none : forall f n, first f n = None -> forall y, (y < n)%nat -> f y = false.
Proof.
  unfold first. intros. apply find_none with (x := y) in H; auto. apply in_seq. lia.
Qed.

Lemma first_ex : forall f n y, (y < n)%nat -> f y = true -> exists z, first f n = Some z.
Proof.
  intros. destruct (first f n) eqn:E; eauto.
  rewrite (first_none _ _ E y H) in H0. discriminate.
Qed.

Definition count (f : nat -> bool) (n : nat) : nat := length (filter f (seq 0 n)).

Lemma filter_le : forall A (f g : A -> bool) l,
  (forall x, In x l -> f x = true -> g x = true) ->
  (length (filter f l) <= length (filter g l))%nat.
Proof.
  induction l as [|a l IH]; simpl; intros; auto.
  assert (IH' := IH (fun x Hx => H x (or_intror Hx))).
  destruct (f a) eqn:E.
  - rewrite (H a (or_introl eq_refl) E). simpl. lia.
  - destruct (g a); simpl; lia.
Qed.

Lemma filter_lt : forall A (f g : A -> bool) l x,
  (forall x, In x l -> f x = true -> g x = true) ->
  In x l -> f x = false -> g x = true ->
  (length (filter f l) < length (filter g l))%nat.
Proof.
  induction l as [|a l IH]; simpl; intros; [contradiction|].
  assert (Hle := filter_le _ f g l (fun x Hx => H x (or_intror Hx))).
  destruct H0 as [<-|Hin].
  - rewrite H1, H2. simpl. lia.
  - assert (IH' := IH x (fun x Hx => H x (or_intror Hx)) Hin H1 H2).
    destruct (f a) eqn:E.
    + rewrite (H a (or_introl eq_refl) E). simpl. lia.
    + destruct (g a); simpl; lia.
Qed.

Lemma count_le : forall f g n, (forall x, (x < n)%nat -> f x = true -> g x = true) ->
  (count f n <= count g n)%nat.
Proof. intros. apply filter_le. intros x Hx. apply in_seq in Hx. apply H. lia. Qed.

Lemma count_lt : forall f g n x, (forall x, (x < n)%nat -> f x = true -> g x = true) ->
  (x < n)%nat -> f x = false -> g x = true -> (count f n < count g n)%nat.
Proof.
  intros. apply filter_lt with (x := x); auto.
  - intros z Hz. apply in_seq in Hz. apply H. lia.
  - apply in_seq. lia.
Qed.

Lemma count_bound : forall f n, (count f n <= n)%nat.
Proof.
  intros. unfold count. rewrite <- (seq_length n 0) at 2.
  induction (seq 0 n); simpl; auto. destruct (f a); simpl; lia.
Qed.

Section Inv.
Variable n : nat.
Variable C : mat.
Notation sl := (sl C).

(** ** Invariants *)

Definition feas (s : hst) : Prop := forall x y, (x < n)%nat -> (y < n)%nat -> 0 <= sl s x y.

Definition matching (s : hst) : Prop :=
  (forall x y, (x < n)%nat -> xy s x = Some y -> (y < n)%nat /\ yx s y = Some x /\ sl s x y = 0) /\
  (forall x y, (y < n)%nat -> yx s y = Some x -> (x < n)%nat /\ xy s x = Some y).

(** x is reached from the root along tight edges, alternating unmatched/matched. *)
Inductive treach (s : hst) : nat -> Prop :=
| TR_root : treach s (hroot s)
| TR_step : forall x y x', treach s x -> hS s x = true -> hT s y = true -> sl s x y = 0 ->
    xy s x <> Some y -> yx s y = Some x' -> hS s x' = true -> treach s x'.

Record tree (s : hst) : Prop := {
  t_root : (hroot s < n)%nat;
  t_free : xy s (hroot s) = None;
  t_rootS : hS s (hroot s) = true;
  t_Sb : forall x, hS s x = true -> (x < n)%nat;
  t_Tb : forall y, hT s y = true -> (y < n)%nat;
  t_T : forall y, hT s y = true -> exists x, yx s y = Some x /\ hS s x = true;
  t_S : forall x, hS s x = true -> x = hroot s \/ exists y, xy s x = Some y /\ hT s y = true;
  t_min : forall x y, (y < n)%nat -> hS s x = true -> slack s y <= sl s x y;
  t_att : forall y, (y < n)%nat -> exists x, hS s x = true /\ slack s y = sl s x y;
  t_NS : forall y, (y < n)%nat -> hNS s y = true <-> slack s y = 0;
  t_sub : forall y, hT s y = true -> hNS s y = true;
  t_reach : forall x, hS s x = true -> treach s x }.

(** ** Step 2 *)

Lemma step2_inv : forall s x, feas s -> matching s -> (x < n)%nat -> xy s x = None ->
  feas (step2 C s x) /\ matching (step2 C s x) /\ tree (step2 C s x).
Proof.
  intros s x F M Hx Hf. split; [exact F|]. split; [exact M|].
  assert (HS1 : forall z, hS (step2 C s x) z = true -> z = x).
  { simpl. intros z Hz. destruct (fset_cases _ (fun _ => false) x true z) as [[E _]|[_ E]]; auto.
    rewrite E in Hz. discriminate. }
  split; simpl; try discriminate; auto.
  - apply fset_eq.
  - intros z Hz. apply HS1 in Hz. subst; auto.
  - intros z y Hy Hz. apply HS1 in Hz. subst. apply Z.le_refl.
  - intros y Hy. exists x. split; [apply fset_eq|reflexivity].
  - intros y Hy. apply Z.eqb_eq.
  - intros z Hz. apply HS1 in Hz. subst. constructor.
Qed.

(** ** T never covers all columns *)

Lemma T_not_all : forall s, matching s -> tree s -> exists y, (y < n)%nat /\ hT s y = false.
Proof.
  intros s M T.
  destruct (first (fun y => negb (hT s y)) n) eqn:E.
  - apply first_some in E. destruct E as [E1 E2]. exists n0. split; auto.
    now apply negb_true_iff in E2.
  - exfalso. assert (H := first_none _ _ E).
    assert (HT : forall y, (y < n)%nat -> hT s y = true).
    { intros y Hy. specialize (H y Hy). now apply negb_false_iff in H. }
    set (g := fun y => match yx s y with Some x => x | None => 0%nat end).
    assert (Hg : forall y, (y < n)%nat -> yx s y = Some (g y) /\ (g y < n)%nat /\ xy s (g y) = Some y).
    { intros y Hy. destruct (t_T s T y (HT y Hy)) as (x & Hx & _).
      unfold g. rewrite Hx. split; auto. destruct M as [_ M2]. now apply M2. }
    assert (ND : NoDup (hroot s :: map g (seq 0 n))).
    { constructor.
      - rewrite in_map_iff. intros (y & Hy & Hin). apply in_seq in Hin.
        destruct (Hg y) as (_ & _ & Hxy); [lia|]. rewrite Hy, (t_free s T) in Hxy. discriminate.
      - assert (Hinj : forall l, (forall y, In y l -> (y < n)%nat) -> NoDup l -> NoDup (map g l)).
        { induction l as [|a l IH]; simpl; intros Hb Hnd; constructor.
          - inversion Hnd; subst. rewrite in_map_iff. intros (y & Hy & Hin).
            destruct (Hg y (Hb y (or_intror Hin))) as (_ & _ & R1).
            destruct (Hg a (Hb a (or_introl eq_refl))) as (_ & _ & R2).
            rewrite Hy, R2 in R1. inversion R1; subst. contradiction.
          - inversion Hnd; subst. apply IH; auto. }
        apply Hinj; [|apply seq_NoDup]. intros y Hy. apply in_seq in Hy. lia. }
    apply NoDup_incl_length with (l' := seq 0 n) in ND.
    + simpl in ND. rewrite map_length, seq_length in ND. lia.
    + intros z [<-|Hz]; apply in_seq.
      * assert (Hr := t_root s T). lia.
      * apply in_map_iff in Hz. destruct Hz as (y & <- & Hin). apply in_seq in Hin.
        destruct (Hg y) as (_ & Hb & _); lia.
Qed.

(** ** Step 3 *)

Lemma min_slack_fold : forall s l a r,
  fold_left (fun a y => if hT s y then a else
               match a with None => Some (slack s y) | Some v => Some (Z.min v (slack s y)) end) l a = r ->
  (r = None -> a = None /\ forall y, In y l -> hT s y = true) /\
  (forall v, r = Some v ->
     (forall y, In y l -> hT s y = false -> v <= slack s y) /\
     (forall w, a = Some w -> v <= w) /\
     (a = Some v \/ exists y, In y l /\ hT s y = false /\ slack s y = v)).
Proof.
  induction l as [|b l IH]; simpl; intros a r Hr.
  - subst. split.
    + intros ->. split; [reflexivity|]. intros y [].
    + intros v ->. split; [intros y []|]. split; [|left; reflexivity].
      intros w Hw. inversion Hw. lia.
  - apply IH in Hr. clear IH. destruct Hr as [H1 H2]. destruct (hT s b) eqn:E.
    + split.
      * intros Hn. destruct (H1 Hn) as [Ha Hl]. split; auto. intros y [<-|Hy]; auto.
      * intros v Hv. destruct (H2 v Hv) as (A & B & D). split; [|split; auto].
        -- intros y [<-|Hy] HyT; [congruence|auto].
        -- destruct D as [D|(y & D1 & D2)]; [auto|right; eauto].
    + split.
      * intros Hn. destruct (H1 Hn) as [Ha _]. destruct a; discriminate.
      * intros v Hv. destruct (H2 v Hv) as (A & B & D).
        assert (Hvb : v <= slack s b /\ forall w, a = Some w -> v <= w).
        { destruct a as [w|].
          - specialize (B _ eq_refl). split; [lia|]. intros w' Hw. inversion Hw. lia.
          - specialize (B _ eq_refl). split; [lia|discriminate]. }
        destruct Hvb as [Hb Ha]. split; [|split; auto].
        -- intros y [<-|Hy] HyT; auto.
        -- destruct D as [D|(y & D1 & D2)]; [|right; eauto].
           destruct a as [w|]; injection D as D.
           ++ destruct (Z.min_spec w (slack s b)) as [[_ E']|[_ E']]; rewrite E' in D.
              ** left. now subst.
              ** right. exists b. auto.
           ++ right. exists b. auto.
Qed.

Lemma step3_inv : forall s, feas s -> matching s -> tree s ->
  exists s', step3 n s = Val s' /\ feas s' /\ matching s' /\ tree s' /\
    xy s' = xy s /\ yx s' = yx s /\ hT s' = hT s /\
    exists y, (y < n)%nat /\ hNS s' y = true /\ hT s' y = false.
Proof.
  intros s F M T. unfold step3.
  destruct (forallb _ (seq 0 n)) eqn:Eall.
  - rewrite forallb_forall in Eall.
    assert (HNT : forall y, (y < n)%nat -> hNS s y = hT s y).
    { intros y Hy. apply Bool.eqb_prop. apply Eall. apply in_seq. lia. }
    destruct (T_not_all s M T) as (y0 & Hy0 & HT0).
    destruct (min_slack n s) as [a|] eqn:Ea; unfold min_slack in Ea;
      apply min_slack_fold in Ea; destruct Ea as [A1 A2].
    2:{ destruct (A1 eq_refl) as [_ A]. rewrite A in HT0; [discriminate|]. apply in_seq; lia. }
    clear A1. destruct (A2 a eq_refl) as (Amin & _ & Aatt). clear A2.
    destruct Aatt as [Aatt|(ya & Hya & HTa & Hsa)]; [discriminate|]. apply in_seq in Hya.
    assert (Hslk : forall y, (y < n)%nat -> 0 <= slack s y).
    { intros y Hy. destruct (t_att s T y Hy) as (x & Hx & ->). apply F; auto. now apply (t_Sb s T). }
    assert (Ha0 : 0 <= a). { rewrite <- Hsa. apply Hslk; lia. }
    assert (Hmin' : forall y, (y < n)%nat -> hT s y = false -> a <= slack s y).
    { intros y Hy HyT. apply Amin; auto. apply in_seq; lia. }
    set (s' := HS _ _ _ _ _ _ _ _ _).
    assert (Hsl : forall x y, sl s' x y =
      sl s x y - (if hS s x then a else 0) + (if hT s y then a else 0)).
    { intros. unfold HungarianModel.sl. simpl. destruct (hS s x), (hT s y); lia. }
    exists s'. split; [reflexivity|]. split; [|split; [|split; [|split; [|split; [|split]]]]]; auto.
    + intros x y Hx Hy. rewrite Hsl. assert (Hxy := F x y Hx Hy).
      destruct (hS s x) eqn:ES, (hT s y) eqn:ET; try lia.
      assert (H1 := t_min s T x y Hy ES). assert (H2 := Hmin' y Hy ET). lia.
    + destruct M as [M1 M2]. split; [|exact M2].
      intros x y Hx Hxy. simpl in Hxy. destruct (M1 x y Hx Hxy) as (P1 & P2 & P3).
      split; [exact P1|]. split; [exact P2|]. rewrite Hsl, P3.
      destruct (hS s x) eqn:ES, (hT s y) eqn:ET; try lia.
      * destruct (t_S s T x ES) as [->|(y' & Q1 & Q2)].
        -- rewrite (t_free s T) in Hxy. discriminate.
        -- rewrite Hxy in Q1. inversion Q1; subst. congruence.
      * destruct (t_T s T y ET) as (x' & Q1 & Q2). rewrite P2 in Q1. inversion Q1; subst. congruence.
    + assert (HslST : forall x y, hS s x = true -> hT s y = true -> sl s' x y = sl s x y).
      { intros x y Q1 Q2. rewrite Hsl, Q1, Q2. lia. }
      assert (Hslack : forall y, slack s' y = slack s y - (if hT s y then 0 else a)).
      { intros y. unfold s'. cbn [slack]. destruct (hT s y); lia. }
      split; try apply T; auto.
      * intros x y Hy HxS. change (hS s x = true) in HxS. rewrite Hslack, Hsl, HxS.
        assert (H1 := t_min s T x y Hy HxS). destruct (hT s y); lia.
      * intros y Hy. destruct (t_att s T y Hy) as (x & Q1 & Q2). exists x. split; [exact Q1|].
        rewrite Hslack, Hsl, Q1, Q2. destruct (hT s y); lia.
      * intros y Hy. unfold s'. cbn [hNS slack].
        destruct (hT s y) eqn:ET.
        -- assert (hNS s y = true) as HN by (now apply (t_sub s T)).
           rewrite HN. apply (t_NS s T y Hy) in HN. rewrite HN. simpl. tauto.
        -- destruct (slack s y - a =? 0) eqn:EE.
           ++ apply Z.eqb_eq in EE. tauto.
           ++ apply Z.eqb_neq in EE. rewrite (HNT y Hy), ET. split; [discriminate|contradiction].
      * intros y HyT. change (hT s y = true) in HyT. unfold s'. cbn [hNS].
        rewrite (t_sub s T y HyT). now destruct (_ =? 0).
      * intros x HxS. change (hS s x = true) in HxS.
        assert (HR := t_reach s T x HxS). induction HR.
        -- exact (TR_root s').
        -- eapply (TR_step s') with (x := x) (y := y); auto.
           now rewrite HslST.
    + exists ya. split; [lia|]. split; [|exact HTa].
      unfold s'. cbn [hNS]. rewrite HTa, Hsa, Z.sub_diag. reflexivity.
  - exists s. split; [reflexivity|].
    split; [|split; [|split; [|split; [|split; [|split]]]]]; auto.
    assert (Hex : exists y, In y (seq 0 n) /\ Bool.eqb (hNS s y) (hT s y) = false).
    { clear - Eall. induction (seq 0 n); simpl in *; [discriminate|].
      destruct (Bool.eqb (hNS s a) (hT s a)) eqn:E; [|eauto].
      destruct IHl as (y & H1 & H2); eauto. }
    destruct Hex as (y & H1 & H2). apply in_seq in H1. exists y. split; [lia|].
    destruct (hT s y) eqn:ET; [rewrite (t_sub s T y ET) in H2; discriminate|].
    destruct (hNS s y); auto; discriminate.
Qed.

(** ** Step 4, growing the tree *)

Definition grow (s : hst) (x_t y : nat) : hst :=
  HS (lx s) (ly s) (xy s) (yx s) (fset (hS s) x_t true) (fset (hT s) y true)
     (fun y_t => if sl s x_t y_t =? 0 then true else hNS s y_t)
     (fun y => if sl s x_t y <? slack s y then sl s x_t y else slack s y)
     (hroot s).

Lemma grow_inv : forall s x_t y, feas s -> matching s -> tree s ->
  (y < n)%nat -> hNS s y = true -> hT s y = false -> yx s y = Some x_t ->
  feas (grow s x_t y) /\ matching (grow s x_t y) /\ tree (grow s x_t y) /\
  (count (fun z => negb (hT (grow s x_t y) z)) n < count (fun y => negb (hT s y)) n)%nat.
Proof.
  intros s xt y F M T Hy HN HT Hyx.
  destruct M as [M1 M2]. destruct (M2 xt y Hy Hyx) as [Hxt Hxy].
  split; [exact F|]. split; [split; [exact M1|exact M2]|].
  assert (HSnot : hS s xt = false).
  { destruct (hS s xt) eqn:E; auto. destruct (t_S s T xt E) as [->|(y' & Q1 & Q2)].
    - rewrite (t_free s T) in Hxy. discriminate.
    - rewrite Hxy in Q1. inversion Q1; subst. congruence. }
  assert (HSmono : forall x, hS s x = true -> hS (grow s xt y) x = true).
  { intros x Hx. simpl. destruct (fset_cases _ (hS s) xt true x) as [[_ E]|[_ E]]; rewrite E; auto. }
  assert (HTmono : forall z, hT s z = true -> hT (grow s xt y) z = true).
  { intros x Hx. simpl. destruct (fset_cases _ (hT s) y true x) as [[_ E]|[_ E]]; rewrite E; auto. }
  assert (HRmono : forall x, treach s x -> treach (grow s xt y) x).
  { intros x H. induction H.
    - exact (TR_root (grow s xt y)).
    - eapply (TR_step (grow s xt y)) with (x := x) (y := y0); auto. }
  assert (HSinv : forall x, hS (grow s xt y) x = true -> x = xt \/ hS s x = true).
  { simpl. intros x Hx. destruct (fset_cases _ (hS s) xt true x) as [[E _]|[_ E]]; auto.
    rewrite E in Hx; auto. }
  assert (HTinv : forall z, hT (grow s xt y) z = true -> z = y \/ hT s z = true).
  { simpl. intros x Hx. destruct (fset_cases _ (hT s) y true x) as [[E _]|[_ E]]; auto.
    rewrite E in Hx; auto. }
  assert (Hsl0 : forall z, (z < n)%nat -> 0 <= sl s xt z) by (intros; apply F; auto).
  assert (Hslk : forall z, (z < n)%nat -> 0 <= slack s z).
  { intros z Hz. destruct (t_att s T z Hz) as (x & Hx & ->). apply F; auto. now apply (t_Sb s T). }
  split.
  - split.
    + apply T.
    + apply T.
    + apply HSmono, T.
    + intros x Hx. destruct (HSinv x Hx) as [->|Hs]; auto. now apply (t_Sb s T).
    + intros z Hz. destruct (HTinv z Hz) as [->|Hs]; auto. now apply (t_Tb s T).
    + intros z Hz. destruct (HTinv z Hz) as [->|Hs].
      * exists xt. split; [exact Hyx|]. simpl. apply fset_eq.
      * destruct (t_T s T z Hs) as (x & Q1 & Q2). exists x. split; auto.
    + intros x Hx. destruct (HSinv x Hx) as [->|Hs].
      * right. exists y. split; [exact Hxy|]. simpl. apply fset_eq.
      * destruct (t_S s T x Hs) as [->|(z & Q1 & Q2)]; [left; reflexivity|].
        right. exists z. auto.
    + intros x z Hz Hx. change (slack (grow s xt y) z) with
        (if sl s xt z <? slack s z then sl s xt z else slack s z).
      change (sl (grow s xt y) x z) with (sl s x z).
      destruct (HSinv x Hx) as [->|Hs].
      * destruct (Z.ltb_spec (sl s xt z) (slack s z)); lia.
      * assert (H1 := t_min s T x z Hz Hs). destruct (Z.ltb_spec (sl s xt z) (slack s z)); lia.
    + intros z Hz. change (slack (grow s xt y) z) with
        (if sl s xt z <? slack s z then sl s xt z else slack s z).
      destruct (Z.ltb_spec (sl s xt z) (slack s z)).
      * exists xt. split; [simpl; apply fset_eq|reflexivity].
      * destruct (t_att s T z Hz) as (x & Q1 & Q2). exists x. split; auto.
    + intros z Hz. change (slack (grow s xt y) z) with
        (if sl s xt z <? slack s z then sl s xt z else slack s z).
      change (hNS (grow s xt y) z) with (if sl s xt z =? 0 then true else hNS s z).
      assert (H1 := Hsl0 z Hz). assert (H2 := Hslk z Hz). assert (H3 := t_NS s T z Hz).
      destruct (Z.eqb_spec (sl s xt z) 0) as [E|E].
      * split; auto. intros _. destruct (Z.ltb_spec (sl s xt z) (slack s z)); lia.
      * rewrite H3. destruct (Z.ltb_spec (sl s xt z) (slack s z)); lia.
    + intros z Hz. change (hNS (grow s xt y) z) with (if sl s xt z =? 0 then true else hNS s z).
      destruct (sl s xt z =? 0); auto.
      destruct (HTinv z Hz) as [->|Hs]; auto. now apply (t_sub s T).
    + intros x Hx. destruct (HSinv x Hx) as [->|Hs]; [|now apply HRmono, (t_reach s T)].
      apply (t_NS s T y Hy) in HN. destruct (t_att s T y Hy) as (x0 & Q1 & Q2).
      apply (TR_step (grow s xt y)) with (x := x0) (y := y); auto.
      * now apply HRmono, (t_reach s T).
      * simpl. apply fset_eq.
      * change (sl s x0 y = 0). lia.
      * change (xy s x0 <> Some y). intros Hc.
        destruct (M1 x0 y (t_Sb s T x0 Q1) Hc) as (_ & Hc2 & _).
        rewrite Hyx in Hc2. inversion Hc2; subst. congruence.
  - apply count_lt with (x := y); auto.
    + intros z Hz Hg. apply negb_true_iff in Hg. apply negb_true_iff.
      destruct (hT s z) eqn:E; auto. rewrite (HTmono z E) in Hg. discriminate.
    + apply negb_false_iff. simpl. apply fset_eq.
    + now rewrite HT.
Qed.

End Inv.
