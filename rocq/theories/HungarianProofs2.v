(** Correctness of HungarianMethod::run, part 2: breadth-first search and augmentation. *)
From Coq Require Import ZArith List Bool Arith Lia Permutation.
From Verif Require Import Base ListUtil HungarianModel AssignSpec HungarianProofs.
Import ListNotations.
Local Open Scope Z_scope.

Section Bfs.
Variable n : nat.
Variable C : mat.
Variable s : hst.
Variable target : nat.
Notation sl := (sl C).
Notation root := (hroot s).
Hypothesis M : matching n C s.
Hypothesis T : tree n C s.
Hypothesis Ht : (target < n)%nat.
Hypothesis HtNS : hNS s target = true.
Hypothesis Htf : yx s target = None.

Inductive apath (b : bfs) : nat -> list nat -> Prop :=
| AP_root : xq b root = true -> apath b root []
| AP_step : forall x y x' l, xq b x = true -> yq b y = true -> x <> root -> (x < n)%nat -> (y < n)%nat ->
    px b x = Some y -> yx s y = Some x -> py b y = Some x' -> (x' < n)%nat -> sl s x' y = 0 ->
    apath b x' l -> ~ In x (x' :: l) -> apath b x (x' :: l).

Lemma apath_queued : forall b x l, apath b x l -> forall z, In z (x :: l) -> xq b z = true.
Proof.
  induction 1; intros z Hz.
  - destruct Hz as [<-|[]]; auto.
  - destruct Hz as [<-|Hz]; auto.
Qed.

Lemma apath_bound : forall b x l, apath b x l -> forall z, In z (x :: l) -> (z < n)%nat.
Proof.
  induction 1; intros z Hz.
  - destruct Hz as [<-|[]]. apply T.
  - destruct Hz as [<-|Hz]; auto.
Qed.

Lemma apath_nodup : forall b x l, apath b x l -> NoDup (x :: l).
Proof.
  induction 1.
  - constructor; [intros []|constructor].
  - constructor; auto.
Qed.

Definition ext (b b' : bfs) : Prop :=
  (forall x, xq b x = true -> xq b' x = true /\ px b' x = px b x) /\
  (forall y, yq b y = true -> yq b' y = true /\ py b' y = py b y).

Lemma apath_ext : forall b b', ext b b' -> forall x l, apath b x l -> apath b' x l.
Proof.
  intros b b' [E1 E2]. induction 1.
  - constructor. now apply E1.
  - destruct (E1 x H), (E2 y H0).
    apply AP_step with (y := y); auto; congruence.
Qed.

Record binv (b : bfs) : Prop := {
  b_root : xq b root = true;
  b_x : forall x, xq b x = true -> (x < n)%nat /\ hS s x = true;
  b_y : forall y, yq b y = true -> (y < n)%nat;
  b_path : forall x, xq b x = true -> exists l, apath b x l;
  b_par : forall y, yq b y = true -> exists x, py b y = Some x /\ xq b x = true /\ sl s x y = 0;
  b_qx : forall x, In (VX x) (bq b) -> xq b x = true;
  b_qy : forall y, In (VY y) (bq b) -> yq b y = true;
  b_tq : yq b target = true -> In (VY target) (bq b) }.

Definition closed_x (b : bfs) (x : nat) : Prop :=
  forall y, (y < n)%nat -> sl s x y = 0 -> xy s x <> Some y -> yq b y = true.
Definition closed_y (b : bfs) (y : nat) : Prop :=
  forall x, (x < n)%nat -> hS s x = true -> sl s x y = 0 -> yx s y = Some x -> xq b x = true.

(** All queued vertices except [v] are either waiting or closed. *)
Definition clos (b : bfs) (v : vertex) : Prop :=
  (forall x, xq b x = true -> In (VX x) (bq b) \/ VX x = v \/ closed_x b x) /\
  (forall y, yq b y = true -> In (VY y) (bq b) \/ VY y = v \/ closed_y b y).

Definition mcount (b : bfs) : nat :=
  (count (fun x => negb (xq b x)) n + count (fun y => negb (yq b y)) n + length (bq b))%nat.

Lemma count_fset : forall (f : nat -> bool) i, (i < n)%nat -> f i = false ->
  (count (fun x => negb (fset f i true x)) n < count (fun x => negb (f x)) n)%nat.
Proof.
  intros. apply count_lt with (x := i); auto.
  - intros x Hx. destruct (fset_cases _ f i true x) as [[_ ->]|[_ ->]]; auto. discriminate.
  - now rewrite fset_eq.
  - now rewrite H0.
Qed.

Lemma ext_refl : forall b, ext b b.
Proof. split; auto. Qed.

Lemma ext_trans : forall a b c, ext a b -> ext b c -> ext a c.
Proof.
  intros a b c [A1 A2] [B1 B2]. split; intros z Hz.
  - destruct (A1 z Hz). destruct (B1 z H). split; auto; congruence.
  - destruct (A2 z Hz). destruct (B2 z H). split; auto; congruence.
Qed.

Lemma clos_mono : forall b b' v, clos b v ->
  (forall x, xq b x = true -> xq b' x = true) -> (forall y, yq b y = true -> yq b' y = true) ->
  (forall x, xq b' x = true -> xq b x = true \/ In (VX x) (bq b')) ->
  (forall y, yq b' y = true -> yq b y = true \/ In (VY y) (bq b')) ->
  incl (bq b) (bq b') -> clos b' v.
Proof.
  intros b b' v [D1 D2] Ex Ey Nx Ny Hi. split.
  - intros x Hx. destruct (Nx x Hx) as [H|H]; auto.
    destruct (D1 x H) as [H1|[H1|H1]]; auto. right. right. intros y Q1 Q2 Q3. apply Ey. now apply H1.
  - intros y Hy. destruct (Ny y Hy) as [H|H]; auto.
    destruct (D2 y H) as [H1|[H1|H1]]; auto. right. right. intros x Q1 Q2 Q3 Q4. apply Ex. now apply H1.
Qed.

(** *** Visiting an x vertex *)

Lemma visit_x_fold : forall t l b, binv b -> clos b (VX t) -> xq b t = true ->
  (forall y, In y l -> (y < n)%nat) ->
  let b' := fold_left (fun b y =>
    if ((sl s t y =? 0) && negb (yq b y) &&
        negb (match xy s t with Some y' => Nat.eqb y' y | None => false end))%bool
    then BFS (bq b ++ [VY y]) (xq b) (fset (yq b) y true) (px b) (fset (py b) y (Some t))
    else b) l b in
  binv b' /\ clos b' (VX t) /\ (mcount b' <= mcount b)%nat /\
  (forall y, yq b y = true -> yq b' y = true) /\
  (forall y, In y l -> sl s t y = 0 -> xy s t <> Some y -> yq b' y = true).
Proof.
  induction l as [|a l IH]; intros b I D Hq Hl; cbn [fold_left].
  - split; [exact I|]. split; [exact D|]. split; [auto|]. split; [auto|]. intros y [].
  - match goal with |- context [if ?c then _ else _] => destruct c eqn:Ec end.
    + apply andb_true_iff in Ec. destruct Ec as [Ec E3]. apply andb_true_iff in Ec. destruct Ec as [E1 E2].
      apply Z.eqb_eq in E1. apply negb_true_iff in E2. 
      set (b1 := BFS (bq b ++ [VY a]) (xq b) (fset (yq b) a true) (px b) (fset (py b) a (Some t))).
      assert (Ha : (a < n)%nat) by (apply Hl; left; reflexivity).
      assert (Hyq : forall y, yq b y = true -> y <> a) by (intros y Hy ->; congruence).
      assert (EX : ext b b1).
      { split; simpl; auto. intros y Hy. rewrite !fset_neq by auto. auto. }
      assert (I1 : binv b1).
      { split; simpl.
        - apply I.
        - apply I.
        - intros y Hy. destruct (fset_cases _ (yq b) a true y) as [[-> _]|[_ E]]; auto.
          rewrite E in Hy. now apply (b_y b I).
        - intros x Hx. destruct (b_path b I x Hx) as [p Hp]. exists p. now apply apath_ext with (b := b).
        - intros y Hy. destruct (Nat.eq_dec y a) as [->|Hne].
          + exists t. rewrite fset_eq. auto.
          + rewrite fset_neq in Hy by auto. rewrite fset_neq by auto. now apply (b_par b I).
        - intros x Hin. apply in_app_iff in Hin. destruct Hin as [Hin|[Hin|[]]]; [|discriminate].
          now apply (b_qx b I).
        - intros y Hin. apply in_app_iff in Hin. destruct (Nat.eq_dec y a) as [->|Hne].
          + apply fset_eq.
          + rewrite fset_neq by auto. destruct Hin as [Hin|[Hin|[]]]; [now apply (b_qy b I)|congruence].
        - intros Hy. apply in_app_iff. destruct (Nat.eq_dec target a) as [->|Hne]; [right; left; reflexivity|].
          left. rewrite fset_neq in Hy by auto. now apply (b_tq b I). }
      assert (D1 : clos b1 (VX t)).
      { apply clos_mono with (b := b); auto.
        - intros y Hy. now apply EX.
        - simpl. intros y Hy. destruct (fset_cases _ (yq b) a true y) as [[-> _]|[_ E]].
          + right. apply in_app_iff. right. left. reflexivity.
          + left. congruence.
        - simpl. apply incl_appl, incl_refl. }
      assert (Mc : (mcount b1 <= mcount b)%nat).
      { unfold mcount, b1. simpl. rewrite app_length. simpl.
        assert (Q := count_fset (yq b) a Ha E2). lia. }
      destruct (IH b1 I1 D1) as (J1 & J2 & J3 & J4 & J5); [exact Hq|intros; apply Hl; right; auto|].
      split; [exact J1|]. split; [exact J2|]. split; [lia|]. split.
      * intros y Hy. apply J4. now apply EX.
      * intros y [<-|Hy]; [|now apply J5]. intros _ _. apply J4. simpl. apply fset_eq.
    + destruct (IH b I D Hq) as (J1 & J2 & J3 & J4 & J5); [intros; apply Hl; right; auto|].
      split; [exact J1|]. split; [exact J2|]. split; [lia|]. split; [exact J4|].
      intros y [<-|Hy]; [|now apply J5]. intros Q1 Q2. apply J4.
      destruct (yq b a); auto. exfalso.
      apply Z.eqb_eq in Q1. rewrite Q1 in Ec. simpl in Ec. apply negb_false_iff in Ec.
      destruct (xy s t); [|discriminate]. apply Nat.eqb_eq in Ec. congruence.
Qed.

(** *** Visiting a y vertex *)

Lemma visit_y_fold : forall t l b, binv b -> clos b (VY t) -> yq b t = true ->
  (forall x, In x l -> (x < n)%nat) ->
  let b' := fold_left (fun b x =>
    if ((sl s x t =? 0) && hS s x && negb (xq b x) &&
        (match yx s t with Some x' => Nat.eqb x' x | None => false end))%bool
    then BFS (bq b ++ [VX x]) (fset (xq b) x true) (yq b) (fset (px b) x (Some t)) (py b)
    else b) l b in
  binv b' /\ clos b' (VY t) /\ (mcount b' <= mcount b)%nat /\
  (forall x, xq b x = true -> xq b' x = true) /\
  (forall x, In x l -> hS s x = true -> sl s x t = 0 -> yx s t = Some x -> xq b' x = true).
Proof.
  induction l as [|a l IH]; intros b I D Hq Hl; cbn [fold_left].
  - split; [exact I|]. split; [exact D|]. split; [auto|]. split; [auto|]. intros y [].
  - match goal with |- context [if ?c then _ else _] => destruct c eqn:Ec end.
    + apply andb_true_iff in Ec. destruct Ec as [Ec E4].
      apply andb_true_iff in Ec. destruct Ec as [Ec E3].
      apply andb_true_iff in Ec. destruct Ec as [E1 E2].
      apply Z.eqb_eq in E1. apply negb_true_iff in E3.
      destruct (yx s t) as [x'|] eqn:Eyx; [|discriminate]. apply Nat.eqb_eq in E4. subst x'.
      set (b1 := BFS (bq b ++ [VX a]) (fset (xq b) a true) (yq b) (fset (px b) a (Some t)) (py b)).
      assert (Ha : (a < n)%nat) by (apply Hl; left; reflexivity).
      assert (Hxq : forall x, xq b x = true -> x <> a) by (intros y Hy ->; congruence).
      assert (EX : ext b b1).
      { split; simpl; auto. intros y Hy. rewrite !fset_neq by auto. auto. }
      assert (I1 : binv b1).
      { split; simpl.
        - rewrite fset_neq; [apply I|]. apply Hxq, I.
        - intros x Hx. destruct (Nat.eq_dec x a) as [->|Hne]; [auto|].
          rewrite fset_neq in Hx by auto. now apply (b_x b I).
        - apply I.
        - intros x Hx. destruct (Nat.eq_dec x a) as [->|Hne].
          + destruct (b_par b I t Hq) as (x0 & Q1 & Q2 & Q3).
            destruct (b_path b I x0 Q2) as [p Hp]. exists (x0 :: p).
            apply AP_step with (y := t); simpl; auto.
            * apply not_eq_sym, Hxq, I.
            * now apply (b_y b I).
            * apply fset_eq.
            * now apply (b_x b I).
            * now apply apath_ext with (b := b).
            * intros Hin. apply (apath_queued b x0 p Hp) in Hin. congruence.
          + rewrite fset_neq in Hx by auto.
            destruct (b_path b I x Hx) as [p Hp]. exists p. now apply apath_ext with (b := b).
        - intros y Hy. destruct (b_par b I y Hy) as (x0 & Q1 & Q2 & Q3). exists x0.
          rewrite fset_neq by auto. auto.
        - intros x Hin. apply in_app_iff in Hin. destruct (Nat.eq_dec x a) as [->|Hne].
          + apply fset_eq.
          + rewrite fset_neq by auto. destruct Hin as [Hin|[Hin|[]]]; [now apply (b_qx b I)|congruence].
        - intros y Hin. apply in_app_iff in Hin. destruct Hin as [Hin|[Hin|[]]]; [|discriminate].
          now apply (b_qy b I).
        - intros Hy. apply in_app_iff. left. now apply (b_tq b I). }
      assert (D1 : clos b1 (VY t)).
      { apply clos_mono with (b := b); auto.
        - intros y Hy. now apply EX.
        - simpl. intros y Hy. destruct (fset_cases _ (xq b) a true y) as [[-> _]|[_ E]].
          + right. apply in_app_iff. right. left. reflexivity.
          + left. congruence.
        - simpl. apply incl_appl, incl_refl. }
      assert (Mc : (mcount b1 <= mcount b)%nat).
      { unfold mcount, b1. simpl. rewrite app_length. simpl.
        assert (Q := count_fset (xq b) a Ha E3). lia. }
      destruct (IH b1 I1 D1) as (J1 & J2 & J3 & J4 & J5); [exact Hq|intros; apply Hl; right; auto|].
      split; [exact J1|]. split; [exact J2|]. split; [lia|]. split.
      * intros y Hy. apply J4. now apply EX.
      * intros y [<-|Hy]; [|now apply J5]. intros _ _ _. apply J4. simpl. apply fset_eq.
    + destruct (IH b I D Hq) as (J1 & J2 & J3 & J4 & J5); [intros; apply Hl; right; auto|].
      split; [exact J1|]. split; [exact J2|]. split; [lia|]. split; [exact J4|].
      intros y [<-|Hy]; [|now apply J5]. intros Q1 Q2 Q3. apply J4.
      destruct (xq b a); auto. exfalso.
      apply Z.eqb_eq in Q2. rewrite Q1, Q2, Q3 in Ec. simpl in Ec.
      rewrite Nat.eqb_refl in Ec. discriminate.
Qed.

(** *** The search finds the target *)

Lemma bfs_complete : forall b, binv b -> bq b = [] ->
  (forall x, xq b x = true -> closed_x b x) -> (forall y, yq b y = true -> closed_y b y) -> False.
Proof.
  intros b I Hq Cx Cy.
  assert (HR : forall x, treach C s x -> hS s x = true -> xq b x = true).
  { induction 1; intros HSx.
    - apply I.
    - specialize (IHtreach H0).
      assert (Hyb := t_Tb _ _ _ T y H1).
      destruct M as [M1 M2]. destruct (M2 x' y Hyb H4) as [Q1 Q2].
      destruct (M1 x' y Q1 Q2) as (_ & _ & Q3).
      apply (Cy y); auto. apply (Cx x IHtreach); auto. }
  destruct (t_att _ _ _ T target Ht) as (x0 & Q1 & Q2).
  assert (HNS := proj1 (t_NS _ _ _ T target Ht) HtNS).
  assert (Hx0 := HR x0 (t_reach _ _ _ T x0 Q1) Q1).
  assert (Hyq : yq b target = true).
  { apply (Cx x0 Hx0); auto; [lia|]. intros Hc. destruct M as [M1 _].
    destruct (M1 x0 target (t_Sb _ _ _ T x0 Q1) Hc) as (_ & Hc' & _). congruence. }
  apply (b_tq b I) in Hyq. rewrite Hq in Hyq. contradiction.
Qed.


Definition allclos (b : bfs) : Prop :=
  (forall x, xq b x = true -> In (VX x) (bq b) \/ closed_x b x) /\
  (forall y, yq b y = true -> In (VY y) (bq b) \/ closed_y b y).

Lemma allclos_pop : forall b t r, allclos b -> bq b = t :: r ->
  clos (BFS r (xq b) (yq b) (px b) (py b)) t.
Proof.
  intros b t r [D1 D2] Hq. split; simpl.
  - intros x Hx. destruct (D1 x Hx) as [H|H]; [|right; right; exact H].
    rewrite Hq in H. destruct H as [<-|H]; auto.
  - intros x Hx. destruct (D2 x Hx) as [H|H]; [|right; right; exact H].
    rewrite Hq in H. destruct H as [<-|H]; auto.
Qed.

Lemma binv_pop : forall b t r, binv b -> bq b = t :: r -> t <> VY target ->
  binv (BFS r (xq b) (yq b) (px b) (py b)).
Proof.
  intros b t r I Hq Hne. split; simpl; try apply I.
  - intros x Hx. destruct (b_path b I x Hx) as [p Hp]. exists p.
    apply apath_ext with (b := b); auto. split; auto.
  - intros x Hx. apply (b_qx b I). rewrite Hq. right; auto.
  - intros y Hy. apply (b_qy b I). rewrite Hq. right; auto.
  - intros Hy. apply (b_tq b I) in Hy. rewrite Hq in Hy. destruct Hy; [congruence|auto].
Qed.

Lemma bfs_loop_ok : forall fuel b, binv b -> allclos b -> (mcount b <= fuel)%nat ->
  exists b', bfs_loop n C fuel s target b = Val (Some b') /\ binv b' /\ yq b' target = true.
Proof.
  induction fuel as [|k IH]; intros b I D Hm.
  - destruct (bq b) as [|t r] eqn:Eq.
    + exfalso. destruct D as [D1 D2]. apply (bfs_complete b I Eq).
      * intros x Hx. destruct (D1 x Hx) as [H|H]; auto. rewrite Eq in H. contradiction.
      * intros x Hx. destruct (D2 x Hx) as [H|H]; auto. rewrite Eq in H. contradiction.
    + unfold mcount in Hm. rewrite Eq in Hm. simpl in Hm. lia.
  - destruct (bq b) as [|t r] eqn:Eq.
    + exfalso. destruct D as [D1 D2]. apply (bfs_complete b I Eq).
      * intros x Hx. destruct (D1 x Hx) as [H|H]; auto. rewrite Eq in H. contradiction.
      * intros x Hx. destruct (D2 x Hx) as [H|H]; auto. rewrite Eq in H. contradiction.
    + simpl. rewrite Eq.
      assert (Hc := allclos_pop b t r D Eq).
      assert (Hm' : (mcount (BFS r (xq b) (yq b) (px b) (py b)) <= k)%nat).
      { unfold mcount in *. rewrite Eq in Hm. simpl in *. lia. }
      destruct t as [x|y].
      * assert (I' := binv_pop b (VX x) r I Eq ltac:(discriminate)).
        assert (Hx : xq b x = true) by (apply (b_qx b I); rewrite Eq; left; reflexivity).
        destruct (visit_x_fold x (seq 0 n) _ I' Hc) as (J1 & J2 & J3 & J4 & J5).
        { exact Hx. }
        { intros y Hy. apply in_seq in Hy. lia. }
        apply IH; [exact J1| |unfold visit_x; lia].
        destruct J2 as [J2 J2']. split.
        -- intros z Hz. destruct (J2 z Hz) as [H|[H|H]]; auto. inversion H; subst. right.
           intros y Hy Q1 Q2. apply J5; auto. apply in_seq; lia.
        -- intros z Hz. destruct (J2' z Hz) as [H|[H|H]]; auto. discriminate.
      * destruct (Nat.eqb_spec y target) as [->|Hne].
        -- exists b. split; auto. split; auto. apply (b_qy b I). rewrite Eq. left; reflexivity.
        -- assert (I' := binv_pop b (VY y) r I Eq ltac:(congruence)).
           assert (Hy : yq b y = true) by (apply (b_qy b I); rewrite Eq; left; reflexivity).
           destruct (visit_y_fold y (seq 0 n) _ I' Hc) as (J1 & J2 & J3 & J4 & J5).
           { exact Hy. }
           { intros z Hz. apply in_seq in Hz. lia. }
           apply IH; [exact J1| |unfold visit_y; lia].
           destruct J2 as [J2 J2']. split.
           ++ intros z Hz. destruct (J2 z Hz) as [H|[H|H]]; auto. discriminate.
           ++ intros z Hz. destruct (J2' z Hz) as [H|[H|H]]; auto. inversion H; subst. right.
              intros x Hx Q1 Q2 Q3. apply J5; auto. apply in_seq; lia.
Qed.

Lemma bfs_init_ok :
  binv (bfs_init root) /\ allclos (bfs_init root) /\ (mcount (bfs_init root) <= 2 * n + 1)%nat.
Proof.
  split; [|split].
  - assert (Hx : forall x, xq (bfs_init root) x = true -> x = root).
    { simpl. intros x Hx. destruct (fset_cases _ (fun _ => false) root true x) as [[E _]|[_ E]]; auto.
      rewrite E in Hx. discriminate. }
    split; simpl; try discriminate.
    + apply fset_eq.
    + intros x H. apply Hx in H. subst. split; apply T.
    + intros x H. apply Hx in H. subst. exists []. constructor. simpl. apply fset_eq.
    + intros x [H|[]]. inversion H; subst. apply fset_eq.
    + intros x [H|[]]. discriminate.
  - split; simpl; [|discriminate].
    intros x Hx. left. left. destruct (fset_cases _ (fun _ => false) root true x) as [[E _]|[_ E]].
    + now subst.
    + rewrite E in Hx. discriminate.
  - unfold mcount. simpl.
    assert (H1 := count_bound (fun x => negb (fset (fun _ => false) root true x)) n).
    assert (H2 := count_bound (fun y => negb false) n). simpl in H2. lia.
Qed.

(** *** Augmentation *)

(** A matching in which column y has no partner; yx y may be out of date. *)
Definition matching_but (y : nat) (c : hst) : Prop :=
  (forall x y1, (x < n)%nat -> xy c x = Some y1 ->
     (y1 < n)%nat /\ yx c y1 = Some x /\ sl c x y1 = 0 /\ y1 <> y) /\
  (forall x y1, (y1 < n)%nat -> y1 <> y -> yx c y1 = Some x -> (x < n)%nat /\ xy c x = Some y1).

Lemma matching_but_start : matching_but target s.
Proof.
  destruct M as [M1 M2]. split.
  - intros x y1 Hx H. destruct (M1 x y1 Hx H) as (A & B & D). split; auto. split; auto. split; auto.
    intros ->. congruence.
  - intros x y1 Hy _ H. now apply M2.
Qed.

Lemma augment_ok : forall b l x y c fuel,
  apath b x l -> py b y = Some x -> (x < n)%nat -> (y < n)%nat -> sl s x y = 0 ->
  (forall z, In z (x :: l) -> xy c z = xy s z) ->
  matching_but y c -> lx c = lx s -> ly c = ly s -> hroot c = root -> (length l < fuel)%nat ->
  exists c', augment fuel c b y = Val c' /\ matching n C c' /\ lx c' = lx s /\ ly c' = ly s /\
    (forall z, xy c z <> None -> xy c' z <> None) /\ xy c' root <> None.
Proof.
  intros b. induction l as [|x' l IH]; intros x y c fuel P Hpy Hx Hy Hsl Hold [B1 B2] Elx Ely Er Hf;
    (destruct fuel as [|k]; [simpl in Hf; lia|]); cbn [augment]; rewrite Hpy.
  - inversion P; subst. rewrite Er, Nat.eqb_refl.
    eexists. split; [reflexivity|].
    assert (Hroot0 : xy c root = None).
    { rewrite (Hold root) by (left; reflexivity). apply T. }
    assert (Hsl' : forall u v, lx c u + ly c v - C u v = sl s u v).
    { intros. unfold HungarianModel.sl. now rewrite Elx, Ely. }
    split; [|split; [|split; [|split]]]; simpl; auto.
    + split; simpl.
      * intros u v Hu. destruct (fset_cases _ (xy c) root (Some y) u) as [[-> E]|[Hne E]]; rewrite E.
        -- intros H1. inversion H1; subst. split; auto. split; [apply fset_eq|].
           unfold HungarianModel.sl; simpl. now rewrite Hsl'.
        -- intros H1. destruct (B1 u v Hu H1) as (Q1 & Q2 & Q3 & Q4).
           split; auto. split; [now rewrite fset_neq|exact Q3].
      * intros u v Hv. destruct (fset_cases _ (yx c) y (Some root) v) as [[-> E]|[Hne E]]; rewrite E.
        -- intros H1. inversion H1; subst. split; auto. apply fset_eq.
        -- intros H1. destruct (B2 u v Hv Hne H1) as (Q1 & Q2). split; auto.
           rewrite fset_neq; auto. intros ->. congruence.
    + intros z Hz. destruct (fset_cases _ (xy c) root (Some y) z) as [[_ ->]|[_ ->]]; auto. discriminate.
    + rewrite fset_eq. discriminate.
  - inversion P as [|? y' ? ? P1 P2 P3 P4 P5 P6 P7 P8 P9 P10 P11 P12]; subst.
    rewrite Er. apply Nat.eqb_neq in P3. rewrite P3. rewrite P6. apply Nat.eqb_neq in P3.
    assert (Hsxy : xy s x = Some y') by (destruct M as [_ M2]; now apply M2).
    assert (Hcxy : xy c x = Some y') by (rewrite Hold; [auto|left; reflexivity]).
    destruct (B1 x y' P4 Hcxy) as (K1 & K2 & K3 & K4).
    set (c1 := HS _ _ _ _ _ _ _ _ _).
    assert (Hsl' : forall u v, sl c1 u v = sl s u v).
    { intros. unfold HungarianModel.sl. simpl. now rewrite Elx, Ely. }
    destruct (IH x' y' c1 k) as (c' & E1 & E2 & E3 & E4 & E5 & E6); auto.
    + intros z Hz. simpl. rewrite fset_neq.
      * apply Hold. right; auto.
      * intros ->. contradiction.
    + split; simpl.
      * intros u v Hu. destruct (fset_cases _ (xy c) x (Some y) u) as [[-> E]|[Hne E]]; rewrite E.
        -- intros H1. inversion H1; subst. split; auto. split; [apply fset_eq|].
           split; [now rewrite Hsl'|auto].
        -- intros H1. destruct (B1 u v Hu H1) as (Q1 & Q2 & Q3 & Q4).
           split; auto. split; [now rewrite fset_neq|]. split; [exact Q3|].
           intros ->. rewrite K2 in Q2. congruence.
      * intros u v Hv Hv'. destruct (fset_cases _ (yx c) y (Some x) v) as [[-> E]|[Hne E]]; rewrite E.
        -- intros H1. inversion H1; subst. split; auto. apply fset_eq.
        -- intros H1. destruct (B2 u v Hv Hne H1) as (Q1 & Q2). split; auto.
           rewrite fset_neq; auto. intros ->. rewrite Hcxy in Q2. congruence.
    + simpl in Hf. lia.
    + exists c'. split; [exact E1|]. split; [exact E2|]. split; [exact E3|]. split; [exact E4|].
      split; [|exact E6]. intros z Hz. apply E5. simpl.
      destruct (fset_cases _ (xy c) x (Some y) z) as [[_ ->]|[_ ->]]; auto. discriminate.
Qed.

Definition isfree (s : hst) (x : nat) : bool := match xy s x with None => true | Some _ => false end.

Lemma search_augment_ok :
  exists b c', bfs_loop n C (2 * n + 1) s target (bfs_init root) = Val (Some b) /\
    augment (n + 1) s b target = Val c' /\ matching n C c' /\ lx c' = lx s /\ ly c' = ly s /\
    (count (isfree c') n < count (isfree s) n)%nat.
Proof.
  destruct bfs_init_ok as (I0 & D0 & H0).
  destruct (bfs_loop_ok _ _ I0 D0 H0) as (b & E & I & Hq).
  destruct (b_par b I target Hq) as (x & Q1 & Q2 & Q3).
  destruct (b_path b I x Q2) as [l P].
  assert (Hlen : (length l < n + 1)%nat).
  { assert (ND := apath_nodup b x l P).
    apply NoDup_incl_length with (l' := seq 0 n) in ND.
    - rewrite seq_length in ND. simpl in ND. lia.
    - intros z Hz. apply in_seq. apply (apath_bound b x l P) in Hz. lia. }
  destruct (augment_ok b l x target s (n + 1) P Q1) as (c' & E1 & E2 & E3 & E4 & E5 & E6); auto.
  - now apply (b_x b I).
  - exact matching_but_start.
  - exists b, c'. split; [exact E|]. split; [exact E1|]. split; [exact E2|].
    split; [exact E3|]. split; [exact E4|].
    apply count_lt with (x := root).
    + intros z Hz. unfold isfree. intros H. destruct (xy s z) eqn:Ez; auto.
      specialize (E5 z). rewrite Ez in E5. destruct (xy c' z); [discriminate|].
      exfalso. apply E5; [discriminate|reflexivity].
    + apply T.
    + unfold isfree. destruct (xy c' root); auto. congruence.
    + unfold isfree. now rewrite (t_free _ _ _ T).
Qed.

End Bfs.
