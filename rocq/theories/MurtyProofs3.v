(** Proofs about class Murty: the queue invariant and complete histories. *)
From Coq Require Import ZArith List Bool Arith Lia Permutation Sorted Factorial.
From Verif Require Import Base ListUtil HungarianModel AssignSpec AssignLemmas HungarianProofs3 EnumLemmas
  MurtyModel MurtySpec MurtyProofs MurtyProofs2.
Import ListNotations.
Local Open Scope Z_scope.

Section Pairs.
Variables (A : Type) (R : A -> A -> Prop).
Hypothesis Rsym : forall x y, R x y -> R y x.
Lemma fop_perm : forall l m, Permutation l m -> ForallOrdPairs R l -> ForallOrdPairs R m.
Proof.
  intros l m H. induction H; intros Hf; auto.
  - inversion Hf as [|? ? H1 H2]; subst. constructor; auto. eapply Permutation_Forall; eauto.
  - inversion Hf as [|? ? H1 H2]; subst. inversion H2 as [|? ? H3 H4]; subst.
    inversion H1 as [|? ? H5 H6]; subst. constructor; [|constructor]; auto.
Qed.
Lemma fop_app : forall l m, ForallOrdPairs R l -> ForallOrdPairs R m ->
  (forall x y, In x l -> In y m -> R x y) -> ForallOrdPairs R (l ++ m).
Proof.
  intros l m Hl Hm H. induction Hl as [|x l H1 Hl IH]; simpl; auto. constructor.
  - apply Forall_app. split; auto. apply Forall_forall. intros y Hy. apply H; auto. now left.
  - apply IH. intros. apply H; auto. now right.
Qed.
End Pairs.

Section History.
Variables (n : nat) (C : nat -> nat -> Z) (big : Z) (nR nC : nat).
Hypothesis HnR : (nR <= n)%nat.
Hypothesis Hdom : dominating n C big.
Notation good := (good n C nC).
Notation cell := (cell n).
Notation childX := (childX n nC).
Notation same := (same_real nR nC).

Definition gnode : Type := (node * (nat -> bool))%type.
Definition disjoint (u v : gnode) : Prop := forall b, cell u b -> cell v b -> False.

Lemma disjoint_sym : forall u v, disjoint u v -> disjoint v u.
Proof. intros u v H b Hu Hv. eapply H; eauto. Qed.

Definition pmax : nat := if Nat.eqb nR n then (n - 1)%nat else nR.

Definition params (M : murty) : Prop :=
  (forall x y, mC M x y = C x y) /\ mn M = n /\ mbig M = big /\ mR M = nR /\ mCols M = nC.

(** ----- children ----- *)
Lemma children_ok : forall M par X, params M -> good par X ->
  forall ps, NoDup ps -> (forall p, In p ps -> (nid par <= p < n)%nat) ->
  exists gs, make_children M par ps = Val (map fst gs) /\
  (forall u, In u gs -> good (fst u) (snd u) /\ In (nid (fst u)) ps /\
     snd u = childX par X (nid (fst u)) /\ firstn (nid (fst u)) (na (fst u)) = firstn (nid (fst u)) (na par)) /\
  NoDup (map (fun u : gnode => nid (fst u)) gs) /\
  (forall p b, In p ps -> cellX n p (firstn p (na par)) (childX par X p) b -> exists u, In u gs /\ cell u b).
Proof.
  intros M par X (HC & Hn & Hbg & HR & Hcol) Hg. induction ps as [|p ps IH]; intros Hnd Hps.
  - exists []. simpl. split; auto. split; [tauto|]. split; [constructor|]. tauto.
  - apply NoDup_cons_iff in Hnd. destruct Hnd as [Hnp Hnd'].
    destruct (IH Hnd' ltac:(intros; apply Hps; now right)) as (gs & E & H1 & H2 & H3).
    destruct (Hps p (or_introl eq_refl)) as [Hp1 Hp2].
    destruct (make_child_ok n C big nC Hdom M par X p HC Hn Hbg Hcol Hg Hp1 Hp2) as (o & Eo & Ho).
    cbn [make_children]. rewrite Eo. cbn [obind]. rewrite E. cbn [obind].
    destruct o as [nd|].
    + destruct Ho as (Hgd & Hid & Hf). exists ((nd, childX par X p) :: gs). split; [reflexivity|]. split; [|split].
      * intros u [<-|Hu].
        -- cbn [fst snd]. rewrite Hid. split; [exact Hgd|]. split; [now left|]. split; [reflexivity|exact Hf].
        -- destruct (H1 u Hu) as (A1 & A2 & A3 & A4). split; [exact A1|]. split; [now right|]. split; [exact A3|exact A4].
      * cbn [map fst]. constructor; auto. rewrite Hid. intros Hin. apply in_map_iff in Hin.
        destruct Hin as (u & Eu & Hu). destruct (H1 u Hu) as (_ & A2 & _). rewrite Eu in A2. contradiction.
      * intros q b [<-|Hq] Hb.
        -- exists (nd, childX par X p). split; [now left|]. unfold MurtyProofs2.cell. cbn [fst snd].
           rewrite Hid, Hf. exact Hb.
        -- destruct (H3 q b Hq Hb) as (u & Hu & Hc). exists u. split; [now right|exact Hc].
    + exists gs. split; [reflexivity|]. split; [|split; [exact H2|]].
      * intros u Hu. destruct (H1 u Hu) as (A1 & A2 & A3 & A4). split; [exact A1|]. split; [now right|]. split; [exact A3|exact A4].
      * intros q b [<-|Hq] Hb; [exfalso; eapply Ho; eauto|]. apply (H3 q b Hq Hb).
Qed.

(** A child's set lies inside the parent's and misses the parent's assignment. *)
Lemma prefix_nth : forall (a b : list nat) p i, firstn p a = firstn p b -> (i < p)%nat -> nth_error a i = nth_error b i.
Proof. intros a b p i H Hi. rewrite <- (nth_error_firstn _ a p i Hi), <- (nth_error_firstn _ b p i Hi). now rewrite H. Qed.

Lemma prefix_le : forall (a b : list nat) p q, firstn p a = firstn p b -> (q <= p)%nat -> firstn q a = firstn q b.
Proof. intros a b p q H Hq. replace q with (Nat.min q p) by lia. rewrite <- !firstn_firstn. now rewrite H. Qed.

Lemma childX_self : forall par X p, childX par X p (nth p (na par) 0%nat) = true.
Proof. intros. unfold MurtyProofs2.childX, xb. rewrite Nat.eqb_refl. reflexivity. Qed.

Lemma child_inside : forall par X p b, good par X -> (nid par <= p < n)%nat ->
  cellX n p (firstn p (na par)) (childX par X p) b -> cell (par, X) b /\ nth_error b p <> nth_error (na par) p.
Proof.
  intros par X p b Hg Hp (Hb1 & Hb2 & Hb3).
  assert (Hne : nth_error b p <> nth_error (na par) p).
  { rewrite (good_nth n C nC par X p Hg) by lia. intros E. apply Hb3 in E. now rewrite childX_self in E. }
  split; [|exact Hne]. split; [exact Hb1|]. cbn [fst snd]. split.
  - apply (prefix_le b (na par) p); [exact Hb2|lia].
  - intros c Hc. destruct (Nat.eq_dec p (nid par)) as [E|E].
    + subst p. specialize (Hb3 c Hc). unfold MurtyProofs2.childX in Hb3. rewrite Nat.eqb_refl in Hb3.
      apply orb_false_iff in Hb3. apply Hb3.
    + destruct (good_cell n C nC par X Hg) as [(_ & _ & H) _]. cbn [fst snd] in H. apply H.
      rewrite <- Hc. symmetry. apply (prefix_nth b (na par) p); [exact Hb2|lia].
Qed.

Lemma children_disjoint : forall par X gs, good par X ->
  (forall u, In u gs -> (nid par <= nid (fst u) < n)%nat /\
     snd u = childX par X (nid (fst u)) /\ firstn (nid (fst u)) (na (fst u)) = firstn (nid (fst u)) (na par)) ->
  NoDup (map (fun u : gnode => nid (fst u)) gs) -> ForallOrdPairs disjoint gs.
Proof.
  intros par X gs Hg. induction gs as [|u gs IH]; intros H Hnd; [constructor|].
  cbn [map] in Hnd. inversion Hnd as [|? ? Hni Hnd']; subst. constructor.
  - apply Forall_forall. intros v Hv b Hu Hvb.
    destruct (H u (or_introl eq_refl)) as (U1 & U2 & U3). destruct (H v (or_intror Hv)) as (V1 & V2 & V3).
    unfold MurtyProofs2.cell in Hu, Hvb. rewrite U2, U3 in Hu. rewrite V2, V3 in Hvb.
    destruct (child_inside par X _ b Hg U1 Hu) as [_ Nu]. destruct (child_inside par X _ b Hg V1 Hvb) as [_ Nv].
    assert (Hne : nid (fst u) <> nid (fst v)).
    { intros E. apply Hni. rewrite E. apply in_map_iff. exists v. auto. }
    destruct Hu as (_ & Pu & _). destruct Hvb as (_ & Pv & _).
    destruct (Nat.lt_ge_cases (nid (fst u)) (nid (fst v))).
    + apply Nu. apply (prefix_nth b (na par) (nid (fst v))); auto.
    + apply Nv. apply (prefix_nth b (na par) (nid (fst u))); auto. lia.
  - apply IH; auto. intros v Hv. apply H. now right.
Qed.

(** ----- real associations ----- *)
Lemma same_trans : forall a b c, assignment n b -> same a b -> same b c -> same a c.
Proof.
  intros a b c Hb H1 H2 i x z Hi Hx Hz. assert (Hl := assignment_length n b Hb).
  destruct (nth_error_ex _ b i ltac:(lia)) as [y Hy].
  destruct (H1 i x y Hi Hx Hy) as [->|[? ?]]; [eapply H2; eauto|].
  destruct (H2 i y z Hi Hy Hz) as [<-|[? ?]]; auto.
Qed.

Lemma same_refl : forall r c a, same_real r c a a.
Proof. intros r c a i x y _ Hx Hy. left. congruence. Qed.

Lemma first_difference : forall a b, assignment n a -> assignment n b -> forall r, (r <= n)%nat ->
  same_real r nC a b \/
  exists m x y, (m < r)%nat /\ same_real m nC a b /\ nth_error a m = Some x /\ nth_error b m = Some y /\
    x <> y /\ ~ ((nC <= x)%nat /\ (nC <= y)%nat).
Proof.
  intros a b Ha Hb. assert (La := assignment_length n a Ha). assert (Lb := assignment_length n b Hb).
  induction r as [|r IH]; intros Hr.
  - left. intros i x y Hi. lia.
  - destruct (IH ltac:(lia)) as [Hs|(m & x & y & Hm & Hrest)].
    + destruct (nth_error_ex _ a r ltac:(lia)) as [x Hx]. destruct (nth_error_ex _ b r ltac:(lia)) as [y Hy].
      destruct (Nat.eq_dec x y) as [E|E].
      * left. intros i x' y' Hi Hx' Hy'. destruct (Nat.eq_dec i r) as [->|]; [left; congruence|].
        apply (Hs i); auto. lia.
      * destruct (le_dec nC x) as [Hcx|Hcx]; [destruct (le_dec nC y) as [Hcy|Hcy]|].
        -- left. intros i x' y' Hi Hx' Hy'. destruct (Nat.eq_dec i r) as [->|].
           ++ right. split; congruence.
           ++ apply (Hs i); auto. lia.
        -- right. exists r, x, y. repeat (split; [auto|]). lia.
        -- right. exists r, x, y. repeat (split; [auto|]). lia.
    + right. exists m, x, y. split; [lia|exact Hrest].
Qed.

(** Exchange non-real columns so that the first m rows are those of a. *)
Lemma adjust : forall a, assignment n a -> forall m b, (m <= n)%nat -> assignment n b -> same_real m nC a b ->
  exists b', assignment n b' /\ firstn m b' = firstn m a /\ same_real n nC b' b.
Proof.
  intros a Ha. assert (La := assignment_length n a Ha). induction m as [|m IH]; intros b Hm Hb Hs.
  - exists b. split; [auto|]. split; [reflexivity|apply same_refl].
  - destruct (IH b ltac:(lia) Hb ltac:(intros i x y Hi; apply Hs; lia)) as (b1 & H1 & H2 & H3).
    assert (L1 := assignment_length n b1 H1). assert (Lb := assignment_length n b Hb).
    destruct (nth_error_ex _ a m ltac:(lia)) as [x Hx]. destruct (nth_error_ex _ b1 m ltac:(lia)) as [y Hy].
    destruct (nth_error_ex _ b m ltac:(lia)) as [z Hz].
    assert (firstn_S : forall (l : list nat) v, nth_error l m = Some v -> firstn (S m) l = firstn m l ++ [v]).
    { clear. induction m as [|m IH]; intros [|w l] v H; simpl in H; try discriminate.
      - injection H as ->. reflexivity.
      - cbn [firstn app]. f_equal. now apply IH. }
    destruct (Nat.eq_dec x y) as [E|E].
    + subst y. exists b1. split; [exact H1|]. split; [|exact H3].
      rewrite (firstn_S b1 x Hy), (firstn_S a x Hx), H2. reflexivity.
    + assert (Hxy : (nC <= x)%nat /\ (nC <= y)%nat).
      { destruct (H3 m y z ltac:(lia) Hy Hz) as [->|[? ?]].
        - destruct (Hs m x z ltac:(lia) Hx Hz) as [->|[? ?]]; [congruence|auto].
        - destruct (Hs m x z ltac:(lia) Hx Hz) as [->|[? ?]]; auto. }
      exists (map (tau x y) b1). split; [|split].
      * apply tau_assignment; auto; [apply (assignment_bound n a)|apply (assignment_bound n b1)]; auto; eapply nth_error_In; eauto.
      * assert (Hy' : nth_error (map (tau x y) b1) m = Some x) by (rewrite nth_error_map, Hy; simpl; now rewrite tau_r).
        rewrite (firstn_S _ x Hy'), (firstn_S a x Hx). f_equal.
        rewrite firstn_map, H2. apply list_ext. intros i. rewrite nth_error_map.
        destruct (Nat.lt_ge_cases i m) as [Hi|Hi].
        -- rewrite nth_error_firstn by auto. destruct (nth_error_ex _ a i ltac:(lia)) as [w Hw]. rewrite Hw. simpl. f_equal.
           apply tau_other.
           ++ intros ->. assert (Hnd := assignment_nodup n a Ha). rewrite NoDup_nth_error in Hnd.
              assert (i = m); [|lia]. apply Hnd; [lia|congruence].
           ++ intros ->. assert (Hnd := assignment_nodup n b1 H1). rewrite NoDup_nth_error in Hnd.
              assert (i = m); [|lia]. apply Hnd; [lia|].
              rewrite Hy. rewrite <- Hw. apply (prefix_nth b1 a m); auto.
        -- rewrite (proj2 (nth_error_None (firstn m a) i)) by (rewrite firstn_length; lia). reflexivity.
      * intros i w v Hi Hw Hv. rewrite nth_error_map in Hw.
        destruct (nth_error b1 i) as [u|] eqn:Eu; [|discriminate]. simpl in Hw. injection Hw as <-.
        assert (Hu := H3 i u v Hi Eu Hv). unfold tau.
        destruct (Nat.eqb_spec u x) as [->|]; [right; destruct Hu as [<-|[? ?]]; lia|].
        destruct (Nat.eqb_spec u y) as [->|]; [right; destruct Hu as [<-|[? ?]]; lia|]. exact Hu.
Qed.

(** When all rows but the last agree, the last one does. *)
Lemma last_row : forall a b, assignment n a -> assignment n b -> same_real (n - 1) nC a b -> same_real n nC a b.
Proof.
  intros a b Ha Hb Hs i x y Hi Hx Hy.
  destruct (Nat.lt_ge_cases i (n - 1)) as [Hlt|Hge]; [apply (Hs i); auto|].
  assert (La := assignment_length n a Ha). assert (Lb := assignment_length n b Hb).
  assert (G : forall u v w z, assignment n u -> assignment n v -> same_real (n - 1) nC u v ->
     nth_error u i = Some w -> nth_error v i = Some z -> (z < nC)%nat -> w = z).
  { intros u v w z Hu Hv Huv Hw Hz Hlt.
    assert (Hin : In z u) by (apply (assignment_in n u z Hu), (assignment_bound n v z Hv); eapply nth_error_In; eauto).
    apply In_nth_error in Hin. destruct Hin as [k Hk]. assert (Hkn := nth_error_lt _ _ _ _ Hk).
    rewrite (assignment_length n u Hu) in Hkn.
    destruct (Nat.eq_dec k i) as [->|Hne]; [congruence|].
    destruct (nth_error_ex _ v k ltac:(rewrite (assignment_length n v Hv); lia)) as [q Hq].
    destruct (Huv k z q ltac:(lia) Hk Hq) as [<-|[? ?]]; [|lia].
    assert (Hnd := assignment_nodup n v Hv). rewrite NoDup_nth_error in Hnd.
    exfalso. apply Hne. apply Hnd; [rewrite (assignment_length n v Hv); lia|congruence]. }
  destruct (Nat.lt_ge_cases y nC) as [Hy0|Hy0]; [left; eapply (G a b); eauto|].
  destruct (Nat.lt_ge_cases x nC) as [Hx0|Hx0]; [|auto]. left. symmetry.
  apply (G b a y x); auto. intros k u v Hk Hu Hv. destruct (Hs k v u Hk Hv Hu) as [->|[? ?]]; auto.
Qed.

Lemma xb_real : forall fixed c0 c, xb nC (free_cols n fixed) c0 c = true -> c = c0 \/ ((nC <= c0)%nat /\ (nC <= c)%nat).
Proof.
  intros fixed c0 c H. unfold xb in H. apply orb_true_iff in H. destruct H as [H|H].
  - apply Nat.eqb_eq in H. auto.
  - destruct (index_of c0 (free_cols n fixed)) as [j0|] eqn:E0; [|discriminate].
    destruct (index_of c (free_cols n fixed)) as [j|] eqn:E1; [|discriminate].
    apply andb_true_iff in H. rewrite !Nat.leb_le in H. apply index_le in E0, E1. right. lia.
Qed.

(** After a node is popped, everything it stood for is still represented. *)
Lemma cover_child : forall par X b, good par X -> cell (par, X) b ->
  same (na par) b \/
  exists p b', (nid par <= p < pmax)%nat /\ same b' b /\ cellX n p (firstn p (na par)) (childX par X p) b'.
Proof.
  intros par X b Hg (Hb1 & Hb2 & Hb3). cbn [fst snd] in Hb2, Hb3.
  assert (Ha := good_assignment n C nC par X Hg).
  destruct (first_difference (na par) b Ha Hb1 nR HnR) as [Hs|(m & x & y & Hm & Hs & Hx & Hy & Hne & Hnr)]; [now left|].
  destruct (Nat.eq_dec nR n) as [En|En].
  - (* all rows are real *)
    destruct (Nat.eq_dec m (n - 1)) as [Em|Em].
    + left. subst m. assert (H := last_row (na par) b Ha Hb1 Hs). rewrite En. exact H.
    + right. assert (Hmid : (nid par <= m)%nat).
      { destruct (Nat.lt_ge_cases m (nid par)) as [Hlt|]; auto. exfalso. apply Hne.
        assert (E := prefix_nth b (na par) (nid par) m Hb2 Hlt). congruence. }
      revert Hmid. intros Hmid.
      assert (Hpm : (m < pmax)%nat) by (unfold pmax; rewrite En, Nat.eqb_refl; lia).
      destruct (Nat.eq_dec m (nid par)) as [Ei|Ei].
      * exists m, b. split; [lia|]. split; [apply same_refl|]. split; [exact Hb1|]. split; [now rewrite Ei|].
        intros c Hc. rewrite Hy in Hc. injection Hc as <-. unfold MurtyProofs2.childX.
        rewrite (nth_error_nth _ _ 0%nat Hx). rewrite (Hb3 y) by (now rewrite <- Ei). rewrite andb_false_r, orb_false_r.
        destruct (xb nC (free_cols n (firstn m (na par))) x y) eqn:Exb; auto.
        apply xb_real in Exb. destruct Exb; [congruence|tauto].
      * destruct (adjust (na par) Ha m b ltac:(lia) Hb1 Hs) as (b' & H1 & H2 & H3).
        exists m, b'. split; [lia|]. split; [intros i u v Hi; apply H3; lia|]. split; [exact H1|]. split; [exact H2|].
        intros c Hc. unfold MurtyProofs2.childX. rewrite (nth_error_nth _ _ 0%nat Hx).
        destruct (Nat.eqb_spec m (nid par)); [congruence|]. rewrite andb_false_l, orb_false_r.
        destruct (xb nC (free_cols n (firstn m (na par))) x c) eqn:Exb; auto.
        apply xb_real in Exb. destruct (H3 m c y ltac:(lia) Hc Hy) as [->|[? ?]]; destruct Exb; try congruence; try tauto; subst; tauto.
  - right. assert (Hmid : (nid par <= m)%nat).
    { destruct (Nat.lt_ge_cases m (nid par)) as [Hlt|]; auto. exfalso. apply Hne.
      assert (E := prefix_nth b (na par) (nid par) m Hb2 Hlt). congruence. }
    assert (Hpm : (m < pmax)%nat) by (unfold pmax; apply Nat.eqb_neq in En; rewrite En; lia).
    destruct (Nat.eq_dec m (nid par)) as [Ei|Ei].
    * exists m, b. split; [lia|]. split; [apply same_refl|]. split; [exact Hb1|]. split; [now rewrite Ei|].
      intros c Hc. rewrite Hy in Hc. injection Hc as <-. unfold MurtyProofs2.childX.
      rewrite (nth_error_nth _ _ 0%nat Hx). rewrite (Hb3 y) by (now rewrite <- Ei). rewrite andb_false_r, orb_false_r.
      destruct (xb nC (free_cols n (firstn m (na par))) x y) eqn:Exb; auto.
      apply xb_real in Exb. destruct Exb; [congruence|tauto].
    * destruct (adjust (na par) Ha m b ltac:(lia) Hb1 Hs) as (b' & H1 & H2 & H3).
      exists m, b'. split; [lia|]. split; [intros i u v Hi; apply H3; lia|]. split; [exact H1|]. split; [exact H2|].
      intros c Hc. unfold MurtyProofs2.childX. rewrite (nth_error_nth _ _ 0%nat Hx).
      destruct (Nat.eqb_spec m (nid par)); [congruence|]. rewrite andb_false_l, orb_false_r.
      destruct (xb nC (free_cols n (firstn m (na par))) x c) eqn:Exb; auto.
      apply xb_real in Exb. destruct (H3 m c y ltac:(lia) Hc Hy) as [->|[? ?]]; destruct Exb; try congruence; try tauto; subst; tauto.
Qed.

(** Assignments of score at least tau that leave row i to the other columns use column f i. *)
Definition one_miss (f : nat -> nat) (tau : Z) : Prop :=
  forall a, assignment n a -> tau <= score C a ->
  forall i c, (i < nR)%nat -> nth_error a i = Some c -> (nC <= c)%nat -> c = f i.

Lemma prefix_ext : forall (a b : list nat) m, length a = length b ->
  (forall i, (i < m)%nat -> nth_error a i = nth_error b i) -> firstn m a = firstn m b.
Proof.
  induction a as [|x a IH]; intros [|y b] m L H; cbn in L; try lia.
  - reflexivity.
  - destruct m as [|m]; [reflexivity|]. cbn. assert (H0 := H 0%nat ltac:(lia)). cbn in H0. injection H0 as <-.
    f_equal. apply IH; [lia|]. intros i Hi. apply (H (S i)). lia.
Qed.

Lemma first_column : forall (a b : list nat) r, length a = length b -> firstn r a <> firstn r b ->
  exists m, (m < r)%nat /\ (m < length a)%nat /\ firstn m a = firstn m b /\ nth_error a m <> nth_error b m.
Proof.
  induction a as [|x a IH]; intros [|y b] [|r] L H; cbn in L; try lia; try (exfalso; apply H; reflexivity).
  destruct (Nat.eq_dec x y) as [->|Hne].
  - destruct (IH b r ltac:(lia)) as (m & M1 & M2 & M3 & M4).
    { intros E. apply H. cbn. now rewrite E. }
    exists (S m). cbn. repeat split; try lia; [now rewrite M3|exact M4].
  - exists 0%nat. cbn. repeat split; try lia. congruence.
Qed.

Lemma last_column : forall a b, assignment n a -> assignment n b -> firstn (n - 1) a = firstn (n - 1) b -> a = b.
Proof.
  intros a b Ha Hb E.
  assert (La := assignment_length n a Ha). assert (Lb := assignment_length n b Hb).
  destruct (Nat.eq_dec n 0) as [Z|Z].
  { destruct a; [|cbn in La; lia]. destruct b; [reflexivity|cbn in Lb; lia]. }
  rewrite <- (firstn_skipn (n - 1) a), <- (firstn_skipn (n - 1) b). f_equal; [exact E|].
  assert (Sa : length (skipn (n - 1) a) = 1%nat) by (rewrite skipn_length; lia).
  assert (Sb : length (skipn (n - 1) b) = 1%nat) by (rewrite skipn_length; lia).
  destruct (skipn (n - 1) a) as [|x [|? ?]] eqn:Ea; try discriminate.
  destruct (skipn (n - 1) b) as [|y [|? ?]] eqn:Eb; try discriminate.
  assert (P : Permutation (firstn (n - 1) a ++ [x]) (firstn (n - 1) a ++ [y])).
  { rewrite <- Ea at 1. rewrite E at 2. rewrite <- Eb, !firstn_skipn.
    eapply perm_trans; [exact Ha|apply Permutation_sym; exact Hb]. }
  apply Permutation_app_inv_l in P. apply Permutation_length_1 in P. now rewrite P.
Qed.

(** Under one_miss an assignment stays in the queue until it is represented. *)
Lemma cover_exact : forall f tau par X b, one_miss f tau -> good par X -> cell (par, X) b -> tau <= score C b ->
  firstn nR (na par) = firstn nR b \/
  exists p, (nid par <= p < pmax)%nat /\ cellX n p (firstn p (na par)) (childX par X p) b.
Proof.
  intros f tau par X b Hone Hg Hcell Ht.
  assert (Ha := good_assignment n C nC par X Hg).
  assert (Hsc : tau <= score C (na par)).
  { destruct (good_cell n C nC par X Hg) as (_ & _ & H). specialize (H b Hcell). lia. }
  destruct Hcell as (Hb1 & Hb2 & Hb3). cbn [fst snd] in Hb2, Hb3.
  assert (La := assignment_length n _ Ha). assert (Lb := assignment_length n b Hb1).
  destruct (list_eq_dec Nat.eq_dec (firstn nR (na par)) (firstn nR b)) as [E|E]; [now left|].
  destruct (first_column (na par) b nR (eq_trans La (eq_sym Lb)) E) as (m & M1 & M2 & M3 & M4). right.
  assert (Hmid : (nid par <= m)%nat).
  { destruct (Nat.lt_ge_cases m (nid par)) as [Hlt|]; auto. exfalso. apply M4. symmetry.
    apply (prefix_nth b (na par) (nid par) m Hb2 Hlt). }
  assert (Hpm : (m < pmax)%nat).
  { unfold pmax. destruct (Nat.eqb_spec nR n) as [En|En]; [|lia].
    destruct (Nat.eq_dec m (n - 1)) as [->|]; [|lia]. exfalso. apply M4. f_equal. now apply last_column. }
  exists m. split; [lia|]. split; [exact Hb1|]. split; [now symmetry|].
  intros c Hc. destruct (nth_error_ex _ (na par) m ltac:(lia)) as [x Hx].
  unfold MurtyProofs2.childX. rewrite (nth_error_nth _ _ 0%nat Hx).
  apply orb_false_iff. split.
  - destruct (xb nC (free_cols n (firstn m (na par))) x c) eqn:Exb; auto. exfalso.
    apply xb_real in Exb. apply M4. rewrite Hx, Hc. f_equal. destruct Exb as [->|[K1 K2]]; [reflexivity|].
    rewrite (Hone _ Ha Hsc m x M1 Hx K1), (Hone _ Hb1 Ht m c M1 Hc K2). reflexivity.
  - destruct (Nat.eqb_spec m (nid par)) as [Em|]; [|reflexivity]. cbn [andb]. apply Hb3. now rewrite <- Em.
Qed.

(** Whether an assignment belongs to a node depends on its real rows only. *)
Definition closed (u : gnode) : Prop :=
  forall b b', assignment n b' -> firstn nR b = firstn nR b' -> cell u b -> cell u b'.

Lemma cell_closed : forall nd X, (nid nd < nR)%nat \/ (nid nd = 0%nat /\ forall c, X c = false) -> closed (nd, X).
Proof.
  intros nd X H b b' Hb' E (Hb1 & Hb2 & Hb3). cbn [fst snd] in Hb2, Hb3.
  split; [exact Hb'|]. cbn [fst snd]. destruct H as [H|[H0 H1]].
  - split.
    + rewrite <- Hb2. symmetry. apply (prefix_le b b' nR); [exact E|lia].
    + intros c Hc. apply Hb3. rewrite (prefix_nth b b' nR (nid nd) E H). exact Hc.
  - rewrite H0. split; [reflexivity|]. intros c _. apply H1.
Qed.

(** ----- the invariant ----- *)
Record inv (M : murty) (gq : list gnode) (W : list (list nat)) : Prop := {
  i_par : params M;
  i_q : map fst gq = mq M;
  i_good : forall u, In u gq -> good (fst u) (snd u);
  i_disj : ForallOrdPairs disjoint gq;
  i_old : forall u b, In u gq -> cell u b -> ~ In b W;
  i_nd : NoDup W;
  i_asg : forall a, In a W -> assignment n a;
  i_sort : StronglySorted (fun a b => score C b <= score C a) W;
  i_le : forall u b a, In u gq -> cell u b -> In a W -> score C b <= score C a;
  i_cov : forall b, assignment n b -> (exists a, In a W /\ same a b) \/
            exists u b', In u gq /\ same b' b /\ cell u b';
  i_closed : forall u, In u gq -> closed u;
  i_rows : NoDup (map (firstn nR) W);
  i_exact : forall f tau, one_miss f tau -> forall b, assignment n b -> tau <= score C b ->
            (exists a, In a W /\ firstn nR a = firstn nR b /\ score C b <= score C a) \/
            exists u, In u gq /\ cell u b }.

Variable pick : list node -> option (node * list node).
Hypothesis Hpick : queue_contract pick.

Lemma sorted_snoc : forall W a, StronglySorted (fun a b => score C b <= score C a) W ->
  (forall x, In x W -> score C a <= score C x) -> StronglySorted (fun a b => score C b <= score C a) (W ++ [a]).
Proof.
  induction W as [|x W IH]; intros a Hs Ha; simpl.
  - constructor; constructor.
  - inversion Hs as [|? ? H1 H2]; subst. constructor.
    + apply IH; auto. intros. apply Ha. now right.
    + apply Forall_app. split; auto. constructor; [apply Ha; now left|constructor].
Qed.

Lemma pop_step : forall M gq W x q, inv M gq W -> pick (mq M) = Some (x, q) ->
  exists cs gq', make_children M x (seq (nid x) (partition_max M - nid x)) = Val cs /\
  forall M', params M' -> mq M' = q ++ cs -> inv M' gq' (W ++ [na x]).
Proof.
  intros M gq W x q I Epk. destruct I as [Ipar Iq Igood Idisj Iold Ind Iasg Isort Ile Icov Icl Irow Iex].
  assert (Hq := Hpick (mq M)). rewrite Epk in Hq. destruct Hq as [Hperm Hmax].
  rewrite <- Iq in Hperm, Hmax. apply Permutation_sym in Hperm.
  apply Permutation_map_inv in Hperm. destruct Hperm as (gl & Egl & Hpg).
  destruct gl as [|[x' X] g]; [discriminate|]. simpl in Egl. injection Egl as <- Eg.
  assert (Hinx : In (x, X) gq) by (eapply Permutation_in; [apply Permutation_sym, Hpg|now left]).
  assert (Hgx : good x X) by (apply (Igood (x, X)); auto).
  destruct (good_cell n C nC x X Hgx) as (Hcx & Hsx & Hbx).
  assert (Epm : partition_max M = pmax).
  { destruct Ipar as (_ & Hn & _ & HR & _). unfold partition_max, pmax. now rewrite Hn, HR. }
  assert (Hpmn : (pmax <= n)%nat) by (unfold pmax; destruct (Nat.eqb nR n); lia).
  assert (Hps : forall p, In p (seq (nid x) (partition_max M - nid x)) <-> (nid x <= p < pmax)%nat).
  { intros p. rewrite in_seq, Epm. lia. }
  destruct (children_ok M x X Ipar Hgx (seq (nid x) (partition_max M - nid x)) (seq_NoDup _ _)) as (gs & Ecs & H1 & H2 & H3).
  { intros p Hp. apply Hps in Hp. lia. }
  exists (map fst gs), (g ++ gs). split; [exact Ecs|]. intros M' Hpar' Hq'.
  assert (Hing : forall u, In u g -> In u gq) by (intros u Hu; eapply Permutation_in; [apply Permutation_sym, Hpg|now right]).
  assert (Hdg : ForallOrdPairs disjoint ((x, X) :: g)) by (eapply fop_perm; eauto using disjoint_sym).
  inversion Hdg as [|? ? Hdx Hdg']; subst. rewrite Forall_forall in Hdx.
  assert (Hkid : forall u b, In u gs -> cell u b -> cell (x, X) b /\ b <> na x).
  { intros u b Hu Hc. destruct (H1 u Hu) as (_ & A2 & A3 & A4). apply Hps in A2.
    unfold MurtyProofs2.cell in Hc. rewrite A3, A4 in Hc.
    destruct (child_inside x X (nid (fst u)) b Hgx ltac:(lia) Hc) as [B1 B2]. split; [exact B1|]. intros ->. now apply B2. }
  assert (Hall : forall u b, In u gq -> cell u b -> score C b <= score C (na x)).
  { intros u b Hu Hc. destruct u as [nd Y]. assert (Hgd := Igood _ Hu). simpl in Hgd.
    destruct (good_cell n C nC nd Y Hgd) as (_ & Hs & Hb). specialize (Hb b Hc).
    assert (Hmx := Hmax nd ltac:(apply in_map_iff; exists (nd, Y); auto)). lia. }
  constructor.
  - exact Hpar'.
  - rewrite map_app, Hq'. f_equal; auto.
  - intros u Hu. apply in_app_iff in Hu. destruct Hu as [Hu|Hu]; [auto|apply H1, Hu].
  - apply fop_app; auto.
    + apply (children_disjoint x X); auto. intros u Hu. destruct (H1 u Hu) as (_ & A2 & A3 & A4).
      apply Hps in A2. split; [lia|]. split; [exact A3|exact A4].
    + intros u v Hu Hv b Hcu Hcv. destruct (Hkid v b Hv Hcv) as [B1 _]. exact (Hdx u Hu b B1 Hcu).
  - intros u b Hu Hc Hin. apply in_app_iff in Hu. apply in_app_iff in Hin.
    destruct Hin as [Hin|[<-|[]]].
    + destruct Hu as [Hu|Hu]; [exact (Iold u b (Hing u Hu) Hc Hin)|].
      destruct (Hkid u b Hu Hc) as [B1 _]. exact (Iold (x, X) b Hinx B1 Hin).
    + destruct Hu as [Hu|Hu].
      * exact (Hdx u Hu _ Hcx Hc).
      * destruct (Hkid u _ Hu Hc) as [_ B2]. now apply B2.
  - apply (Permutation_NoDup (Permutation_cons_append W (na x))). constructor; auto.
    apply (Iold (x, X) (na x)); auto.
  - intros a Ha. apply in_app_iff in Ha. destruct Ha as [Ha|[<-|[]]]; [auto|]. apply Hcx.
  - apply sorted_snoc; auto. intros a Ha. apply (Ile (x, X) (na x) a); auto.
  - intros u b a Hu Hc Ha. apply in_app_iff in Hu. apply in_app_iff in Ha.
    assert (Hin : exists v, In v gq /\ cell v b).
    { destruct Hu as [Hu|Hu]; [exists u; auto|]. exists (x, X). split; auto. now apply (Hkid u b Hu). }
    destruct Hin as (v & Hv & Hvc). destruct Ha as [Ha|[<-|[]]]; [eapply Ile; eauto|eapply Hall; eauto].
  - intros b Hb. destruct (Icov b Hb) as [(a & Ha & Hs)|(u & b' & Hu & Hs & Hc)].
    + left. exists a. split; auto. apply in_or_app. now left.
    + apply (Permutation_in _ Hpg) in Hu. destruct Hu as [<-|Hu].
      * destruct (cover_child x X b' Hgx Hc) as [Hsx'|(p & b'' & Hp & Hs'' & Hc'')].
        -- left. exists (na x). split; [apply in_or_app; right; now left|].
           apply (same_trans (na x) b' b); auto. apply Hc.
        -- right. destruct (H3 p b'' ltac:(now apply Hps) Hc'') as (u & Hu & Hcu). exists u, b''.
           split; [apply in_or_app; now right|]. split; auto. apply (same_trans b'' b' b); auto. apply Hc.
      * right. exists u, b'. split; [apply in_or_app; now left|]. auto.
  - intros u Hu. apply in_app_iff in Hu. destruct Hu as [Hu|Hu]; [auto|].
    destruct u as [nd Y]. apply cell_closed. left. destruct (H1 _ Hu) as (_ & A2 & _). cbn [fst] in A2.
    apply Hps in A2. unfold pmax in A2. destruct (Nat.eqb nR n) eqn:En; [|lia].
    apply Nat.eqb_eq in En. lia.
  - rewrite map_app. cbn [map].
    apply (Permutation_NoDup (Permutation_cons_append (map (firstn nR) W) (firstn nR (na x)))).
    constructor; auto. intros Hin. apply in_map_iff in Hin. destruct Hin as (a & Ea & Hain).
    apply (Iold (x, X) a Hinx); [|exact Hain].
    apply (Icl (x, X) Hinx (na x) a); [auto|now symmetry|exact Hcx].
  - intros f tau Hone b Hb Ht. destruct (Iex f tau Hone b Hb Ht) as [(a & Ha & Ea)|(u & Hu & Hc)].
    + left. exists a. split; auto. apply in_or_app. now left.
    + apply (Permutation_in _ Hpg) in Hu. destruct Hu as [<-|Hu].
      * destruct (cover_exact f tau x X b Hone Hgx Hc Ht) as [E|(p & Hp & Hc')].
        -- left. exists (na x). split; [apply in_or_app; right; now left|]. split; [exact E|].
           now apply (good_cell n C nC x X Hgx).
        -- right. destruct (H3 p b ltac:(now apply Hps) Hc') as (u & Hu & Hcu). exists u.
           split; [apply in_or_app; now right|exact Hcu].
      * right. exists u. split; [apply in_or_app; now left|exact Hc].
Qed.

Definition done : answer := (-1, None, 0).

Lemma empty_calls : forall k M, mk M <> 0%nat -> mq M = [] -> best_calls pick k M = Val (repeat done k).
Proof.
  induction k as [|k IH]; intros M Hk Hq; auto. cbn [best_calls]. unfold findNextBest.
  destruct (Nat.eqb_spec (mk M) 0); [lia|]. rewrite Hq.
  assert (H := Hpick []). destruct (pick []) as [[x r]|].
  - destruct H as [H _]. apply Permutation_nil in H. discriminate.
  - cbn [obind fst snd]. rewrite (IH M Hk Hq). reflexivity.
Qed.

Lemma nodup_fact : forall W, NoDup W -> (forall a, In a W -> assignment n a) -> (length W <= fact n)%nat.
Proof.
  intros W Hnd Ha. assert (H : (length W <= length (enum n (seq 0 n)))%nat).
  { apply NoDup_incl_length; auto. intros a Hin. apply enum_in; [apply seq_NoDup|apply seq_length|]. now apply Ha. }
  rewrite enum_length in H; auto; [apply seq_NoDup|apply seq_length].
Qed.

Definition tops (M : murty) : list (list nat) :=
  match pick (mq M) with None => [] | Some (x, _) => [na x] end.

Definition complete_list (W : list (list nat)) : Prop :=
  NoDup W /\ (forall a, In a W -> assignment n a) /\
  StronglySorted (fun a b => score C b <= score C a) W /\
  (forall b, assignment n b -> exists a, In a W /\ same a b) /\
  NoDup (map (firstn nR) W) /\
  (forall f tau, one_miss f tau -> forall b, assignment n b -> tau <= score C b ->
     exists a, In a W /\ firstn nR a = firstn nR b /\ score C b <= score C a).

Lemma inv_empty : forall M gq W, inv M gq W -> mq M = [] -> complete_list W.
Proof.
  intros M gq W I Hq. destruct I as [Ipar Iq Igood Idisj Iold Ind Iasg Isort Ile Icov Icl Irow Iex].
  rewrite Hq in Iq. destruct gq; [|discriminate]. split; [exact Ind|]. split; [exact Iasg|]. split; [exact Isort|].
  split; [|split; [exact Irow|]].
  - intros b Hb. destruct (Icov b Hb) as [H|(u & _ & [] & _)]. exact H.
  - intros f tau Hone b Hb Ht. destruct (Iex f tau Hone b Hb Ht) as [H|(u & [] & _)]. exact H.
Qed.

Lemma run_from : forall fuel M gq W, inv M gq W -> mk M <> 0%nat -> (fact n < length W + fuel)%nat ->
  exists outs,
  (forall k, best_calls pick k M = Val (firstn k (answers (S (mk M)) (score C) outs ++ repeat done k))) /\
  complete_list (W ++ tops M ++ outs).
Proof.
  induction fuel as [|fuel IH]; intros M gq W I Hk Hf.
  - exfalso. assert (H := nodup_fact W (i_nd _ _ _ I) (i_asg _ _ _ I)). lia.
  - unfold tops. destruct (pick (mq M)) as [[x q]|] eqn:Epk.
    + destruct (pop_step M gq W x q I Epk) as (cs & gq' & Ecs & Hnext).
      assert (Hpar := i_par _ _ _ I).
      destruct (pick (q ++ cs)) as [[hi q2]|] eqn:Ehi.
      * set (M' := MU (mC M) (mn M) (mbig M) (mR M) (mCols M) (S (mk M)) (q ++ cs) (mbest M)).
        assert (I' : inv M' gq' (W ++ [na x])) by (apply Hnext; [exact Hpar|reflexivity]).
        destruct (IH M' gq' (W ++ [na x]) I') as (outs & Hc & Hcl).
        { simpl. lia. }
        { rewrite app_length. simpl. lia. }
        assert (Eh := i_good _ _ _ I').
        assert (Hhi : ns hi = score C (na hi)).
        { assert (Hm := Hpick (q ++ cs)). rewrite Ehi in Hm. destruct Hm as [Hp _].
          assert (Hin : In hi (mq M')) by (apply (Permutation_in _ (Permutation_sym Hp)); now left).
          rewrite <- (i_q _ _ _ I') in Hin. apply in_map_iff in Hin. destruct Hin as ([h Y] & E & Hu). simpl in E. subst h.
          specialize (Eh _ Hu). simpl in Eh. now apply (good_cell n C nC hi Y Eh). }
        exists (na hi :: outs). split.
        -- intros [|k]; [reflexivity|]. cbn [best_calls]. unfold findNextBest.
           destruct (Nat.eqb_spec (mk M) 0); [lia|]. rewrite Epk, Ecs. cbn [obind]. rewrite Ehi. cbn [obind fst snd].
           fold M'. rewrite Hc. cbn [obind]. unfold M' at 1. cbn [mk].
           assert (G : forall (d : answer) k l a a', (k <= a)%nat -> (k <= a')%nat ->
               firstn k (l ++ repeat d a) = firstn k (l ++ repeat d a')).
           { clear. induction k as [|k IHk]; intros l a a' Ha Ha'; auto.
             destruct l as [|c l]; simpl.
             - destruct a, a'; try lia. simpl. f_equal. apply (IHk []); lia.
             - f_equal. apply IHk; lia. }
           cbn [answers app firstn]. rewrite Hhi. do 2 f_equal. apply (G done k); lia.
        -- unfold tops in Hcl. cbn [mq] in Hcl. unfold M' in Hcl. cbn [mq] in Hcl. rewrite Ehi in Hcl.
           rewrite <- app_assoc in Hcl. exact Hcl.
      * set (M' := MU (mC M) (mn M) (mbig M) (mR M) (mCols M) (mk M) (q ++ cs) (mbest M)).
        assert (I' : inv M' gq' (W ++ [na x])) by (apply Hnext; [exact Hpar|reflexivity]).
        assert (Hm := Hpick (q ++ cs)). rewrite Ehi in Hm.
        exists []. split.
        -- intros [|k]; [reflexivity|]. cbn [best_calls]. unfold findNextBest.
           destruct (Nat.eqb_spec (mk M) 0); [lia|]. rewrite Epk, Ecs. cbn [obind]. rewrite Ehi. cbn [obind fst snd].
           fold M'. rewrite empty_calls by auto. cbn [obind answers app]. cbn [repeat firstn].
           do 2 f_equal. symmetry. clear. induction k; simpl; f_equal; auto.
        -- rewrite app_nil_r. apply (inv_empty M' gq'); auto.
    + assert (Hm := Hpick (mq M)). rewrite Epk in Hm. exists []. split.
      * intros k. rewrite empty_calls by auto. f_equal. cbn [answers app]. clear. induction k; simpl; f_equal; auto.
      * simpl. rewrite app_nil_r. apply (inv_empty M gq W); auto.
Qed.

Theorem murty_complete : forall M, params M -> mk M = 0%nat -> mq M = [] ->
  exists outs,
  (forall k, best_calls pick k M = Val (firstn k (answers 1 (score C) outs ++ repeat (-1, None, 0) k))) /\
  complete_list outs.
Proof.
  intros M Hpar Hk Hq. destruct (hungarian_ok (mC M) (mn M) true) as (C' & a & Eh & HC' & Ha & Hbest).
  assert (Hpar' := Hpar). destruct Hpar' as (HC & Hn & Hbg & HR & Hcol). rewrite Hn in Ha, Hbest.
  assert (Hsc : forall b, score (mC M) b = score C b).
  { intros b. apply score_from_ext. intros. apply HC. }
  set (root := ND 0 a (score C a) []).
  set (M1 := MU C' n (mbig M) (mR M) (mCols M) 1 [root] (score C a)).
  assert (Hgr : good root (fun _ => false)).
  { apply good_root; auto. intros b Hb. specialize (Hbest b Hb). unfold better in Hbest. now rewrite !Hsc in Hbest. }
  assert (I1 : inv M1 [(root, fun _ => false)] []).
  { constructor; auto.
    - split; [|repeat split; auto]. intros x y. cbn [M1 mC]. rewrite HC'. apply HC.
    - intros u [<-|[]]. exact Hgr.
    - repeat constructor.
    - constructor.
    - intros b [].
    - constructor.
    - intros u b w _ _ [].
    - intros b Hb. right. exists (root, fun _ => false), b. split; [now left|]. split; [apply same_refl|].
      split; [exact Hb|]. split; [reflexivity|]. reflexivity.
    - intros u [<-|[]]. apply cell_closed. right. auto.
    - constructor.
    - intros f tau _ b Hb _. right. exists (root, fun _ => false). split; [now left|].
      split; [exact Hb|]. split; [reflexivity|]. reflexivity. }
  destruct (run_from (S (fact n)) M1 _ [] I1 ltac:(discriminate) ltac:(simpl; lia)) as (outs & Hc & Hcl).
  assert (Etop : tops M1 = [a]).
  { unfold tops. cbn [M1 mq]. assert (H := Hpick [root]). destruct (pick [root]) as [[x r]|]; [|discriminate].
    destruct H as [H _]. apply Permutation_length_1_inv in H. now injection H as ->. }
  rewrite Etop in Hcl. exists (a :: outs). split; [|exact Hcl].
  intros [|k]; [reflexivity|]. cbn [best_calls]. unfold findNextBest. rewrite Hk. cbn [Nat.eqb].
  rewrite Hn in Eh. rewrite Hn, Eh. cbn [obind snd fst]. rewrite Hq, Hsc.
  fold root. fold M1. rewrite Hc. cbn [obind M1 mk answers app firstn].
  do 2 f_equal.
  assert (G : forall (d : answer) k l a a', (k <= a)%nat -> (k <= a')%nat ->
      firstn k (l ++ repeat d a) = firstn k (l ++ repeat d a')).
  { clear. induction k as [|k IHk]; intros l a a' Ha Ha'; auto.
    destruct l as [|c l]; simpl.
    - destruct a, a'; try lia. simpl. f_equal. apply (IHk []); lia.
    - f_equal. apply IHk; lia. }
  apply (G done k); lia.
Qed.

End History.
