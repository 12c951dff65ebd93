(** Proofs about JCBB. *)
From Coq Require Import List Bool Arith QArith Qcanon Lia.
From Verif Require Import Base ListUtil QcLra JCBBModel JCBBSpec.
Import ListNotations.
Local Open Scope nat_scope.

Lemma somes_app : forall a b, somes (a ++ b) = somes a ++ somes b.
Proof. induction a as [|[m|] a IH]; intros b; cbn; rewrite ?IH; reflexivity. Qed.

Lemma landmarks_somes : forall h, landmarks h = somes h.
Proof. induction h as [|[m|] h IH]; cbn; rewrite ?IH; reflexivity. Qed.

Lemma somes_rev : forall h, somes (rev h) = rev (somes h).
Proof.
  induction h as [|[m|] h IH]; cbn [rev somes]; [reflexivity| |].
  - rewrite somes_app, IH. reflexivity.
  - rewrite somes_app, IH. cbn. apply app_nil_r.
Qed.

Lemma tl_rev : forall (A : Type) (h : list A), tl (rev h) = rev (removelast h).
Proof.
  intros A h. destruct (rev h) as [|x r] eqn:E.
  - apply (f_equal (@rev A)) in E. rewrite rev_involutive in E. rewrite E. reflexivity.
  - apply (f_equal (@rev A)) in E. rewrite rev_involutive in E. cbn in E. rewrite E.
    rewrite removelast_last, rev_involutive. reflexivity.
Qed.

Lemma used_rev : forall h, length (landmarks (tl (rev h))) = length (used h).
Proof.
  intros h. rewrite landmarks_somes, tl_rev, somes_rev, rev_length. reflexivity.
Qed.

Lemma used_cons : forall o h, h <> [] -> used (o :: h) = somes [o] ++ used h.
Proof.
  intros o h H. unfold used. destruct h as [|x h]; [congruence|].
  change (removelast (o :: x :: h)) with ([o] ++ removelast (x :: h)). apply somes_app.
Qed.

Lemma somes_used : forall h, length (somes h) <= 1 + length (used h).
Proof.
  intros h. destruct h as [|x h]; [cbn; lia|].
  unfold used. rewrite (app_removelast_last x (l := x :: h)) at 1 by discriminate.
  rewrite somes_app, app_length.
  destruct (last (x :: h) x); cbn [somes length]; lia.
Qed.

Lemma used_somes : forall h, length (used h) <= length (somes h).
Proof.
  intros h. destruct h as [|x h]; [cbn; lia|].
  unfold used. rewrite (app_removelast_last x (l := x :: h)) at 2 by discriminate.
  rewrite somes_app, app_length. lia.
Qed.

Section S.
Variable nZ nL : nat.
Variable unc : bool.
Variable jd : hyp -> nat -> Qc.
Variable thr : nat -> Qc.

Fixpoint ok (h : hyp) : Prop :=
  match h with
  | [] => True
  | None :: b => ok b
  | Some m :: b => m < nL /\ Qclt (jd b m) (thr (1 + length (used b))) /\ ~ In m (used b) /\ ok b
  end.

Lemma ok_app : forall a b, ok (a ++ b) -> ok b.
Proof. induction a as [|[m|] a IH]; intros b H; cbn in H; firstorder. Qed.

Lemma ok_nodup : forall h, ok h -> NoDup (used h).
Proof.
  induction h as [|o h IH]; intros H; [constructor|].
  destruct h as [|x h]; [constructor|].
  rewrite used_cons by discriminate.
  destruct o as [m|]; cbn [somes app].
  - destruct H as (H1 & H2 & H3 & H4). constructor; auto.
  - apply IH. exact H.
Qed.

Lemma ok_in : forall a m b, ok (a ++ Some m :: b) ->
  m < nL /\ Qclt (jd b m) (thr (1 + length (used b))).
Proof. intros a m b H. apply ok_app in H. destruct H as (H1 & H2 & _). auto. Qed.

(** From the specification to [ok]. *)
Lemma ok_intro : forall g, compatible nL jd thr late_count g -> NoDup (landmarks (tl g)) -> ok (rev g).
Proof.
  intros g. rewrite <- (rev_involutive g) at 1 2. set (h := rev g). clearbody h. clear g.
  induction h as [|o h IH]; intros C N; [exact I|].
  assert (Ch : compatible nL jd thr late_count (rev h)).
  { intros p m r E. apply (C p m (r ++ [o])). cbn [rev]. rewrite E, <- app_assoc. reflexivity. }
  assert (E : landmarks (tl (rev (o :: h))) = rev (used (o :: h))).
  { rewrite landmarks_somes, tl_rev, somes_rev. reflexivity. }
  rewrite E in N.
  assert (Nu : NoDup (used (o :: h))) by (apply NoDup_rev in N; rewrite rev_involutive in N; exact N).
  assert (Nh : NoDup (used h)).
  { destruct h as [|x h]; [constructor|]. rewrite used_cons in Nu by discriminate.
    destruct o; [inversion Nu; auto|exact Nu]. }
  assert (Nh' : NoDup (landmarks (tl (rev h)))).
  { rewrite landmarks_somes, tl_rev, somes_rev. apply NoDup_rev. exact Nh. }
  specialize (IH Ch Nh').
  destruct o as [m|]; [|exact IH].
  destruct (C (rev h) m [] eq_refl) as [H1 H2].
  rewrite rev_involutive in H2. unfold late_count in H2. rewrite used_rev in H2.
  repeat split; auto.
  destruct h as [|x h]; [intros []|]. rewrite used_cons in Nu by discriminate.
  cbn [somes app] in Nu. inversion Nu; auto.
Qed.

Lemma ok_elim : forall h, ok h -> compatible nL jd thr late_count (rev h).
Proof.
  intros h H p m r E. apply (f_equal (@rev _)) in E. rewrite rev_involutive, rev_app_distr in E.
  cbn [rev] in E. rewrite <- app_assoc in E. cbn [app] in E. rewrite E in H.
  destruct (ok_in _ _ _ H) as [H1 H2]. split; [exact H1|].
  unfold late_count. rewrite <- (rev_involutive p), used_rev. rewrite rev_involutive. exact H2.
Qed.

Definition nodeok (x : node) : Prop := ok (nh x) /\ length (nh x) < nZ.
Definition bestok (s : st) : Prop :=
  match best s with
  | None => nbest s = 0
  | Some b => ok (nh b) /\ nh b <> [] /\ length (nh b) <= nZ /\
              nbest s = 1 + length (used (tl (nh b)))
  end.
Definition inv (s : st) : Prop := Forall nodeok (queue s) /\ bestok s.

Definition covered (s : st) (b : hyp) : Prop :=
  1 + length (used b) <= nbest s \/ exists n a, In n (queue s) /\ b = a ++ nh n.

Definition grows (s s' : st) : Prop :=
  nbest s <= nbest s' /\ incl (queue s) (queue s').

Lemma grows_refl : forall s, grows s s.
Proof. intros s. split; [lia|apply incl_refl]. Qed.
Lemma grows_trans : forall a b c, grows a b -> grows b c -> grows a c.
Proof. intros a b c [H1 H2] [H3 H4]. split; [lia|eapply incl_tran; eauto]. Qed.

Lemma push_facts : forall x s, ok (nh x) -> inv s ->
  inv (push nZ x s) /\ grows s (push nZ x s) /\ nbest (push nZ x s) = nbest s /\
  dbest (push nZ x s) = dbest s /\ best (push nZ x s) = best s /\
  (length (nh x) < nZ -> In x (queue (push nZ x s))).
Proof.
  intros x s O [Q B]. unfold push. destruct (Nat.ltb_spec (length (nh x)) nZ) as [L|L].
  - split; [|split]; [| |cbn; intuition auto].
    + split; [|exact B]. cbn [queue]. apply Forall_app. split; [exact Q|].
      constructor; [split; assumption|constructor].
    + split; cbn; [lia|]. intros y Hy. apply in_or_app. left. exact Hy.
    + apply in_or_app. right. left. reflexivity.
  - split; [split; assumption|]. split; [apply grows_refl|]. intuition lia.
Qed.

Definition done_for (n : node) (s : st) (m : nat) : Prop :=
  ok (Some m :: nh n) ->
  1 + length (used (nh n)) <= nbest s /\
  (S (length (nh n)) < nZ -> exists x, In x (queue s) /\ nh x = Some m :: nh n).

Lemma done_grows : forall n s s' m, grows s s' -> done_for n s m -> done_for n s' m.
Proof.
  intros n s s' m [G1 G2] D O. destruct (D O) as [D1 D2]. split; [lia|].
  intros L. destruct (D2 L) as (x & X1 & X2). exists x. split; auto.
Qed.

Lemma try_facts : forall n s m s', nodeok n -> m < nL -> inv s ->
  try_lmk nZ unc jd thr n s m = Val s' -> inv s' /\ grows s s' /\ done_for n s' m.
Proof.
  intros n s m s' [On Ln] Lm I E. unfold try_lmk in E.
  destruct (existsb (Nat.eqb m) (used (nh n))) eqn:Ex.
  { inversion E; subst s'. split; [exact I|]. split; [apply grows_refl|].
    intros (_ & _ & H & _). exfalso. apply H. apply existsb_exists in Ex.
    destruct Ex as (y & Y1 & Y2). apply Nat.eqb_eq in Y2. subst. exact Y1. }
  assert (NI : ~ In m (used (nh n))).
  { intros H. assert (existsb (Nat.eqb m) (used (nh n)) = true) as X; [|congruence].
    apply existsb_exists. exists m. split; [exact H|apply Nat.eqb_refl]. }
  destruct (nZ <=? length (nh n)) eqn:Ez; [discriminate|].
  destruct (unc && _ && _) eqn:Eu; [discriminate|].
  cbv zeta in E.
  destruct (Qcltb (jd (nh n) m) (thr (1 + length (used (nh n))))) eqn:Et.
  2:{ inversion E; subst s'. split; [exact I|]. split; [apply grows_refl|].
      intros (_ & H & _). apply Qcltb_false in Et. exfalso. revert Et H.
      cbn [Nat.add]. intros. qclra. }
  apply Qcltb_true in Et.
  set (x := Node (Some m :: nh n) (jd (nh n) m) (ni n + 1)
              (if length (used (nh n)) =? 0 then 1 else if unc then ni n + 1 else 0)) in *.
  assert (Ox : ok (nh x)) by (cbn [nh x ok]; auto).
  destruct (push_facts x s Ox I) as (I1 & G1 & N1 & D1 & B1 & P1).
  assert (P2 : S (length (nh n)) < nZ -> In x (queue (push nZ x s))) by exact P1.
  destruct ((nbest (push nZ x s) <? length (used (nh n)) + 1) ||
    (nbest (push nZ x s) =? length (used (nh n)) + 1) && best_le (dbest (push nZ x s)) (jd (nh n) m)) eqn:Eb;
    inversion E; subst s'; clear E.
  - assert (Lb : nbest s <= length (used (nh n)) + 1).
    { rewrite N1 in Eb. apply orb_true_iff in Eb. destruct Eb as [Eb|Eb].
      - apply Nat.ltb_lt in Eb. lia.
      - apply andb_true_iff in Eb. destruct Eb as [Eb _]. apply Nat.eqb_eq in Eb. lia. }
    split; [|split].
    + split; [apply I1|]. unfold bestok. cbn [best nbest nh x tl].
      split; [exact Ox|]. split; [discriminate|]. split; [cbn; lia|lia].
    + split; [cbn; lia|]. apply G1.
    + intros _. cbn [nbest queue]. split; [lia|]. intros L. exists x. split; [auto|reflexivity].
  - split; [exact I1|]. split; [exact G1|]. intros _. split.
    + apply orb_false_iff in Eb. destruct Eb as [Eb _]. apply Nat.ltb_ge in Eb. lia.
    + intros L. exists x. split; [auto|reflexivity].
Qed.

Lemma fold_ub : forall n l (r : outcome st), (forall s, r <> Val s) ->
  fold_left (fun r m => let* x := r in try_lmk nZ unc jd thr n x m) l r = r.
Proof.
  induction l as [|m l IH]; intros r H; [reflexivity|]. cbn [fold_left].
  destruct r; [exfalso; eapply H; reflexivity| |]; cbn [obind]; apply IH; intros s0; discriminate.
Qed.

Lemma fold_facts : forall n l s s', nodeok n -> (forall m, In m l -> m < nL) -> inv s ->
  fold_left (fun r m => let* x := r in try_lmk nZ unc jd thr n x m) l (Val s) = Val s' ->
  inv s' /\ grows s s' /\ (forall m, In m l -> done_for n s' m).
Proof.
  induction l as [|m l IH]; intros s s' Nn L I E.
  - inversion E; subst. split; [exact I|]. split; [apply grows_refl|]. intros m [].
  - cbn [fold_left obind] in E.
    destruct (try_lmk nZ unc jd thr n s m) as [s1|u|] eqn:E1.
    2,3: rewrite fold_ub in E by discriminate; discriminate.
    destruct (try_facts n s m s1 Nn (L m (or_introl eq_refl)) I E1) as (I1 & G1 & D1).
    destruct (IH s1 s' Nn (fun k Hk => L k (or_intror Hk)) I1 E) as (I2 & G2 & D2).
    split; [exact I2|]. split; [eapply grows_trans; eauto|].
    intros k [<-|Hk]; [eapply done_grows; eauto|auto].
Qed.

Lemma branch_facts : forall n s s', nodeok n -> inv s ->
  branch nZ nL unc jd thr n s = Val s' ->
  inv s' /\ grows s s' /\ (forall m, m < nL -> done_for n s' m) /\
  (S (length (nh n)) < nZ -> exists x, In x (queue s') /\ nh x = None :: nh n).
Proof.
  intros n s s' Nn I E. unfold branch in E.
  destruct (negb (length (nh n) =? 0) && (nZ <=? length (nh n))) eqn:Ez.
  { apply andb_true_iff in Ez. destruct Ez as [_ Ez]. apply Nat.leb_le in Ez.
    destruct Nn. lia. }
  destruct (fold_left _ (seq 0 nL) (Val s)) as [s1|u|] eqn:Ef; [|discriminate|discriminate].
  cbn [obind] in E. cbv zeta in E.
  assert (Hl : forall m, In m (seq 0 nL) -> m < nL) by (intros m Hm; apply in_seq in Hm; lia).
  destruct (fold_facts n (seq 0 nL) s s1 Nn Hl I Ef) as (I1 & G1 & D1).
  set (x := Node (None :: nh n) (nd n) (ni n) (nc n)) in *.
  assert (Ox : ok (nh x)) by apply Nn.
  destruct (push_facts x s1 Ox I1) as (I2 & G2 & N2 & Db2 & B2 & P2).
  assert (Dn : forall m, m < nL -> done_for n (push nZ x s1) m).
  { intros m Hm. eapply done_grows; [exact G2|]. apply D1. apply in_seq. lia. }
  destruct ((nbest (push nZ x s1) =? length (used (nh n)) + 1) && best_le (dbest (push nZ x s1)) (nd n)) eqn:Eb;
    inversion E; subst s'; clear E.
  - apply andb_true_iff in Eb. destruct Eb as [Eb _]. apply Nat.eqb_eq in Eb.
    split; [|split; [|split]].
    + split; [apply I2|]. unfold bestok. cbn [best nbest nh x tl].
      split; [exact Ox|]. split; [discriminate|]. split; [destruct Nn; cbn; lia|lia].
    + eapply grows_trans; [exact G1|]. destruct G2 as [G2 G2']. split; [exact G2|exact G2'].
    + exact Dn.
    + intros L. exists x. split; [apply P2; exact L|reflexivity].
  - split; [exact I2|]. split; [eapply grows_trans; eauto|]. split; [exact Dn|].
    intros L. exists x. split; [apply P2; exact L|reflexivity].
Qed.

(** The prefix of [b] just above [nh n]. *)
Lemma branch_covers : forall n s s' b m, nodeok n -> inv s ->
  branch nZ nL unc jd thr n s = Val s' ->
  ok (Some m :: b) -> S (length b) <= nZ ->
  (exists a, b = a ++ nh n) -> covered s' b.
Proof.
  intros n s s' b m Nn I E O L (a & ->).
  destruct (branch_facts n s s' Nn I E) as (I1 & G1 & D1 & D2).
  destruct (rev a) as [|o r] eqn:Er.
  - apply (f_equal (@rev _)) in Er. rewrite rev_involutive in Er. subst a. cbn [app rev] in *.
    left. destruct (D1 m) as [H _]; [apply O|exact O|exact H].
  - apply (f_equal (@rev _)) in Er. rewrite rev_involutive in Er. cbn [rev] in Er. subst a.
    rewrite <- app_assoc in *. cbn [app] in *.
    rewrite app_length in L. cbn [length] in L.
    destruct O as (_ & _ & _ & O). apply ok_app in O.
    right. destruct o as [k|].
    + destruct (D1 k) as [_ H]; [apply O|exact O|].
      destruct H as (x & X1 & X2); [lia|]. exists x, (rev r). rewrite X2. auto.
    + destruct D2 as (x & X1 & X2); [lia|]. exists x, (rev r). rewrite X2. auto.
Qed.

Definition complete (s : st) : Prop :=
  forall m b, ok (Some m :: b) -> S (length b) <= nZ -> covered s b.

Lemma in_remove : forall (A : Type) (q : list A) i n y, nth_error q i = Some n -> In y q ->
  y = n \/ In y (firstn i q ++ skipn (S i) q).
Proof.
  induction q as [|z q IH]; intros [|i] n y E H; cbn in E; try discriminate.
  - inversion E; subst. destruct H as [<-|H]; [auto|]. right. exact H.
  - destruct H as [<-|H]; [right; left; reflexivity|].
    destruct (IH i n y E H) as [->|K]; [auto|]. right. right. exact K.
Qed.

Lemma remove_in : forall (A : Type) (q : list A) i y, In y (firstn i q ++ skipn (S i) q) -> In y q.
Proof.
  intros A q i y H. apply in_app_or in H. rewrite <- (firstn_skipn i q). apply in_or_app.
  destruct H as [H|H]; [left; exact H|right].
  revert i H. induction q as [|z q IH]; intros [|i] H; cbn in *; auto.
Qed.

Lemma run_facts : forall pick fuel s s', inv s -> complete s ->
  run nZ nL unc jd thr pick fuel s = Val s' -> inv s' /\ complete s' /\ queue s' = [].
Proof.
  induction fuel as [|f IH]; intros s s' I C E.
  - cbn [run] in E. destruct (queue s) eqn:Q; [|discriminate]. inversion E; subst. auto.
  - cbn [run] in E. destruct (queue s) as [|q0 q] eqn:Q; [inversion E; subst; auto|].
    rewrite <- Q in E.
    destruct (nth_error (queue s) (pick (queue s))) as [n|] eqn:En; [|discriminate].
    set (q' := firstn (pick (queue s)) (queue s) ++ skipn (S (pick (queue s))) (queue s)) in *.
    set (s0 := ST q' (nbest s) (dbest s) (best s)) in *.
    destruct (branch nZ nL unc jd thr n s0) as [s1|u|] eqn:Eb; [|discriminate|discriminate].
    cbn [obind] in E.
    destruct I as [Iq Ib]. rewrite Forall_forall in Iq.
    assert (Nn : nodeok n) by (apply Iq; eapply nth_error_In; exact En).
    assert (I0 : inv s0).
    { split; [|exact Ib]. cbn [queue s0]. apply Forall_forall. intros y Hy. apply Iq.
      eapply remove_in. exact Hy. }
    destruct (branch_facts n s0 s1 Nn I0 Eb) as (I1 & [G1 G2] & _).
    apply (IH s1 s'); [exact I1| |exact E].
    intros m b O L. destruct (C m b O L) as [H|(y & a & Y1 & ->)].
    + left. cbn [nbest s0] in G1. lia.
    + destruct (in_remove _ _ _ _ _ En Y1) as [->|Y2].
      * exact (branch_covers n s0 s1 (a ++ nh n) m Nn I0 Eb O L (ex_intro _ a eq_refl)).
      * right. exists y, a. split; [|reflexivity]. apply G2. exact Y2.
Qed.

Lemma init_inv : 0 < nZ -> inv (ST [Node [] 0%Qc 0 0] 0 None None).
Proof. intros H. split; [|reflexivity]. constructor; [split; [exact I|exact H]|constructor]. Qed.

Lemma init_complete : complete (ST [Node [] 0%Qc 0 0] 0 None None).
Proof. intros m b O L. right. exists (Node [] 0%Qc 0 0), b. cbn. rewrite app_nil_r. auto. Qed.

Lemma jcbb_zero : forall pick fuel h, nZ = 0 -> jcbb nZ nL unc jd thr pick fuel = Val h -> False.
Proof.
  intros pick fuel h Z E. unfold jcbb in E.
  destruct (run nZ nL unc jd thr pick fuel (ST [Node [] 0%Qc 0 0] 0 None None)) as [s|u|] eqn:R;
    [|discriminate|discriminate].
  cbn [obind] in E. destruct fuel as [|f]; [discriminate|].
  cbn [run queue] in R.
  destruct (pick [Node [] 0%Qc 0 0]) as [|k]; [|destruct k; discriminate].
  cbn [nth_error firstn skipn app nbest dbest best] in R.
  unfold branch in R. cbn [nh length Nat.eqb negb andb] in R.
  destruct (seq 0 nL) as [|m l].
  - cbn [fold_left obind] in R. unfold push in R. rewrite Z in R.
    cbn in R. destruct f; cbn in R; inversion R; subst s; discriminate.
  - cbn [fold_left obind] in R.
    assert (try_lmk nZ unc jd thr (Node [] 0%Qc 0 0) (ST [] 0 None None) m = UB Aborted) as K.
    { unfold try_lmk. rewrite Z. reflexivity. }
    rewrite K, fold_ub in R by discriminate. discriminate.
Qed.

Lemma somes_repeat : forall k, somes (repeat None k) = [].
Proof. induction k; cbn; auto. Qed.

Theorem jcbb_facts : forall pick fuel h, jcbb nZ nL unc jd thr pick fuel = Val h ->
  length h = nZ /\ compatible nL jd thr late_count h /\ NoDup (landmarks (tl h)) /\
  forall g, length g <= nZ -> compatible nL jd thr late_count g -> NoDup (landmarks (tl g)) ->
    length (landmarks g) <= length (landmarks h) + 2.
Proof.
  intros pick fuel h E.
  destruct (Nat.eq_dec nZ 0) as [Z|Z]; [exfalso; eapply jcbb_zero; eauto|].
  unfold jcbb in E.
  destruct (run nZ nL unc jd thr pick fuel (ST [Node [] 0%Qc 0 0] 0 None None)) as [s|u|] eqn:R;
    [|discriminate|discriminate].
  cbn [obind] in E.
  destruct (run_facts pick fuel _ s (init_inv ltac:(lia)) init_complete R) as ((_ & B) & C & Q).
  unfold bestok in B. destruct (best s) as [b|]; [|discriminate].
  destruct B as (Ob & Nb & Lb & Kb). injection E as <-.
  assert (Pad : forall p m r, rev (nh b) ++ repeat None (nZ - length (nh b)) = p ++ Some m :: r ->
                exists r', rev (nh b) = p ++ Some m :: r').
  { intros p m r. generalize (rev (nh b)). clear. intros l. revert p.
    induction l as [|x l IH]; intros p H.
    - exfalso. cbn [app] in H. assert (In (Some m) (repeat (@None nat) (nZ - length (nh b)))) as K.
      { rewrite H. apply in_or_app. right. left. reflexivity. }
      apply repeat_spec in K. discriminate.
    - destruct p as [|y p]; cbn [app] in *.
      + inversion H; subst. exists l. reflexivity.
      + inversion H; subst. destruct (IH p H2) as (r' & ->). exists r'. reflexivity. }
  assert (Ls : forall k, landmarks (rev (nh b) ++ repeat None k) = rev (somes (nh b))).
  { intros k. rewrite landmarks_somes, somes_app, somes_repeat, app_nil_r, somes_rev. reflexivity. }
  split; [|split; [|split]].
  - rewrite app_length, rev_length, repeat_length. lia.
  - intros p m r H. destruct (Pad p m r H) as (r' & H'). eapply ok_elim; eauto.
  - assert (T : tl (rev (nh b) ++ repeat None (nZ - length (nh b))) =
                tl (rev (nh b)) ++ repeat None (nZ - length (nh b))).
    { destruct (rev (nh b)) eqn:Er; [|reflexivity]. exfalso. apply Nb.
      apply (f_equal (@rev _)) in Er. rewrite rev_involutive in Er. exact Er. }
    rewrite T, landmarks_somes, somes_app, somes_repeat, app_nil_r, tl_rev, somes_rev.
    apply NoDup_rev. apply ok_nodup. exact Ob.
  - intros g Lg Cg Ng. rewrite Ls, rev_length.
    assert (R1 : nbest s <= 1 + length (somes (nh b))).
    { pose proof (used_somes (tl (nh b))). rewrite Kb.
      destruct (nh b) as [|[m|] t]; [congruence| |]; cbn [tl somes length] in *; lia. }
    assert (Og : ok (rev g)) by (apply ok_intro; assumption).
    rewrite landmarks_somes, <- (rev_length (somes g)), <- somes_rev.
    rewrite <- (rev_length g) in Lg. revert Og Lg. generalize (rev g). clear g Cg Ng.
    intros g. induction g as [|[m|] g IH]; intros Og Lg.
    + cbn. lia.
    + destruct (C m g Og Lg) as [K|(y & a & Y & _)].
      * pose proof (somes_used g). cbn [somes length]. lia.
      * rewrite Q in Y. destruct Y.
    + cbn [somes]. apply IH; [exact Og|cbn in Lg; lia].
Qed.

(** Termination and absence of undefined behaviour. *)
Fixpoint weight (q : list node) : nat :=
  match q with [] => 0 | x :: r => tree_nodes nL (nZ - length (nh x)) + weight r end.

Lemma weight_app : forall a b, weight (a ++ b) = weight a + weight b.
Proof. induction a as [|x a IH]; intros b; cbn; [reflexivity|]. rewrite IH. lia. Qed.

Lemma weight_push : forall x s,
  weight (queue (push nZ x s)) <= weight (queue s) + tree_nodes nL (nZ - length (nh x)).
Proof.
  intros x s. unfold push. destruct (length (nh x) <? nZ); [|lia].
  cbn [queue]. rewrite weight_app. cbn [weight]. lia.
Qed.

Lemma used_length : forall h, length (used h) <= length h - 1.
Proof.
  intros h. unfold used.
  assert (forall l, length (somes l) <= length l) as K.
  { induction l as [|[m|] l IH]; cbn; lia. }
  pose proof (K (removelast h)) as K1.
  destruct h as [|x h]; [cbn; lia|].
  assert (length (x :: h) = length (removelast (x :: h)) + 1) as K2.
  { rewrite (app_removelast_last x (l := x :: h)) at 1 by discriminate.
    rewrite app_length. reflexivity. }
  lia.
Qed.

Definition safe : Prop := unc = false \/ nZ <= 2.

Lemma try_total : forall n s m, safe -> nodeok n -> exists s', try_lmk nZ unc jd thr n s m = Val s' /\
  weight (queue s') <= weight (queue s) + tree_nodes nL (nZ - S (length (nh n))).
Proof.
  intros n s m Sf [On Ln]. unfold try_lmk.
  destruct (existsb (Nat.eqb m) (used (nh n))); [exists s; split; [reflexivity|lia]|].
  destruct (Nat.leb_spec nZ (length (nh n))) as [L|L]; [lia|].
  assert (unc && negb (length (used (nh n)) =? 0) &&
     negb ((length (used (nh n)) =? nc n) && (nc n =? ni n)) = false) as ->.
  { destruct Sf as [->|Sf]; [reflexivity|].
    pose proof (used_length (nh n)). replace (length (used (nh n))) with 0 by lia.
    cbn. rewrite andb_false_r. reflexivity. }
  cbv zeta.
  destruct (Qcltb (jd (nh n) m) _); [|exists s; split; [reflexivity|lia]].
  set (x := Node (Some m :: nh n) _ _ _).
  pose proof (weight_push x s) as W. cbn [nh x length] in W.
  destruct (_ || _); eexists; (split; [reflexivity|]); cbn [queue]; exact W.
Qed.

Lemma fold_total : forall n l s, safe -> nodeok n -> exists s',
  fold_left (fun r m => let* x := r in try_lmk nZ unc jd thr n x m) l (Val s) = Val s' /\
  weight (queue s') <= weight (queue s) + length l * tree_nodes nL (nZ - S (length (nh n))).
Proof.
  induction l as [|m l IH]; intros s Sf Nn.
  - exists s. split; [reflexivity|cbn; lia].
  - destruct (try_total n s m Sf Nn) as (s1 & E1 & W1).
    destruct (IH s1 Sf Nn) as (s2 & E2 & W2).
    exists s2. cbn [fold_left obind]. rewrite E1. split; [exact E2|]. cbn [length]. lia.
Qed.

Lemma branch_total : forall n s, safe -> nodeok n -> exists s', branch nZ nL unc jd thr n s = Val s' /\
  weight (queue s') + 1 <= weight (queue s) + tree_nodes nL (nZ - length (nh n)).
Proof.
  intros n s Sf Nn. unfold branch.
  destruct (negb (length (nh n) =? 0) && (nZ <=? length (nh n))) eqn:Ez.
  { apply andb_true_iff in Ez. destruct Ez as [_ Ez]. apply Nat.leb_le in Ez. destruct Nn. lia. }
  destruct (fold_total n (seq 0 nL) s Sf Nn) as (s1 & E1 & W1). rewrite E1. cbn [obind]. cbv zeta.
  set (x := Node (None :: nh n) _ _ _).
  pose proof (weight_push x s1) as W. cbn [nh x length] in W.
  assert (K : tree_nodes nL (nZ - length (nh n)) =
              1 + (nL + 1) * tree_nodes nL (nZ - S (length (nh n)))).
  { destruct Nn as [_ Ln]. replace (nZ - length (nh n)) with (S (nZ - S (length (nh n)))) by lia.
    reflexivity. }
  rewrite seq_length in W1. rewrite K.
  destruct ((nbest (push nZ x s1) =? length (used (nh n)) + 1) && best_le (dbest (push nZ x s1)) (nd n));
    eexists; (split; [reflexivity|]); cbn [queue]; nia.
Qed.

Lemma weight_nth : forall q i n, nth_error q i = Some n ->
  weight q = tree_nodes nL (nZ - length (nh n)) + weight (firstn i q ++ skipn (S i) q).
Proof.
  induction q as [|z q IH]; intros [|i] n E; cbn in E; try discriminate.
  - inversion E; subst. reflexivity.
  - cbn [weight firstn skipn app]. rewrite (IH i n E).
    change (match q with [] => [] | _ :: l => skipn i l end) with (skipn (S i) q). lia.
Qed.

Lemma run_total : forall pick, (forall q, q <> [] -> pick q < length q) -> safe ->
  forall fuel s, inv s -> weight (queue s) <= fuel ->
  exists s', run nZ nL unc jd thr pick fuel s = Val s'.
Proof.
  intros pick P Sf. induction fuel as [|f IH]; intros s I W.
  - cbn [run]. destruct (queue s) as [|n q] eqn:Q; [eexists; reflexivity|].
    exfalso. cbn [weight] in W. destruct I as [Iq _]. rewrite Q in Iq. inversion Iq; subst.
    destruct H1 as [_ L]. replace (nZ - length (nh n)) with (S (nZ - S (length (nh n)))) in W by lia.
    cbn in W. lia.
  - cbn [run]. destruct (queue s) as [|q0 q] eqn:Q; [eexists; reflexivity|]. rewrite <- Q.
    assert (L : pick (queue s) < length (queue s)) by (apply P; rewrite Q; discriminate).
    destruct (nth_error (queue s) (pick (queue s))) as [n|] eqn:En.
    2:{ apply nth_error_None in En. lia. }
    rewrite <- Q in W. rewrite (weight_nth _ _ _ En) in W.
    set (q' := firstn (pick (queue s)) (queue s) ++ skipn (S (pick (queue s))) (queue s)) in *.
    set (s0 := ST q' (nbest s) (dbest s) (best s)) in *.
    destruct I as [Iq Ib]. rewrite Forall_forall in Iq.
    assert (Nn : nodeok n) by (apply Iq; eapply nth_error_In; exact En).
    assert (I0 : inv s0).
    { split; [|exact Ib]. cbn [queue s0]. apply Forall_forall. intros y Hy. apply Iq.
      eapply remove_in. exact Hy. }
    destruct (branch_total n s0 Sf Nn) as (s1 & E1 & W1). rewrite E1. cbn [obind].
    apply IH; [apply (branch_facts n s0 s1 Nn I0 E1)|]. cbn [queue s0] in W1. lia.
Qed.

Theorem jcbb_total : forall pick fuel, 0 < nZ -> safe ->
  (forall q, q <> [] -> pick q < length q) -> tree_nodes nL nZ <= fuel ->
  (exists g m, In m (landmarks g) /\ length g <= nZ /\ compatible nL jd thr late_count g /\
               NoDup (landmarks (tl g))) ->
  exists h, jcbb nZ nL unc jd thr pick fuel = Val h.
Proof.
  intros pick fuel Z Sf P F (g & m & Hm & Lg & Cg & Ng). unfold jcbb.
  destruct (run_total pick P Sf fuel (ST [Node [] 0%Qc 0 0] 0 None None)) as (s & R).
  { apply init_inv. exact Z. }
  { cbn [queue weight nh length]. rewrite Nat.sub_0_r. lia. }
  rewrite R. cbn [obind].
  destruct (run_facts pick fuel _ s (init_inv Z) init_complete R) as ((_ & B) & C & Q).
  unfold bestok in B. destruct (best s) as [b|]; [eexists; reflexivity|]. exfalso.
  assert (Og : ok (rev g)) by (apply ok_intro; assumption).
  rewrite landmarks_somes in Hm. apply in_rev in Hm. rewrite <- somes_rev in Hm.
  rewrite <- (rev_length g) in Lg. revert Og Lg Hm. generalize (rev g). clear g Cg Ng.
  intros g. induction g as [|[k|] g IH]; intros Og Lg Hm.
  - destruct Hm.
  - destruct (C k g Og Lg) as [K|(y & a & Y & _)]; [lia|]. rewrite Q in Y. destruct Y.
  - apply IH; [exact Og|cbn in Lg; lia|exact Hm].
Qed.
End S.
