(** Correctness of HungarianMethod::run, part 3: main loop, initialisation, optimality. *)
From Coq Require Import ZArith List Bool Arith Lia Permutation.
From Verif Require Import Base ListUtil HungarianModel AssignSpec HungarianProofs HungarianProofs2.
Import ListNotations.
Local Open Scope Z_scope.

Section Main.
Variable n : nat.
Variable C : mat.
Notation sl := (sl C).

(** ** Main loop *)

Lemma same_labels_feas : forall s s', lx s' = lx s -> ly s' = ly s -> feas n C s -> feas n C s'.
Proof. unfold feas, HungarianModel.sl. intros s s' -> ->. auto. Qed.

Definition notT (s : hst) : nat := count (fun y => negb (hT s y)) n.

Definition progress (s : hst) (r : res) : Prop :=
  match r with
  | Done _ | Failed => False
  | Cont s' true => feas n C s' /\ matching n C s' /\ (count (isfree s') n < count (isfree s) n)%nat
  | Cont s' false => feas n C s' /\ matching n C s' /\ tree n C s' /\ isfree s' = isfree s /\
                     (notT s' < notT s)%nat
  end.

Lemma step34_ok : forall s, feas n C s -> matching n C s -> tree n C s ->
  exists s3 r, step3 n s = Val s3 /\ step4 n C s3 = Val r /\ progress s r.
Proof.
  intros s F M T.
  destruct (step3_inv n C s F M T) as (s3 & E3 & F3 & M3 & T3 & Exy & Eyx & ET & y0 & Y1 & Y2 & Y3).
  exists s3. unfold step4.
  destruct (first_ex (fun y => hNS s3 y && negb (hT s3 y)) n y0 Y1) as [y Ey].
  { now rewrite Y2, Y3. }
  rewrite Ey. apply first_some in Ey. destruct Ey as [Hy Ey]. apply andb_true_iff in Ey.
  destruct Ey as [HN HT]. apply negb_true_iff in HT.
  assert (Hfree : isfree s3 = isfree s). { unfold isfree. now rewrite Exy. }
  destruct (yx s3 y) as [xt|] eqn:Ex.
  - eexists. split; [exact E3|]. split; [reflexivity|].
    destruct (grow_inv n C s3 xt y F3 M3 T3 Hy HN HT Ex) as (A & B & D & E).
    simpl. split; [exact A|]. split; [exact B|]. split; [exact D|]. split; [exact Hfree|].
    unfold notT in *. rewrite <- ET. exact E.
  - destruct (search_augment_ok n C s3 y M3 T3 Hy HN Ex) as (b & c' & E1 & E2 & E4 & E5 & E6 & E7).
    rewrite E1. cbn [obind]. rewrite E2. cbn [obind].
    eexists. split; [exact E3|]. split; [reflexivity|].
    simpl. split; [now apply same_labels_feas with (s := s3)|]. split; [exact E4|].
    now rewrite <- Hfree.
Qed.

Definition solved (s : hst) : Prop :=
  feas n C s /\ matching n C s /\ forall x, (x < n)%nat -> isfree s x = false.

Lemma loop_ok : forall (fuel : nat) (s : hst) (pick : bool), feas n C s -> matching n C s ->
  (if pick then (count (isfree s) n * (n + 1) + 1 <= fuel)%nat
   else tree n C s /\ (0 < count (isfree s) n)%nat /\
        ((count (isfree s) n - 1) * (n + 1) + 2 + notT s <= fuel)%nat) ->
  exists s', loop n C fuel s pick = Val (Some s') /\ solved s'.
Proof.
  induction fuel as [|k IH]; intros s pick F M Hm.
  - destruct pick; [lia|]. destruct Hm as (_ & _ & Hm). exfalso.
    set (q := (_ * (n + 1))%nat) in Hm. clearbody q. lia.
  - cbn [loop]. unfold iter. destruct pick.
    + destruct (first _ n) as [x|] eqn:Ef.
      * apply first_some in Ef. destruct Ef as [Hx Ef].
        assert (Hfree : xy s x = None) by (destruct (xy s x); [discriminate|reflexivity]).
        destruct (step2_inv n C s x F M Hx Hfree) as (F2 & M2 & T2).
        destruct (step34_ok _ F2 M2 T2) as (s3 & r & E3 & E4 & P).
        rewrite E3. cbn [obind]. rewrite E4. cbn [obind].
        assert (Hpos : (0 < count (isfree s) n)%nat).
        { unfold count. apply Nat.neq_0_lt_0. intros H0. apply length_zero_iff_nil in H0.
          assert (Hin : In x (filter (isfree s) (seq 0 n))).
          { apply filter_In. split; [apply in_seq; lia|exact Ef]. }
          rewrite H0 in Hin. contradiction. }
        assert (Hnt : (notT (step2 C s x) <= n)%nat) by apply count_bound.
        destruct r as [?| |s' p]; try contradiction. destruct p; simpl in P.
        -- destruct P as (P1 & P2 & P3). apply IH; auto.
           change (count (isfree (step2 C s x)) n) with (count (isfree s) n) in P3.
           assert (count (isfree s') n * (n + 1) <= (count (isfree s) n - 1) * (n + 1))%nat
             by (apply Nat.mul_le_mono_r; lia).
           replace (count (isfree s) n * (n + 1))%nat
             with ((count (isfree s) n - 1) * (n + 1) + (n + 1))%nat in Hm; [lia|].
           destruct (count (isfree s) n); [lia|]. simpl. rewrite Nat.sub_0_r. lia.
        -- destruct P as (P1 & P2 & P3 & P4 & P5). apply IH; auto.
           rewrite P4. change (isfree (step2 C s x)) with (isfree s).
           split; [exact P3|]. split; [exact Hpos|].
           replace (count (isfree s) n * (n + 1))%nat
             with ((count (isfree s) n - 1) * (n + 1) + (n + 1))%nat in Hm; [lia|].
           destruct (count (isfree s) n); [lia|]. simpl. rewrite Nat.sub_0_r. lia.
      * cbn [obind]. exists s. split; auto. split; auto. split; auto.
        intros x Hx. apply (first_none _ _ Ef x Hx).
    + destruct Hm as (T & Hpos & Hm).
      destruct (step34_ok _ F M T) as (s3 & r & E3 & E4 & P).
      rewrite E3. cbn [obind]. rewrite E4. cbn [obind].
      destruct r as [?| |s' p]; try contradiction. destruct p; simpl in P.
      * destruct P as (P1 & P2 & P3). apply IH; auto.
        assert (count (isfree s') n * (n + 1) <= (count (isfree s) n - 1) * (n + 1))%nat
          by (apply Nat.mul_le_mono_r; lia). lia.
      * destruct P as (P1 & P2 & P3 & P4 & P5). apply IH; auto. rewrite P4.
        split; [exact P3|]. split; [exact Hpos|]. lia.
Qed.

(** ** Initialisation *)

Hypothesis Cpos : forall x y, (x < n)%nat -> (y < n)%nat -> 0 <= C x y.

Lemma row_max_ok : forall x, (x < n)%nat -> exists y, row_max n C x = (C x y, Some y) /\ (y < n)%nat /\
  forall y', (y' < n)%nat -> C x y' <= C x y.
Proof.
  intros x Hx. unfold row_max.
  assert (G : forall l a, (forall y, In y l -> (y < n)%nat) ->
    (exists y, (y < n)%nat /\ a = (C x y, Some y)) \/ (l <> [] /\ a = (0, None)) ->
    exists y, fold_left (fun a y => if fst a <=? C x y then (C x y, Some y) else a) l a = (C x y, Some y) /\
      (y < n)%nat /\ fst a <= C x y /\ forall y', In y' l -> C x y' <= C x y).
  { induction l as [|b l IH]; intros a Hl Ha; simpl.
    - destruct Ha as [(y & Hy & ->)|[Hc _]]; [|congruence].
      exists y. split; [reflexivity|]. split; [auto|]. split; [simpl; lia|]. intros y' [].
    - assert (Hb : (b < n)%nat) by (apply Hl; left; reflexivity).
      destruct (Z.leb_spec (fst a) (C x b)).
      + destruct (IH (C x b, Some b)) as (y & E & Hy & H1 & H2).
        * intros; apply Hl; right; auto.
        * left. eauto.
        * exists y. split; [exact E|]. split; [exact Hy|]. simpl in H1. split; [lia|].
          intros y' [<-|Hy']; auto.
      + destruct Ha as [Ha|[_ ->]]; [|simpl in H; specialize (Cpos x b Hx Hb); lia].
        destruct (IH a) as (y & E & Hy & H1 & H2); auto.
        { intros; apply Hl; right; auto. }
        exists y. split; [exact E|]. split; [exact Hy|]. split; [lia|].
        intros y' [<-|Hy']; [lia|auto]. }
  destruct (G (seq 0 n) (0, None)) as (y & E & Hy & _ & H2).
  - intros y Hy. apply in_seq in Hy. lia.
  - right. split; auto. destruct n; [lia|discriminate].
  - exists y. split; [exact E|]. split; [exact Hy|]. intros y' Hy'. apply H2. apply in_seq. lia.
Qed.

Record iinv (k : nat) (s : hst) : Prop := {
  i_lx : forall x y, (x < k)%nat -> (y < n)%nat -> C x y <= lx s x;
  i_ly : forall y, ly s y = 0;
  i_xy : forall x y, xy s x = Some y -> (x < k)%nat /\ (y < n)%nat /\ yx s y = Some x /\ lx s x = C x y;
  i_yx : forall x y, yx s y = Some x -> (x < k)%nat /\ xy s x = Some y }.

Lemma init_row_ok : forall k s, (k < n)%nat -> iinv k s ->
  exists s', init_row n C s k = Val s' /\ iinv (S k) s'.
Proof.
  intros k s Hk I. unfold init_row.
  destruct (row_max_ok k Hk) as (y & E & Hy & Hmax). rewrite E.
  assert (Hfr : xy s k = None).
  { destruct (xy s k) eqn:Ex; auto. destruct (i_xy k s I _ _ Ex). lia. }
  assert (Hlx : forall x y0, (x < S k)%nat -> (y0 < n)%nat -> C x y0 <= fset (lx s) k (C k y) x).
  { intros x y0 Hx Hy0. destruct (fset_cases _ (lx s) k (C k y) x) as [[-> ->]|[Hne ->]].
    - now apply Hmax.
    - apply (i_lx k s I); auto; lia. }
  assert (Hly : forall y0, fset (ly s) k 0 y0 = 0).
  { intros y0. destruct (fset_cases _ (ly s) k 0 y0) as [[_ ->]|[_ ->]]; auto. apply (i_ly k s I). }
  simpl. destruct (yx s y) as [xt|] eqn:Eyx.
  - destruct (i_yx k s I _ _ Eyx) as [Q1 Q2].
    destruct (Z.ltb_spec (C xt y) (C k y)).
    + eexists. split; [reflexivity|]. split; simpl; auto.
      * intros x y0 H1. destruct (fset_cases _ (fset (xy s) k (Some y)) xt None x) as [[-> E1]|[N1 E1]];
          rewrite E1 in H1; [discriminate|].
        destruct (fset_cases _ (xy s) k (Some y) x) as [[-> E2]|[N2 E2]]; rewrite E2 in H1.
        -- injection H1 as <-. split; [lia|]. split; [auto|]. rewrite !fset_eq. auto.
        -- destruct (i_xy k s I x y0 H1) as (R1 & R2 & R3 & R4).
           split; [lia|]. split; [auto|]. rewrite (fset_neq _ (lx s)) by lia.
           split; [|auto]. rewrite fset_neq; auto. intros ->. congruence.
      * intros x y0 H1. destruct (fset_cases _ (yx s) y (Some k) y0) as [[-> E1]|[N1 E1]]; rewrite E1 in H1.
        -- injection H1 as <-. split; [lia|]. rewrite fset_neq by lia. apply fset_eq.
        -- destruct (i_yx k s I x y0 H1) as [R1 R2]. split; [lia|].
           rewrite fset_neq by congruence. rewrite fset_neq by lia. auto.
    + eexists. split; [reflexivity|]. split; simpl; auto.
      * intros x y0 H1. destruct (fset_cases _ (fset (xy s) k (Some y)) k None x) as [[-> E1]|[N1 E1]];
          rewrite E1 in H1; [discriminate|].
        rewrite fset_neq in H1 by auto.
        destruct (i_xy k s I x y0 H1) as (R1 & R2 & R3 & R4).
        split; [lia|]. rewrite fset_neq by auto. auto.
      * intros x y0 H1. destruct (i_yx k s I x y0 H1) as [R1 R2]. split; [lia|].
        rewrite !fset_neq by lia. auto.
  - eexists. split; [reflexivity|]. split; simpl; auto.
    + intros x y0 H1. destruct (fset_cases _ (xy s) k (Some y) x) as [[-> E2]|[N2 E2]]; rewrite E2 in H1.
      * injection H1 as <-. split; [lia|]. split; [auto|]. rewrite !fset_eq. auto.
      * destruct (i_xy k s I x y0 H1) as (R1 & R2 & R3 & R4).
        split; [lia|]. split; [auto|]. rewrite (fset_neq _ (lx s)) by lia.
        split; [|auto]. rewrite fset_neq; auto. intros ->. congruence.
    + intros x y0 H1. destruct (fset_cases _ (yx s) y (Some k) y0) as [[-> E1]|[N1 E1]]; rewrite E1 in H1.
      * injection H1 as <-. split; [lia|]. apply fset_eq.
      * destruct (i_yx k s I x y0 H1) as [R1 R2]. split; [lia|]. rewrite fset_neq by lia. auto.
Qed.

Lemma init_rows_ok : forall m k s, (k + m = n)%nat -> iinv k s ->
  exists s', init_rows n C s (seq k m) = Val s' /\ iinv n s'.
Proof.
  induction m as [|m IH]; intros k s Hkm I; simpl.
  - exists s. split; auto. replace n with k by lia. auto.
  - destruct (init_row_ok k s ltac:(lia) I) as (s1 & E & I1). rewrite E. cbn [obind].
    apply IH; [lia|auto].
Qed.

Lemma init_ok : exists s, init n C = Val s /\ feas n C s /\ matching n C s.
Proof.
  destruct (init_rows_ok n 0%nat (HS (fun _ => 0) (fun _ => 0) (fun _ => None) (fun _ => None)
     (fun _ => false) (fun _ => false) (fun _ => false) (fun _ => 0) 0)) as (s & E & I); [lia| |].
  - split; simpl; intros; try discriminate; auto; lia.
  - exists s. split; [exact E|]. split.
    + intros x y Hx Hy. unfold HungarianModel.sl. rewrite (i_ly n s I).
      assert (H := i_lx n s I x y Hx Hy). lia.
    + split.
      * intros x y Hx H. destruct (i_xy n s I x y H) as (Q1 & Q2 & Q3 & Q4).
        split; auto. split; auto. unfold HungarianModel.sl. rewrite (i_ly n s I). lia.
      * intros x y Hy H. apply (i_yx n s I x y H).
Qed.

Lemma loop_from_init : exists s, (let* s0 := init n C in loop n C (n * (n + 1) + n + 1) s0 true) = Val (Some s) /\
  solved s.
Proof.
  destruct init_ok as (s0 & E & F & M). rewrite E. cbn [obind].
  apply loop_ok; auto.
  assert (H := count_bound (isfree s0) n).
  assert (count (isfree s0) n * (n + 1) <= n * (n + 1))%nat by (apply Nat.mul_le_mono_r; lia). lia.
Qed.

(** ** Optimality *)

Definition zsum (l : list Z) : Z := fold_right Z.add 0 l.

Lemma zsum_perm : forall l l', Permutation l l' -> zsum l = zsum l'.
Proof. induction 1; simpl; lia. Qed.

Definition gx (s : hst) (x : nat) : nat := match xy s x with Some y => y | None => 0%nat end.

Lemma score_le_labels : forall s, feas n C s -> forall a i,
  (i + length a <= n)%nat -> (forall y, In y a -> (y < n)%nat) ->
  score_from C i a <= zsum (map (lx s) (seq i (length a))) + zsum (map (ly s) a).
Proof.
  intros s F. induction a as [|y a IH]; intros i Hi Hb; simpl; [lia|].
  simpl in Hi. assert (H1 := IH (S i) ltac:(lia) (fun y Hy => Hb y (or_intror Hy))).
  assert (H2 := F i y ltac:(lia) (Hb y (or_introl eq_refl))). unfold HungarianModel.sl in H2. lia.
Qed.

Lemma score_eq_labels : forall s, solved s -> forall m i, (i + m <= n)%nat ->
  score_from C i (map (gx s) (seq i m)) =
  zsum (map (lx s) (seq i m)) + zsum (map (ly s) (map (gx s) (seq i m))).
Proof.
  intros s (F & [M1 M2] & S). induction m as [|m IH]; intros i Hi; simpl; [lia|].
  rewrite (IH (Datatypes.S i)) by lia. assert (H := S i ltac:(lia)). unfold isfree in H.
  destruct (xy s i) as [y|] eqn:E; [|discriminate].
  destruct (M1 i y ltac:(lia) E) as (_ & _ & H2).
  assert (G : gx s i = y) by (unfold gx; now rewrite E). rewrite G.
  unfold HungarianModel.sl in H2. lia.
Qed.

Lemma solved_assignment : forall s, solved s -> assignment n (map (gx s) (seq 0 n)).
Proof.
  intros s (F & [M1 M2] & S). unfold assignment.
  assert (G : forall x, (x < n)%nat -> xy s x = Some (gx s x) /\ (gx s x < n)%nat /\ yx s (gx s x) = Some x).
  { intros x Hx. assert (H := S x Hx). unfold isfree in H. unfold gx.
    destruct (xy s x) as [y|] eqn:E; [|discriminate]. destruct (M1 x y Hx E) as (Q1 & Q2 & _). auto. }
  apply NoDup_Permutation_bis.
  - assert (Hinj : forall l, (forall y, In y l -> (y < n)%nat) -> NoDup l -> NoDup (map (gx s) l)).
    { induction l as [|a l IH]; simpl; intros Hb Hnd; constructor.
      - inversion Hnd; subst. rewrite in_map_iff. intros (y & Hy & Hin).
        destruct (G y (Hb y (or_intror Hin))) as (_ & _ & R1).
        destruct (G a (Hb a (or_introl eq_refl))) as (_ & _ & R2).
        rewrite Hy, R2 in R1. inversion R1; subst. contradiction.
      - inversion Hnd; subst. apply IH; auto. }
    apply Hinj; [|apply seq_NoDup]. intros y Hy. apply in_seq in Hy. lia.
  - now rewrite map_length.
  - intros z Hz. apply in_map_iff in Hz. destruct Hz as (x & <- & Hx). apply in_seq in Hx.
    apply in_seq. destruct (G x) as (_ & Q & _); lia.
Qed.

Lemma solved_optimal : forall s, solved s -> forall b, assignment n b ->
  score C b <= score C (map (gx s) (seq 0 n)).
Proof.
  intros s Hs b Hb. unfold score. rewrite (score_eq_labels s Hs n 0) by lia.
  assert (Hlen : length b = n) by (rewrite (Permutation_length Hb); apply seq_length).
  assert (H := score_le_labels s (proj1 Hs) b 0).
  rewrite Hlen in H.
  assert (H1 : zsum (map (ly s) b) = zsum (map (ly s) (map (gx s) (seq 0 n)))).
  { apply zsum_perm, Permutation_map. transitivity (seq 0 n); [exact Hb|].
    symmetry. now apply solved_assignment. }
  rewrite <- H1. apply H; [lia|]. intros y Hy. apply (Permutation_in _ Hb) in Hy. apply in_seq in Hy. lia.
Qed.

Lemma collect_ok : forall C' s, (forall x, (x < n)%nat -> isfree s x = false) -> forall m i c, (i + m <= n)%nat ->
  collect C' (xy s) (seq i m) c =
  Val (map (gx s) (seq i m), c + score_from C' i (map (gx s) (seq i m))).
Proof.
  intros C' s Hf. induction m as [|m IH]; intros i c Hi; simpl.
  - do 2 f_equal. lia.
  - assert (H := Hf i ltac:(lia)). unfold isfree in H.
    destruct (xy s i) as [y|] eqn:E; [|discriminate].
    rewrite (IH (S i)) by lia. simpl. assert (G : gx s i = y) by (unfold gx; now rewrite E). rewrite G.
    do 2 f_equal. lia.
Qed.

End Main.

(** ** Offset and sign *)

Lemma on_block_in : forall n f C x y, (x < n)%nat -> (y < n)%nat -> on_block n f C x y = f (C x y).
Proof.
  intros. unfold on_block. apply Nat.ltb_lt in H, H0. now rewrite H, H0.
Qed.

Lemma on_block_inv : forall n f g C x y, (forall v, g (f v) = v) ->
  on_block n g (on_block n f C) x y = C x y.
Proof. intros. unfold on_block. destruct (_ && _)%bool; auto. Qed.

Lemma offset_min : forall n C, offset_of n C <= 0 /\
  forall x y, (x < n)%nat -> (y < n)%nat -> offset_of n C <= C x y.
Proof.
  intros n C. unfold offset_of.
  assert (G : forall l o, let r := fold_left (fun o xy => if C (fst xy) (snd xy) <? o then C (fst xy) (snd xy) else o) l o in
    r <= o /\ forall p, In p l -> r <= C (fst p) (snd p)).
  { induction l as [|p l IH]; intros o; simpl.
    - split; [lia|intros ? []].
    - destruct (Z.ltb_spec (C (fst p) (snd p)) o) as [H|H].
      + destruct (IH (C (fst p) (snd p))) as [H1 H2]. split; [lia|]. intros q [<-|Hq]; auto.
      + destruct (IH o) as [H1 H2]. split; [lia|]. intros q [<-|Hq]; auto. lia. }
  destruct (G (entries n) 0) as [H1 H2]. split; [exact H1|].
  intros x y Hx Hy. apply (H2 (x, y)). unfold entries. apply in_flat_map. exists x.
  split; [apply in_seq; lia|]. apply in_map_iff. exists y. split; auto. apply in_seq; lia.
Qed.

Lemma score_affine : forall n C C1 k o, (forall x y, (x < n)%nat -> (y < n)%nat -> C1 x y = k * C x y - o) ->
  forall a i, (i + length a <= n)%nat -> (forall y, In y a -> (y < n)%nat) ->
  score_from C1 i a = k * score_from C i a - Z.of_nat (length a) * o.
Proof.
  intros n C C1 k o H. induction a as [|y a IH]; intros i Hi Hb; cbn [score_from length].
  - lia.
  - cbn [length] in Hi. rewrite IH; [|lia|intros; apply Hb; right; auto].
    rewrite H; [|lia|apply Hb; left; reflexivity]. rewrite Nat2Z.inj_succ. ring.
Qed.

Lemma score_ext : forall n C C1, (forall x y, (x < n)%nat -> (y < n)%nat -> C1 x y = C x y) ->
  forall a, assignment n a -> score C1 a = score C a.
Proof.
  intros n C C1 H a Ha. unfold score. rewrite (score_affine n C C1 1 0).
  - lia.
  - intros. rewrite H by auto. lia.
  - rewrite (Permutation_length Ha), seq_length. lia.
  - intros y Hy. apply (Permutation_in _ Ha) in Hy. apply in_seq in Hy. lia.
Qed.

Lemma prepare_spec : forall n C mx, exists C1 o, prepare n C mx = (C1, o) /\
  (forall x y, (x < n)%nat -> (y < n)%nat -> C1 x y = (if mx then 1 else -1) * C x y - o /\ 0 <= C1 x y) /\
  (forall x y, undo n C1 mx o x y = C x y).
Proof.
  intros n C mx. unfold prepare.
  set (C1 := if mx then C else on_block n (fun v => v * -1) C).
  exists (on_block n (fun v => v - offset_of n C1) C1), (offset_of n C1).
  split; [reflexivity|]. destruct (offset_min n C1) as [H1 H2]. split.
  - intros x y Hx Hy. rewrite on_block_in by auto. specialize (H2 x y Hx Hy). split; [|lia].
    unfold C1 at 1. destruct mx; [lia|]. rewrite on_block_in by auto. lia.
  - intros x y. unfold undo.
    assert (H3 : forall x y, (if offset_of n C1 =? 0 then on_block n (fun v => v - offset_of n C1) C1
      else on_block n (fun v => v + offset_of n C1) (on_block n (fun v => v - offset_of n C1) C1)) x y = C1 x y).
    { intros u v. destruct (Z.eqb_spec (offset_of n C1) 0) as [E|E].
      - rewrite E. unfold on_block. destruct (_ && _)%bool; lia.
      - apply on_block_inv. intros; lia. }
    destruct mx.
    + apply H3.
    + unfold on_block at 1. rewrite H3. unfold C1, on_block. destruct (_ && _)%bool; lia.
Qed.

Theorem hungarian_ok : forall C n mx, exists C' a,
  hungarian C n mx = Val (C', Some (a, score C a)) /\
  (forall x y, C' x y = C x y) /\ assignment n a /\
  forall b, assignment n b -> better mx (score C a) (score C b).
Proof.
  intros C n mx. unfold hungarian.
  destruct (prepare_spec n C mx) as (C1 & o & E & HC1 & Hundo). rewrite E.
  destruct (loop_from_init n C1) as (s & El & Hs).
  { intros x y Hx Hy. apply (HC1 x y Hx Hy). }
  destruct (init n C1) as [s0| |]; try discriminate. cbn [obind] in El |- *.
  rewrite El. cbn [obind].
  rewrite (collect_ok n (undo n C1 mx o) s (proj2 (proj2 Hs)) n 0 0) by lia. cbn [obind].
  assert (Ha := solved_assignment n C1 s Hs).
  assert (Hopt := solved_optimal n C1 s Hs).
  exists (undo n C1 mx o), (map (gx s) (seq 0 n)).
  split; [|split; [exact Hundo|split; [exact Ha|]]].
  - do 4 f_equal. rewrite Z.add_0_l. apply (score_ext n); auto.
  - intros b Hb. specialize (Hopt b Hb). unfold score in Hopt.
    assert (Hb' : forall c, assignment n c -> score_from C1 0 c = (if mx then 1 else -1) * score C c - Z.of_nat n * o).
    { intros c Hc. unfold score. rewrite (score_affine n C C1 (if mx then 1 else -1) o).
      - rewrite (Permutation_length Hc), seq_length. reflexivity.
      - intros x y Hx Hy. apply (HC1 x y Hx Hy).
      - rewrite (Permutation_length Hc), seq_length. lia.
      - intros y Hy. apply (Permutation_in _ Hc) in Hy. apply in_seq in Hy. lia. }
    rewrite !Hb' in Hopt by auto. unfold better. destruct mx; lia.
Qed.

Lemma hungarian_optimal : forall C n mx, exists C' a,
  hungarian C n mx = Val (C', Some (a, score C a)) /\ optimal mx n C a.
Proof.
  intros C n mx. destruct (hungarian_ok C n mx) as (C' & a & E & _ & H1 & H2).
  exists C', a. split; [exact E|]. split; auto.
Qed.

Lemma hungarian_restores : forall C n mx C' r,
  hungarian C n mx = Val (C', r) -> r <> None /\ forall x y, C' x y = C x y.
Proof.
  intros C n mx C' r H. destruct (hungarian_ok C n mx) as (C2 & a & E & H1 & _).
  rewrite H in E. injection E as -> ->. split; [discriminate|exact H1].
Qed.
