(** The product over the partitions. *)
From Coq Require Import ZArith List Bool Arith QArith Qcanon Lia Permutation Sorted Relations.
From Verif Require Import Base ListUtil QcLra PermanentSpec PermanentProofs EnumLemmas PartitionModel PartitionSpec
  PartitionProofs LexModel LexSpec RfsModel RfsSpec RfsProofs RfsProofs2 RfsProofs3.
Import ListNotations.
Local Open Scope Qc_scope.

Lemma fold_mul : forall l v, fold_left Qcmult l v = v * qprod l.
Proof.
  induction l as [|x l IH]; intros v; cbn [fold_left]; [rewrite qprod_nil; ring|].
  rewrite IH, qprod_cons. ring.
Qed.

Lemma asum_zero : forall L q cl rows cols, (forall r c, In r rows -> In c cols -> L r c = 0) ->
  asum L q cl rows cols = qprod (map q rows) * qprod (map cl cols).
Proof.
  intros L q cl. induction rows as [|r rs IH]; intros cols H; cbn [asum map]; rewrite ?qprod_nil, ?qprod_cons; [ring|].
  rewrite IH by (intros r0 c0 H0; apply H; right; exact H0).
  rewrite qsum_zero; [ring|].
  intros c Hc. rewrite (H r c (or_introl eq_refl) Hc). ring.
Qed.

Lemma touched_row : forall C ml nR nC u v, connected C ml nR nC u v -> u <> v -> forall i,
  (u = Row i \/ v = Row i) -> exists j, (j < nC)%nat /\ (ml < C i j)%Z.
Proof.
  intros C ml nR nC u v H. unfold connected in H.
  assert (G : u = v \/ ((forall i, u = Row i -> exists j, (j < nC)%nat /\ (ml < C i j)%Z) /\
                        (forall i, v = Row i -> exists j, (j < nC)%nat /\ (ml < C i j)%Z))).
  { induction H as [x y Hl|x|x y H IH|x y z H1 IH1 H2 IH2].
    - right. destruct Hl as [i j Hi Hj Hm]. split; intros k E; [injection E as <-; eauto|discriminate].
    - left. reflexivity.
    - destruct IH as [->|[A B]]; auto.
    - destruct IH1 as [->|[A1 B1]]; [exact IH2|]. destruct IH2 as [<-|[A2 B2]]; auto. }
  intros Hne i Hi. destruct G as [G|[G1 G2]]; [contradiction|]. destruct Hi as [Hi|Hi]; eauto.
Qed.

Definition like (g g' : cgen) : Prop := cparts g = cparts g' /\ zeroP g = zeroP g' /\ nParts g = nParts g'.

Lemma like_size : forall g g' p, like g g' -> getPartitionSize g p = getPartitionSize g' p.
Proof. intros g g' p (H1 & H2 & H3). unfold getPartitionSize, is_zero. rewrite H1, H2. reflexivity. Qed.

Lemma like_get : forall g g' p ext g1 a il jl fl, like g g' -> getPartition g' p ext = Val (g1, Got a il jl fl) ->
  exists g2 a2, getPartition g p ext = Val (g2, Got a2 il jl fl) /\ like g2 g'.
Proof.
  intros g g' p ext g1 a il jl fl Hlk H. assert (Hlk' := Hlk). destruct Hlk' as (H1 & H2 & H3).
  unfold getPartition in *. rewrite H1, H3. destruct (cparts g') as [B|] eqn:EB.
  - destruct (Nat.ltb p (nParts g')); [|discriminate]. destruct (nth_error B p) as [[i j]|]; [|discriminate].
    injection H as <- <- <- <- <-.
    eexists _, _. split.
    + unfold is_zero. rewrite H2. reflexivity.
    + repeat split; cbn; congruence.
  - injection H as <- <- <- <- <-. eexists _, _. split; [reflexivity|exact Hlk].
Qed.

Lemma prod_le : forall (f g u v : nat -> Qc) ps,
  (forall p, In p ps -> 0 <= f p /\ 0 <= u p /\ f p * u p <= g p * v p) ->
  qprod (map f ps) * qprod (map u ps) <= qprod (map g ps) * qprod (map v ps).
Proof.
  intros f g u v. induction ps as [|p ps IH]; intros H; cbn [map]; rewrite ?qprod_nil, ?qprod_cons; [apply Qcle_refl|].
  destruct (H p (or_introl eq_refl)) as (A1 & A2 & A3).
  assert (I := IH (fun q Hq => H q (or_intror Hq))).
  assert (B : 0 <= qprod (map f ps) * qprod (map u ps)).
  { apply qmul_nonneg; apply qprod_nonneg; intros x Hx; apply in_map_iff in Hx; destruct Hx as (q & <- & Hq);
      apply (H q (or_intror Hq)). }
  assert (D : 0 <= f p * u p) by (apply qmul_nonneg; assumption).
  replace (f p * qprod (map f ps) * (u p * qprod (map u ps))) with ((f p * u p) * (qprod (map f ps) * qprod (map u ps))) by ring.
  replace (g p * qprod (map g ps) * (v p * qprod (map v ps))) with ((g p * v p) * (qprod (map g ps) * qprod (map v ps))) by ring.
  eapply Qcle_trans; [apply Qcmult_le_compat_r; [exact A3|exact B]|].
  rewrite (Qcmult_comm (g p * v p)), (Qcmult_comm (g p * v p)). apply Qcmult_le_compat_r; [exact I|].
  eapply Qcle_trans; eassumption.
Qed.

Lemma prod_eq : forall (f g u v : nat -> Qc) ps,
  (forall p, In p ps -> f p * u p = g p * v p) ->
  qprod (map f ps) * qprod (map u ps) = qprod (map g ps) * qprod (map v ps).
Proof.
  intros f g u v. induction ps as [|p ps IH]; intros H; cbn [map]; rewrite ?qprod_nil, ?qprod_cons; [reflexivity|].
  replace (f p * qprod (map f ps) * (u p * qprod (map u ps))) with ((f p * u p) * (qprod (map f ps) * qprod (map u ps))) by ring.
  rewrite (H p (or_introl eq_refl)), (IH (fun q Hq => H q (or_intror Hq))). ring.
Qed.

Section Whole.
Variable L : nat -> nat -> Qc.
Variables pd cl : nat -> Qc.
Hypothesis HL : forall r c, 0 <= L r c.
Variables nM nZ : nat.
Variable b : nat -> list nat * list nat.
Variable flag : nat -> bool.
Variable np : nat.
Notation C := (support L).
Hypothesis Hrows : Permutation (flat_map (fun p => fst (b p)) (seq 0 np)) (seq 0 nM).
Hypothesis Hcols : Permutation (flat_map (fun p => snd (b p)) (seq 0 np)) (seq 0 nZ).
Hypothesis Hflag : forall p, (p < np)%nat -> (flag p = true <-> significant C 0 (b p)).
Hypothesis Hin : forall i j, (i < nM)%nat -> (j < nZ)%nat -> (0 < C i j)%Z ->
     exists p, (p < np)%nat /\ flag p = true /\ In i (fst (b p)) /\ In j (snd (b p)).
Hypothesis Hcon : forall p u v, (p < np)%nat -> flag p = true -> inside (b p) u -> in_range nM nZ v ->
     (inside (b p) v <-> connected C 0 nM nZ u v).

Lemma support_pos : forall i j, (0 < C i j)%Z <-> 0 < L i j.
Proof.
  intros i j. unfold support. destruct (Qcltb 0 (L i j)) eqn:E.
  - apply Qcltb_true in E. split; intros; [exact E|lia].
  - split; intros H; [lia|]. apply Qcltb_true in H. congruence.
Qed.
Lemma support_zero : forall i j, ~ (0 < C i j)%Z -> L i j = 0.
Proof.
  intros i j H. rewrite support_pos in H. assert (K := HL i j). apply Qcle_lt_or_eq in K.
  destruct K as [K|K]; [contradiction|congruence].
Qed.

Lemma uniq : forall {f : nat -> list nat} {ps p p' x}, NoDup (flat_map f ps) -> NoDup ps -> In p ps -> In p' ps ->
  In x (f p) -> In x (f p') -> p = p'.
Proof.
  intros f. induction ps as [|a ps IH]; intros p p' x N Np H1 H2 X1 X2; [destruct H1|].
  cbn [flat_map] in N. inversion Np; subst.
  assert (D : forall q, In q ps -> In x (f a) -> In x (f q) -> False).
  { intros q Hq A B. apply (nodup_app_disj _ _ x N A). apply in_flat_map. eauto. }
  destruct H1 as [->|H1]; destruct H2 as [->|H2]; auto.
  - exfalso. eapply D; eauto.
  - exfalso. eapply D; eauto.
  - eapply IH; eauto. eapply nodup_app_r. exact N.
Qed.

Lemma Nrows : NoDup (flat_map (fun p => fst (b p)) (seq 0 np)).
Proof. eapply Permutation_NoDup; [apply Permutation_sym; exact Hrows|apply seq_NoDup]. Qed.
Lemma Ncols : NoDup (flat_map (fun p => snd (b p)) (seq 0 np)).
Proof. eapply Permutation_NoDup; [apply Permutation_sym; exact Hcols|apply seq_NoDup]. Qed.
Lemma row_range : forall p i, (p < np)%nat -> In i (fst (b p)) -> (i < nM)%nat.
Proof.
  intros p i Hp Hi. assert (K : In i (seq 0 nM)).
  { eapply Permutation_in; [exact Hrows|]. apply in_flat_map. exists p. split; [apply in_seq; lia|exact Hi]. }
  apply in_seq in K. lia.
Qed.
Lemma col_range : forall p i, (p < np)%nat -> In i (snd (b p)) -> (i < nZ)%nat.
Proof.
  intros p i Hp Hi. assert (K : In i (seq 0 nZ)).
  { eapply Permutation_in; [exact Hcols|]. apply in_flat_map. exists p. split; [apply in_seq; lia|exact Hi]. }
  apply in_seq in K. lia.
Qed.

Lemma nodup_part : forall (f : nat -> list nat) ps p, NoDup (flat_map f ps) -> In p ps -> NoDup (f p).
Proof.
  intros f. induction ps as [|a ps IH]; intros p N Hp; [destruct Hp|]. cbn [flat_map] in N.
  destruct Hp as [->|Hp]; [eapply nodup_app_l; exact N|]. apply IH; [eapply nodup_app_r; exact N|exact Hp].
Qed.
Lemma part_cols : forall p, (p < np)%nat -> NoDup (snd (b p)).
Proof. intros p Hp. apply (nodup_part (fun p => snd (b p)) (seq 0 np)); [exact Ncols|apply in_seq; lia]. Qed.
Lemma part_rows : forall p, (p < np)%nat -> NoDup (fst (b p)).
Proof. intros p Hp. apply (nodup_part (fun p => fst (b p)) (seq 0 np)); [exact Nrows|apply in_seq; lia]. Qed.

Lemma cross : forall p p' r c, (p < np)%nat -> (p' < np)%nat -> p <> p' -> In r (fst (b p)) -> In c (snd (b p')) -> L r c = 0.
Proof.
  intros p p' r c Hp Hp' Hne Hr Hc. apply support_zero. intros H.
  destruct (Hin r c (row_range p r Hp Hr) (col_range p' c Hp' Hc) H) as (q & Hq & _ & Hr' & Hc').
  apply Hne. transitivity q.
  - apply (@uniq (fun p => fst (b p)) (seq 0 np) p q r); auto using Nrows, seq_NoDup; apply in_seq; lia.
  - apply (@uniq (fun p => snd (b p)) (seq 0 np) q p' c); auto using Ncols, seq_NoDup; apply in_seq; lia.
Qed.

(** The sum over all hypotheses is the product of the sums of the blocks. *)
Lemma whole_product : association_sum nM nZ L pd cl
  (qprod (map (fun p => asum L (fun r => 1 - pd r) cl (fst (b p)) (snd (b p))) (seq 0 np))).
Proof.
  apply association_sum_iff.
  rewrite <- (asum_blocks L (fun r => 1 - pd r) cl b (seq 0 np) Ncols (seq_NoDup _ _)).
  - rewrite (asum_cols L _ cl _ _ _ Ncols Hcols). apply asum_rows; [exact Hrows|apply seq_NoDup].
  - intros p p' r c Hp Hp' Hne. apply in_seq in Hp, Hp'. apply cross; [lia|lia|exact Hne].
Qed.

Lemma dead_block : forall p, (p < np)%nat -> flag p = false -> forall r c, In r (fst (b p)) -> In c (snd (b p)) -> L r c = 0.
Proof.
  intros p Hp Hf r c Hr Hc. apply support_zero. intros H.
  assert (K : flag p = true) by (apply Hflag; [exact Hp|exists r, c; auto]). congruence.
Qed.

Definition dead_rows (p : nat) : list nat := if flag p then [] else fst (b p).

Lemma dead_unseen : Permutation (flat_map dead_rows (seq 0 np)) (unseen nM nZ L).
Proof.
  apply NoDup_Permutation.
  - assert (G : forall ps, NoDup (flat_map (fun p => fst (b p)) ps) -> NoDup (flat_map dead_rows ps)).
    { induction ps as [|p ps IH]; intros N; [constructor|]. cbn [flat_map] in *.
      apply MurtyProofs.NoDup_app_intro.
      - unfold dead_rows. destruct (flag p); [constructor|eapply nodup_app_l; exact N].
      - apply IH. eapply nodup_app_r. exact N.
      - intros x A B. apply (nodup_app_disj _ _ x N).
        + unfold dead_rows in A. destruct (flag p); [destruct A|exact A].
        + apply in_flat_map in B. destruct B as (q & Hq & B). apply in_flat_map. exists q. split; [exact Hq|].
          unfold dead_rows in B. destruct (flag q); [destruct B|exact B]. }
    apply G. exact Nrows.
  - apply NoDup_filter, seq_NoDup.
  - intros i. unfold unseen. rewrite filter_In, forallb_forall, in_flat_map. split.
    + intros (p & Hp & Hi). unfold dead_rows in Hi. destruct (flag p) eqn:Ef; [destruct Hi|].
      apply in_seq in Hp. assert (Hr := row_range p i ltac:(lia) Hi). split; [apply in_seq; lia|].
      intros z Hz. apply in_seq in Hz. apply Qcleb_true. apply Qcnot_lt_le. intros H.
      apply support_pos in H. destruct (Hin i z Hr ltac:(lia) H) as (q & Hq & Fq & Hi' & _).
      assert (p = q); [|subst; congruence].
      apply (@uniq (fun p => fst (b p)) (seq 0 np) p q i); auto using Nrows, seq_NoDup; apply in_seq; lia.
    + intros [Hi Hz]. apply in_seq in Hi.
      assert (K : In i (flat_map (fun p => fst (b p)) (seq 0 np))).
      { eapply Permutation_in; [apply Permutation_sym; exact Hrows|apply in_seq; lia]. }
      apply in_flat_map in K. destruct K as (p & Hp & Hip). exists p. split; [exact Hp|].
      unfold dead_rows. destruct (flag p) eqn:Ef; [|exact Hip]. exfalso. apply in_seq in Hp.
      assert (Hs : significant C 0 (b p)) by (apply Hflag; [lia|exact Ef]).
      destruct Hs as (i' & j & Hi' & Hj & Hpos).
      assert (Hc : connected C 0 nM nZ (Row i) (Col j)).
      { apply (Hcon p (Row i) (Col j)); [lia|exact Ef|exact Hip|cbn; eapply col_range; [|exact Hj]; lia|exact Hj]. }
      destruct (touched_row _ _ _ _ _ _ Hc ltac:(discriminate) i (or_introl eq_refl)) as (j' & Hj' & Hp').
      apply support_pos in Hp'. specialize (Hz j' ltac:(apply in_seq; lia)). apply Qcleb_true in Hz.
      apply (Qcle_not_lt _ _ Hz Hp').
Qed.

Lemma qprod_flat : forall (f : nat -> Qc) ps,
  qprod (map f (flat_map dead_rows ps)) = qprod (map (fun p => qprod (map f (dead_rows p))) ps).
Proof.
  intros f. induction ps as [|p ps IH]; cbn [flat_map map]; [reflexivity|].
  rewrite map_app, qprod_app, qprod_cons, IH. reflexivity.
Qed.
End Whole.

Section Value.
Variable L : nat -> nat -> Qc.
Variables pd cl : nat -> Qc.
Variable lim : nat.
Variable kbest : nat -> nat -> (nat -> nat -> Qc) -> list (list nat).
Hypothesis HL : forall r c, 0 <= L r c.
Hypothesis Hpd : forall r, 0 <= pd r <= 1.
Hypothesis Hcl : forall c, 0 <= cl c.
Hypothesis Hk : kbest_contract kbest.

Lemma zero_value : forall il jl, zero_likelihood pd cl il jl = qprod (map pd il) * qprod (map cl jl).
Proof. intros il jl. unfold zero_likelihood. rewrite !fold_mul. ring. Qed.

Lemma blocks_run : forall (b : nat -> list nat * list nat) flag val np g0,
  (forall p, (p < np)%nat -> getPartitionSize g0 p = Val (length (fst (b p)), length (snd (b p)), flag p)) ->
  (forall p ext, (p < np)%nat -> exists g' a, getPartition g0 p ext = Val (g', Got (Some a) (fst (b p)) (snd (b p)) (flag p))) ->
  (forall p, (p < np)%nat -> block_likelihood L pd cl kbest
     (negb ((length (fst (b p)) + length (snd (b p)) <=? lim) || negb (flag p))) (flag p) (fst (b p)) (snd (b p)) = Val (val p)) ->
  forall ps g l, like g g0 -> (forall p, In p ps -> (p < np)%nat) ->
  blocks_likelihood L pd cl lim kbest g ps l = Val (l * qprod (map val ps)).
Proof.
  intros b flag val np g0 HS HG HV. induction ps as [|p ps IH]; intros g l Hlk Hps; cbn [blocks_likelihood map].
  - rewrite qprod_nil. f_equal. ring.
  - assert (Hp := Hps p (or_introl eq_refl)).
    rewrite (like_size g g0 p Hlk), (HS p Hp). cbn [obind].
    set (m := negb ((length (fst (b p)) + length (snd (b p)) <=? lim) || negb (flag p))).
    destruct (HG p m Hp) as (g' & a & Eg).
    destruct (like_get g g0 p m g' (Some a) _ _ _ Hlk Eg) as (g2 & a2 & E2 & Hlk2).
    rewrite E2. cbn [obind fst snd gflag grows gcols]. unfold m. rewrite (HV p Hp). cbn [obind].
    rewrite (IH g2 (l * val p) Hlk2 (fun q Hq => Hps q (or_intror Hq))). rewrite qprod_cons. f_equal. ring.
Qed.

Lemma qc01 : forall r, 0 <= 1 - pd r.
Proof. intros r. destruct (Hpd r). qclra. Qed.

Lemma prod_nonneg_map : forall (f : nat -> Qc) l, (forall x, 0 <= f x) -> 0 <= qprod (map f l).
Proof. intros f l H. apply qprod_nonneg. intros x Hx. apply in_map_iff in Hx. destruct Hx as (y & <- & _). apply H. Qed.

Lemma block_nonneg : forall il jl v, NoDup jl -> block_sum L pd cl il jl v -> 0 <= v.
Proof.
  intros il jl v N (hs & _ & _ & ->). apply qsum_nonneg.
  intros x Hx. apply in_map_iff in Hx. destruct Hx as (h & <- & _). apply hw_nonneg; auto. intros r. apply Hpd.
Qed.

Theorem rfs_value : forall cc ncc integral nM nZ, 0 < integral -> (nM + nZ <> 0)%nat ->
  components_of (support L) 0 nM nZ cc ncc ->
  exists l s, rfs_likelihood L pd cl lim kbest cc ncc integral nM nZ = Val l /\ association_sum nM nZ L pd cl s /\
  0 <= l /\
  l * integral * qprod (map (fun m => 1 - pd m) (unseen nM nZ L)) <= s * qprod (map pd (unseen nM nZ L)) /\
  ((forall il jl, component L nM nZ il jl -> (length il + length jl <= lim)%nat \/ few 200 L pd cl il jl) ->
   l * integral * qprod (map (fun m => 1 - pd m) (unseen nM nZ L)) = s * qprod (map pd (unseen nM nZ L))).
Proof.
  intros cc ncc integral nM nZ Hint Hsz Hcc.
  destruct (partition_ok (support L) 0%Z nM nZ cc ncc Hcc Hsz) as
    (g & np & b & flag & Epart & Hnp & _ & _ & HS & HG & HR & HC & HF & _ & HI & HCo).
  set (A := fun p => asum L (fun r => 1 - pd r) cl (fst (b p)) (snd (b p))).
  set (small := fun p => (length (fst (b p)) + length (snd (b p)) <= lim)%nat \/ few 200 L pd cl (fst (b p)) (snd (b p))).
  assert (Np : forall p, (p < np)%nat -> NoDup (snd (b p))) by (intros p Hp; eapply part_cols; eauto).
  assert (BS : forall p, (p < np)%nat -> block_sum L pd cl (fst (b p)) (snd (b p)) (A p)).
  { intros p Hp. apply block_sum_iff; [auto|reflexivity]. }
  assert (Hpart : forall p, (p < np)%nat -> exists v,
     block_likelihood L pd cl kbest (negb ((length (fst (b p)) + length (snd (b p)) <=? lim) || negb (flag p))) (flag p)
       (fst (b p)) (snd (b p)) = Val v /\ 0 <= v /\
     v * qprod (map (fun m => 1 - pd m) (dead_rows b flag p)) <= A p * qprod (map pd (dead_rows b flag p)) /\
     (flag p = false \/ small p -> v * qprod (map (fun m => 1 - pd m) (dead_rows b flag p)) = A p * qprod (map pd (dead_rows b flag p)))).
  { intros p Hp. unfold dead_rows. destruct (flag p) eqn:Ef.
    - cbn [negb map]. rewrite orb_false_r. rewrite qprod_nil.
      assert (Hne : (length (fst (b p)) + length (snd (b p)) <> 0)%nat).
      { apply HF in Ef; [|exact Hp]. destruct Ef as (i & j & Hi & _). destruct (fst (b p)); [destruct Hi|cbn; lia]. }
      unfold block_likelihood. cbn [negb].
      destruct (Nat.leb_spec (length (fst (b p)) + length (snd (b p))) lim) as [Hle|Hgt]; cbn [negb].
      + destruct (lex_block L pd cl (fst (b p)) (snd (b p)) Hne) as (v & Ev & Bv).
        assert (EA : v = A p).
        { apply (proj1 (block_sum_iff _ _ _ _ _ _ (Np p Hp))) in Bv. exact Bv. }
        exists v. split; [exact Ev|]. split; [eapply block_nonneg; eauto|]. rewrite EA.
        split; [apply Qcle_refl|reflexivity].
      + destruct (murty_block L pd cl (fst (b p)) (snd (b p)) HL (fun r => proj2 (Hpd r)) Hcl kbest Hk (Np p Hp)) as (v & Bv & H1 & H2 & H3).
        assert (EA : v = A p).
        { apply (proj1 (block_sum_iff _ _ _ _ _ _ (Np p Hp))) in Bv. exact Bv. }
        eexists. split; [reflexivity|]. split; [exact H2|]. rewrite <- EA, !Qcmult_1_r. split; [exact H1|].
        intros [K|[K|K]]; [discriminate|lia|auto].
    - cbn [negb]. rewrite orb_true_r. cbn [negb]. unfold block_likelihood. cbn [negb].
      rewrite zero_value. eexists. split; [reflexivity|].
      assert (EA : A p = qprod (map (fun m => 1 - pd m) (fst (b p))) * qprod (map cl (snd (b p)))).
      { unfold A. apply asum_zero. eapply dead_block; eauto. }
      split; [apply qmul_nonneg; apply prod_nonneg_map; auto; intros x; apply Hpd|].
      assert (EQ : qprod (map pd (fst (b p))) * qprod (map cl (snd (b p))) * qprod (map (fun m => 1 - pd m) (fst (b p))) =
                   A p * qprod (map pd (fst (b p)))) by (rewrite EA; ring).
      rewrite EQ. split; [apply Qcle_refl|reflexivity]. }
  assert (Hval : exists val, forall p, (p < np)%nat ->
     block_likelihood L pd cl kbest (negb ((length (fst (b p)) + length (snd (b p)) <=? lim) || negb (flag p))) (flag p)
       (fst (b p)) (snd (b p)) = Val (val p) /\ 0 <= val p /\
     val p * qprod (map (fun m => 1 - pd m) (dead_rows b flag p)) <= A p * qprod (map pd (dead_rows b flag p)) /\
     (flag p = false \/ small p -> val p * qprod (map (fun m => 1 - pd m) (dead_rows b flag p)) = A p * qprod (map pd (dead_rows b flag p)))).
  { exists (fun p => match block_likelihood L pd cl kbest (negb ((length (fst (b p)) + length (snd (b p)) <=? lim) || negb (flag p))) (flag p)
       (fst (b p)) (snd (b p)) with Val v => v | _ => 0 end).
    intros p Hp. destruct (Hpart p Hp) as (v & E & Q). rewrite E. auto. }
  destruct Hval as (val & Hval).
  set (s := qprod (map A (seq 0 np))).
  assert (HW : association_sum nM nZ L pd cl s) by (eapply whole_product; eauto).
  assert (DU := dead_unseen L nM nZ b flag np HR HC HF HI HCo).
  assert (U : forall f, qprod (map f (unseen nM nZ L)) = qprod (map (fun p => qprod (map f (dead_rows b flag p))) (seq 0 np))).
  { intros f. rewrite <- (qprod_flat b flag). apply qprod_perm, Permutation_map, Permutation_sym. exact DU. }
  assert (HB := blocks_run b flag val np g HS HG (fun p Hp => proj1 (Hval p Hp)) (seq 0 np) g 1
     (conj eq_refl (conj eq_refl eq_refl)) ltac:(intros p Hp; apply in_seq in Hp; lia)).
  set (v := qprod (map val (seq 0 np))) in *.
  assert (Hi0 : integral <> 0) by (intros K; rewrite K in Hint; revert Hint; apply Qcle_not_lt, Qcle_refl).
  exists (1 * v / integral), s. split; [|split; [exact HW|]].
  { unfold rfs_likelihood. change (sig L) with (support L). rewrite Epart. cbn [obind fst snd]. rewrite HB. cbn [obind].
    destruct (Qc_eq_dec integral 0); [contradiction|reflexivity]. }
  assert (EV : 1 * v / integral * integral = v) by (field; exact Hi0).
  assert (V0 : 0 <= v).
  { apply qprod_nonneg. intros x Hx. apply in_map_iff in Hx. destruct Hx as (p & <- & Hp). apply in_seq in Hp.
    apply Hval. lia. }
  rewrite EV, !U. split; [|split].
  - apply (Qcmul_le _ _ integral Hint). rewrite EV. rewrite Qcmult_0_l. exact V0.
  - apply prod_le. intros p Hp. apply in_seq in Hp. destruct (Hval p ltac:(lia)) as (_ & A1 & A2 & _).
    split; [exact A1|]. split; [apply prod_nonneg_map; exact qc01|exact A2].
  - intros Hsm. apply prod_eq. intros p Hp. apply in_seq in Hp. destruct (Hval p ltac:(lia)) as (_ & _ & _ & A3).
    apply A3. destruct (flag p) eqn:Ef; [right|auto]. apply Hsm. split; [|split; [|split; [|split]]].
    + eapply part_rows; eauto; lia.
    + apply Np. lia.
    + apply HF in Ef; [|lia]. destruct Ef as (i & j & Hi & Hj & Hp0). exists i, j. split; [exact Hi|]. split; [exact Hj|].
      revert Hp0. apply support_pos.
    + intros [i|j] Hu; cbn in Hu |- *; [eapply row_range; eauto; lia|eapply col_range; eauto; lia].
    + intros u w Hu Hw. destruct (b p) as [il jl] eqn:Eb. cbn [fst snd].
      rewrite <- Eb in *. apply HCo; auto; lia.
Qed.
End Value.
