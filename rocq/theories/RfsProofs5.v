(** The value of rfsMeasurementLikelihood as a sum over hypotheses. *)
From Coq Require Import ZArith List Bool Arith QArith Qcanon Lia Permutation Sorted Relations.
From Verif Require Import Base ListUtil QcLra PermanentSpec PermanentProofs EnumLemmas PartitionModel PartitionSpec
  PartitionProofs LexModel LexSpec RfsModel RfsSpec RfsProofs RfsProofs2 RfsProofs3 RfsProofs4.
Import ListNotations.
Local Open Scope Qc_scope.

Lemma asum_ext_q : forall L q q' cl rows cols, (forall r, In r rows -> q r = q' r) -> asum L q cl rows cols = asum L q' cl rows cols.
Proof.
  intros L q q' cl. induction rows as [|r rs IH]; intros cols H; cbn [asum]; [reflexivity|].
  rewrite (H r (or_introl eq_refl)), (IH cols) by (intros r0 H0; apply H; right; exact H0).
  f_equal. apply f_equal. apply map_ext. intros c. rewrite IH by (intros r0 H0; apply H; right; exact H0). reflexivity.
Qed.

Section Value.
Variable L : nat -> nat -> Qc.
Variables pd cl : nat -> Qc.
Variable lim : nat.
Variable kbest : nat -> nat -> (nat -> nat -> Qc) -> list (list nat).
Hypothesis HL : forall r c, 0 <= L r c.
Hypothesis Hpd : forall r, 0 <= pd r <= 1.
Hypothesis Hcl : forall c, 0 <= cl c.
Hypothesis Hk : kbest_contract kbest.

Theorem rfs_exact : forall cc ncc integral nM nZ, 0 < integral -> (nM + nZ <> 0)%nat ->
  components_of (support L) 0 nM nZ cc ncc ->
  exists l s, rfs_likelihood L pd cl lim kbest cc ncc integral nM nZ = Val l /\
  association_sum nM nZ L (swapped nZ L pd) cl s /\
  0 <= l /\ l * integral <= s /\
  ((forall il jl, component L nM nZ il jl -> (length il + length jl <= lim)%nat \/ few 200 L pd cl il jl) ->
   l * integral = s).
Proof.
  intros cc ncc integral nM nZ Hint Hsz Hcc.
  destruct (partition_ok (support L) 0%Z nM nZ cc ncc Hcc Hsz) as
    (g & np & b & flag & Epart & Hnp & _ & _ & HS & HG & HR & HC & HF & _ & HI & HCo).
  set (pd' := swapped nZ L pd).
  set (A := fun p => asum L (fun r => 1 - pd' r) cl (fst (b p)) (snd (b p))).
  set (small := fun p => (length (fst (b p)) + length (snd (b p)) <= lim)%nat \/ few 200 L pd cl (fst (b p)) (snd (b p))).
  assert (Np : forall p, (p < np)%nat -> NoDup (snd (b p))) by (intros p Hp; eapply part_cols; eauto).
  assert (DU := dead_unseen L nM nZ b flag np HR HC HF HI HCo).
  assert (Live : forall p r, (p < np)%nat -> flag p = true -> In r (fst (b p)) -> pd' r = pd r).
  { intros p r Hp Hf Hr. unfold pd', swapped. destruct (forallb (fun z => Qcleb (L r z) 0) (seq 0 nZ)) eqn:E; [|reflexivity].
    exfalso. assert (K : In r (unseen nM nZ L)).
    { unfold unseen. apply filter_In. split; [|exact E].
      apply in_seq. assert (Q := row_range nM b np HR p r Hp Hr). lia. }
    apply (Permutation_in _ (Permutation_sym DU)) in K. apply in_flat_map in K. destruct K as (q & Hq & K).
    unfold dead_rows in K. destruct (flag q) eqn:Fq; [destruct K|].
    assert (p = q); [|subst; congruence].
    apply (@uniq (fun p => fst (b p)) (seq 0 np) p q r); auto using seq_NoDup; [eapply Nrows; eauto|apply in_seq; lia]. }
  assert (Dead : forall p r, (p < np)%nat -> flag p = false -> In r (fst (b p)) -> 1 - pd' r = pd r).
  { intros p r Hp Hf Hr. unfold pd', swapped.
    assert (K : In r (unseen nM nZ L)).
    { apply (Permutation_in _ DU). apply in_flat_map. exists p. split; [apply in_seq; lia|].
      unfold dead_rows. rewrite Hf. exact Hr. }
    apply filter_In in K. destruct K as [_ ->]. ring. }
  assert (Hpart : forall p, (p < np)%nat -> exists v,
     block_likelihood L pd cl kbest (negb ((length (fst (b p)) + length (snd (b p)) <=? lim) || negb (flag p))) (flag p)
       (fst (b p)) (snd (b p)) = Val v /\ 0 <= v /\ v <= A p /\ (flag p = false \/ small p -> v = A p)).
  { intros p Hp. destruct (flag p) eqn:Ef.
    - cbn [negb map]. rewrite orb_false_r.
      assert (Hne : (length (fst (b p)) + length (snd (b p)) <> 0)%nat).
      { apply HF in Ef; [|exact Hp]. destruct Ef as (i & j & Hi & _). destruct (fst (b p)); [destruct Hi|cbn; lia]. }
      assert (EB : A p = asum L (fun r => 1 - pd r) cl (fst (b p)) (snd (b p))).
      { unfold A. apply asum_ext_q. intros r Hr. rewrite (Live p r Hp Ef Hr). reflexivity. }
      unfold block_likelihood. cbn [negb].
      destruct (Nat.leb_spec (length (fst (b p)) + length (snd (b p))) lim) as [Hle|Hgt]; cbn [negb].
      + destruct (lex_block L pd cl (fst (b p)) (snd (b p)) Hne) as (v & Ev & Bv).
        assert (EA : v = A p).
        { apply (proj1 (block_sum_iff _ _ _ _ _ _ (Np p Hp))) in Bv. rewrite EB. exact Bv. }
        exists v. split; [exact Ev|]. split; [exact (block_nonneg L pd cl HL Hpd Hcl _ _ _ (Np p Hp) Bv)|]. rewrite EA.
        split; [apply Qcle_refl|reflexivity].
      + destruct (murty_block L pd cl (fst (b p)) (snd (b p)) HL (fun r => proj2 (Hpd r)) Hcl kbest Hk (Np p Hp)) as (v & Bv & H1 & H2 & H3).
        assert (EA : v = A p).
        { apply (proj1 (block_sum_iff _ _ _ _ _ _ (Np p Hp))) in Bv. rewrite EB. exact Bv. }
        eexists. split; [reflexivity|]. split; [exact H2|]. rewrite <- EA. split; [exact H1|].
        intros [K|[K|K]]; [discriminate|lia|auto].
    - cbn [negb]. rewrite orb_true_r. cbn [negb]. unfold block_likelihood. cbn [negb].
      rewrite zero_value. eexists. split; [reflexivity|].
      assert (EA : A p = qprod (map pd (fst (b p))) * qprod (map cl (snd (b p)))).
      { unfold A. rewrite asum_zero by (eapply dead_block; eauto). f_equal. f_equal. apply map_ext_in.
        intros r Hr. apply (Dead p r Hp Ef Hr). }
      split; [apply qmul_nonneg; apply prod_nonneg_map; auto; intros x; apply Hpd|].
      rewrite EA. split; [apply Qcle_refl|reflexivity]. }
  assert (Hval : exists val, forall p, (p < np)%nat ->
     block_likelihood L pd cl kbest (negb ((length (fst (b p)) + length (snd (b p)) <=? lim) || negb (flag p))) (flag p)
       (fst (b p)) (snd (b p)) = Val (val p) /\ 0 <= val p /\ val p <= A p /\ (flag p = false \/ small p -> val p = A p)).
  { exists (fun p => match block_likelihood L pd cl kbest (negb ((length (fst (b p)) + length (snd (b p)) <=? lim) || negb (flag p))) (flag p)
       (fst (b p)) (snd (b p)) with Val v => v | _ => 0 end).
    intros p Hp. destruct (Hpart p Hp) as (v & E & Q). rewrite E. auto. }
  destruct Hval as (val & Hval).
  set (s := qprod (map A (seq 0 np))).
  assert (HW : association_sum nM nZ L pd' cl s) by (eapply whole_product; eauto).
  assert (HB := blocks_run L pd cl lim kbest b flag val np g HS HG (fun p Hp => proj1 (Hval p Hp)) (seq 0 np) g 1
     (conj eq_refl (conj eq_refl eq_refl)) ltac:(intros p Hp; apply in_seq in Hp; lia)).
  set (v := qprod (map val (seq 0 np))) in *.
  assert (Hi0 : integral <> 0) by (intros K; rewrite K in Hint; revert Hint; apply Qcle_not_lt, Qcle_refl).
  exists (1 * v / integral), s. split; [|split; [exact HW|]].
  { unfold rfs_likelihood. change (sig L) with (support L). rewrite Epart. cbn [obind fst snd]. rewrite HB. cbn [obind].
    destruct (Qc_eq_dec integral 0); [contradiction|reflexivity]. }
  assert (EV : 1 * v / integral * integral = v) by (field; exact Hi0).
  assert (V0 : 0 <= v).
  { apply qprod_nonneg. intros x Hx. apply in_map_iff in Hx. destruct Hx as (p & <- & Hp). apply in_seq in Hp.
    apply Hval. lia. }
  rewrite EV. split; [|split].
  - apply (Qcmul_le _ _ integral Hint). rewrite EV. rewrite Qcmult_0_l. exact V0.
  - assert (P := prod_le val A (fun _ => 1) (fun _ => 1) (seq 0 np)).
    assert (O1 : qprod (map (fun _ : nat => 1) (seq 0 np)) = 1).
    { generalize (seq 0 np). induction l as [|x l IH]; [reflexivity|]. cbn [map]. rewrite qprod_cons, IH. ring. }
    rewrite O1, !Qcmult_1_r in P. apply P. intros p Hp. apply in_seq in Hp. destruct (Hval p ltac:(lia)) as (_ & A1 & A2 & _).
    rewrite !Qcmult_1_r. split; [exact A1|]. split; [discriminate|exact A2].
  - intros Hsm. unfold v, s. f_equal. apply map_ext_in. intros p Hp. apply in_seq in Hp. destruct (Hval p ltac:(lia)) as (_ & _ & _ & A3).
    apply A3. destruct (flag p) eqn:Ef; [right|auto]. apply Hsm. split; [|split; [|split; [|split]]].
    + eapply part_rows; eauto; lia.
    + apply Np. lia.
    + apply HF in Ef; [|lia]. destruct Ef as (i & j & Hi & Hj & Hp0). exists i, j. split; [exact Hi|]. split; [exact Hj|].
      revert Hp0. apply support_pos.
    + intros [i|j] Hu; cbn in Hu |- *; [eapply row_range; eauto; lia|eapply col_range; eauto; lia].
    + intros u w Hu Hw. destruct (b p) as [il jl] eqn:Eb. cbn [fst snd].
      rewrite <- Eb in *. apply HCo; auto; lia.
Qed.
End Value.
