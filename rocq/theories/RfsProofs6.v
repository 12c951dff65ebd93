(** The truncated measurement likelihood is positive whenever the sum over all hypotheses is. *)
From Coq Require Import ZArith List Bool Arith QArith Qcanon Lia Permutation Sorted Relations.
From Verif Require Import Base ListUtil QcLra PermanentSpec PermanentProofs EnumLemmas PartitionModel PartitionSpec
  PartitionProofs LexModel LexSpec RfsModel RfsSpec RfsProofs RfsProofs2 RfsProofs3 RfsProofs4 RfsProofs5 LmbProofs2.
Import ListNotations.
Local Open Scope Qc_scope.

Lemma prod_factor : forall l, (forall x, In x l -> 0 <= x) -> 0 < qprod l -> forall x, In x l -> 0 < x.
Proof.
  intros l Hn Hp x Hx. destruct (Qcle_lt_or_eq _ _ (Hn x Hx)) as [K|K]; [exact K|exfalso].
  assert (Z : qprod l = 0).
  { clear Hn Hp. induction l as [|y l IH]; [destruct Hx|]. rewrite qprod_cons. destruct Hx as [->|Hx].
    - rewrite <- K. ring.
    - rewrite (IH Hx). ring. }
  rewrite Z in Hp. revert Hp. apply Qcle_not_lt, Qcle_refl.
Qed.

Lemma qsum_some : forall l, 0 < qsum l -> l <> [].
Proof. intros [|x l] H; [revert H; intros H; vm_compute in H; discriminate|discriminate]. Qed.

Lemma asum_nonneg : forall L q cl, (forall r c, 0 <= L r c) -> (forall c, 0 <= cl c) -> forall rows cols,
  (forall r, In r rows -> 0 <= q r) -> 0 <= asum L q cl rows cols.
Proof.
  intros L q cl HL Hcl. induction rows as [|r rs IH]; intros cols Hq; cbn [asum].
  - apply prod_nonneg_map. exact Hcl.
  - assert (A1 : 0 <= q r * asum L q cl rs cols).
    { apply qmul_nonneg; [apply Hq; left; reflexivity|apply IH; intros r0 H0; apply Hq; right; exact H0]. }
    assert (A2 : 0 <= qsum (map (fun c => L r c * asum L q cl rs (rm c cols)) cols)).
    { apply qsum_nonneg. intros x Hx. apply in_map_iff in Hx. destruct Hx as (c & <- & _). apply qmul_nonneg; [apply HL|].
      apply IH. intros r0 H0. apply Hq. right. exact H0. }
    qclra.
Qed.

Lemma qmul_pos : forall a b : Qc, 0 < a -> 0 < b -> 0 < a * b.
Proof. intros a b Ha Hb. rewrite <- (Qcmult_0_l b). apply Qcmult_lt_compat_r; assumption. Qed.

Lemma asum_pos : forall L q cl, (forall r c, 0 <= L r c) -> (forall c, 0 <= cl c) -> forall rows cols,
  (forall r, In r rows -> 0 < q r) -> (forall c, In c cols -> 0 < cl c) -> 0 < asum L q cl rows cols.
Proof.
  intros L q cl HL Hcl. induction rows as [|r rs IH]; intros cols Hq Hc; cbn [asum].
  - apply qprod_pos. intros x Hx. apply in_map_iff in Hx. destruct Hx as (c & <- & Hx). apply Hc. exact Hx.
  - assert (A1 : 0 < q r * asum L q cl rs cols).
    { apply qmul_pos; [apply Hq; left; reflexivity|apply IH; [intros r0 H0; apply Hq; right; exact H0|exact Hc]]. }
    assert (A2 : 0 <= qsum (map (fun c => L r c * asum L q cl rs (rm c cols)) cols)).
    { apply qsum_nonneg. intros x Hx. apply in_map_iff in Hx. destruct Hx as (c & <- & _). apply qmul_nonneg; [apply HL|].
      apply asum_nonneg; [exact HL|exact Hcl|]. intros r0 H0. apply Qclt_le_weak, Hq. right. exact H0. }
    qclra.
Qed.

Lemma murty_sum_nonneg : forall E, (forall r c, 0 <= E r c) -> forall outs k, 0 <= murty_sum k E outs.
Proof.
  intros E En. induction outs as [|a outs IH]; intros [|k]; cbn [murty_sum]; try apply Qcle_refl.
  destruct (Qc_eq_dec (product_along E 0 a) 0); [apply Qcle_refl|].
  assert (A1 := product_nonneg E a 0 En). assert (A2 := IH k). qclra.
Qed.

Lemma murty_pos : forall L pd cl il jl, (forall r c, 0 <= L r c) -> (forall r, pd r <= 1) -> (forall c, 0 <= cl c) ->
  forall kbest, kbest_contract kbest -> NoDup jl -> forall k, 0 < asum L (fun r => 1 - pd r) cl il jl ->
  0 < murty_sum (S k) (extended L pd cl il jl) (kbest (length il) (length jl) (extended L pd cl il jl)).
Proof.
  intros L pd cl il jl HL Hpd Hcl kbest Hk Nj k Hv.
  assert (En : forall r c, 0 <= extended L pd cl il jl r c) by (apply E_nonneg; assumption).
  destruct (murty_hyps L pd cl il jl HL Hpd Hcl kbest Hk) as (_ & Ih & _).
  match type of Ih with forall h, In h ?l <-> _ => set (hs := l) in Ih end.
  destruct (murty_block_k L pd cl il jl HL Hpd Hcl kbest Hk (length hs) Nj) as (v & Bv & _ & _ & H3).
  apply (proj1 (block_sum_iff _ _ _ _ _ _ Nj)) in Bv. rewrite <- Bv in Hv.
  assert (Hf : few (length hs) L pd cl il jl).
  { intros gs Ng Hg. apply NoDup_incl_length; [exact Ng|]. intros h Hh. apply Ih. apply Hg. exact Hh. }
  rewrite <- (H3 Hf) in Hv. clear - Hv En. revert Hv.
  generalize (kbest (length il) (length jl) (extended L pd cl il jl)). intros outs.
  destruct (length hs) as [|n]; destruct outs as [|a outs]; cbn [murty_sum]; try (intros Hv; vm_compute in Hv; discriminate).
  destruct (Qc_eq_dec (product_along (extended L pd cl il jl) 0 a) 0); [intros Hv; vm_compute in Hv; discriminate|]. intros _.
  assert (A1 := product_nonneg _ a 0 En). assert (A2 := murty_sum_nonneg _ En outs k).
  destruct (Qcle_lt_or_eq _ _ A1); [qclra|congruence].
Qed.

Section Positive.
Variable L : nat -> nat -> Qc.
Variables pd cl : nat -> Qc.
Variable lim : nat.
Variable kbest : nat -> nat -> (nat -> nat -> Qc) -> list (list nat).
Hypothesis HL : forall r c, 0 <= L r c.
Hypothesis Hpd : forall r, 0 <= pd r <= 1.
Hypothesis Hcl : forall c, 0 <= cl c.
Hypothesis Hk : kbest_contract kbest.

Theorem rfs_positive : forall cc ncc integral nM nZ, 0 < integral -> (nM + nZ <> 0)%nat ->
  components_of (support L) 0 nM nZ cc ncc ->
  exists l s, rfs_likelihood L pd cl lim kbest cc ncc integral nM nZ = Val l /\
  association_sum nM nZ L (swapped nZ L pd) cl s /\
  (0 < s -> 0 < l).
Proof.
  intros cc ncc integral nM nZ Hint Hsz Hcc.
  destruct (partition_ok (support L) 0%Z nM nZ cc ncc Hcc Hsz) as
    (g & np & b & flag & Epart & Hnp & _ & _ & HS & HG & HR & HC & HF & _ & HI & HCo).
  set (pd' := swapped nZ L pd).
  set (A := fun p => asum L (fun r => 1 - pd' r) cl (fst (b p)) (snd (b p))).
  set (small := fun p => (length (fst (b p)) + length (snd (b p)) <= lim)%nat \/ few 200 L pd cl (fst (b p)) (snd (b p))).
  assert (Np : forall p, (p < np)%nat -> NoDup (snd (b p))) by (intros p Hp; eapply part_cols; eauto).
  assert (DU := dead_unseen L nM nZ b flag np HR HC HF HI HCo).
  assert (Live : forall p r, (p < np)%nat -> flag p = true -> In r (fst (b p)) -> pd' r = pd r).
  { intros p r Hp Hf Hr. unfold pd', swapped. destruct (forallb (fun z => Qcleb (L r z) 0) (seq 0 nZ)) eqn:E; [|reflexivity].
    exfalso. assert (K : In r (unseen nM nZ L)).
    { unfold unseen. apply filter_In. split; [|exact E].
      apply in_seq. assert (Q := row_range nM b np HR p r Hp Hr). lia. }
    apply (Permutation_in _ (Permutation_sym DU)) in K. apply in_flat_map in K. destruct K as (q & Hq & K).
    unfold dead_rows in K. destruct (flag q) eqn:Fq; [destruct K|].
    assert (p = q); [|subst; congruence].
    apply (@uniq (fun p => fst (b p)) (seq 0 np) p q r); auto using seq_NoDup; [eapply Nrows; eauto|apply in_seq; lia]. }
  assert (Dead : forall p r, (p < np)%nat -> flag p = false -> In r (fst (b p)) -> 1 - pd' r = pd r).
  { intros p r Hp Hf Hr. unfold pd', swapped.
    assert (K : In r (unseen nM nZ L)).
    { apply (Permutation_in _ DU). apply in_flat_map. exists p. split; [apply in_seq; lia|].
      unfold dead_rows. rewrite Hf. exact Hr. }
    apply filter_In in K. destruct K as [_ ->]. ring. }
  assert (Hpart : forall p, (p < np)%nat -> exists v,
     block_likelihood L pd cl kbest (negb ((length (fst (b p)) + length (snd (b p)) <=? lim) || negb (flag p))) (flag p)
       (fst (b p)) (snd (b p)) = Val v /\ (0 < A p -> 0 < v)).
  { intros p Hp. destruct (flag p) eqn:Ef.
    - cbn [negb map]. rewrite orb_false_r.
      assert (Hne : (length (fst (b p)) + length (snd (b p)) <> 0)%nat).
      { apply HF in Ef; [|exact Hp]. destruct Ef as (i & j & Hi & _). destruct (fst (b p)); [destruct Hi|cbn; lia]. }
      assert (EB : A p = asum L (fun r => 1 - pd r) cl (fst (b p)) (snd (b p))).
      { unfold A. apply asum_ext_q. intros r Hr. rewrite (Live p r Hp Ef Hr). reflexivity. }
      unfold block_likelihood. cbn [negb].
      destruct (Nat.leb_spec (length (fst (b p)) + length (snd (b p))) lim) as [Hle|Hgt]; cbn [negb].
      + destruct (lex_block L pd cl (fst (b p)) (snd (b p)) Hne) as (v & Ev & Bv).
        assert (EA : v = A p).
        { apply (proj1 (block_sum_iff _ _ _ _ _ _ (Np p Hp))) in Bv. rewrite EB. exact Bv. }
        exists v. split; [exact Ev|]. rewrite EA. auto.
      + eexists. split; [reflexivity|]. rewrite EB. intros HA.
        exact (murty_pos L pd cl _ _ HL (fun r => proj2 (Hpd r)) Hcl kbest Hk (Np p Hp) 199 HA).
    - cbn [negb]. rewrite orb_true_r. cbn [negb]. unfold block_likelihood. cbn [negb].
      rewrite zero_value. eexists. split; [reflexivity|].
      assert (EA : A p = qprod (map pd (fst (b p))) * qprod (map cl (snd (b p)))).
      { unfold A. rewrite asum_zero by (eapply dead_block; eauto). f_equal. f_equal. apply map_ext_in.
        intros r Hr. apply (Dead p r Hp Ef Hr). }
      rewrite EA. auto. }
  assert (Hval : exists val, forall p, (p < np)%nat ->
     block_likelihood L pd cl kbest (negb ((length (fst (b p)) + length (snd (b p)) <=? lim) || negb (flag p))) (flag p)
       (fst (b p)) (snd (b p)) = Val (val p) /\ (0 < A p -> 0 < val p)).
  { exists (fun p => match block_likelihood L pd cl kbest (negb ((length (fst (b p)) + length (snd (b p)) <=? lim) || negb (flag p))) (flag p)
       (fst (b p)) (snd (b p)) with Val v => v | _ => 0 end).
    intros p Hp. destruct (Hpart p Hp) as (v & E & Q). rewrite E. auto. }
  destruct Hval as (val & Hval).
  set (s := qprod (map A (seq 0 np))).
  assert (HW : association_sum nM nZ L pd' cl s) by (eapply whole_product; eauto).
  assert (HB := blocks_run L pd cl lim kbest b flag val np g HS HG (fun p Hp => proj1 (Hval p Hp)) (seq 0 np) g 1
     (conj eq_refl (conj eq_refl eq_refl)) ltac:(intros p Hp; apply in_seq in Hp; lia)).
  set (v := qprod (map val (seq 0 np))) in *.
  assert (Hi0 : integral <> 0) by (intros K; rewrite K in Hint; revert Hint; apply Qcle_not_lt, Qcle_refl).
  exists (1 * v / integral), s. split; [|split; [exact HW|]].
  { unfold rfs_likelihood. change (sig L) with (support L). rewrite Epart. cbn [obind fst snd]. rewrite HB. cbn [obind].
    destruct (Qc_eq_dec integral 0); [contradiction|reflexivity]. }
  intros Hs.
  assert (Ap : forall p, (p < np)%nat -> 0 <= A p).
  { intros p Hp. unfold A. apply asum_nonneg; [exact HL|exact Hcl|]. intros r _. unfold pd', swapped.
    destruct (Hpd r) as [P1 P2]. destruct (forallb (fun z => Qcleb (L r z) 0) (seq 0 nZ)); qclra. }
  assert (V0 : 0 < v).
  { apply qprod_pos. intros x Hx. apply in_map_iff in Hx. destruct Hx as (p & <- & Hp). assert (Hp' := Hp). apply in_seq in Hp'.
    apply Hval; [lia|]. apply (prod_factor (map A (seq 0 np))); [|exact Hs|apply in_map; exact Hp].
    intros y Hy. apply in_map_iff in Hy. destruct Hy as (q & <- & Hq). apply in_seq in Hq. apply Ap. lia. }
  assert (EV : 1 * v / integral * integral = v) by (field; exact Hi0).
  destruct (Qclt_le_dec 0 (1 * v / integral)) as [K|K]; [exact K|exfalso].
  assert (K' := Qcmult_le_compat_r _ _ integral K (Qclt_le_weak _ _ Hint)). rewrite EV, Qcmult_0_l in K'. qclra.
Qed.

(** In particular if every detection probability is strictly between zero and one and clutter is everywhere possible. *)
Theorem rfs_alive : forall cc ncc integral nM nZ, 0 < integral -> (nM + nZ <> 0)%nat ->
  components_of (support L) 0 nM nZ cc ncc -> (forall m, (m < nM)%nat -> 0 < pd m < 1) -> (forall z, (z < nZ)%nat -> 0 < cl z) ->
  exists l, rfs_likelihood L pd cl lim kbest cc ncc integral nM nZ = Val l /\ 0 < l.
Proof.
  intros cc ncc integral nM nZ Hint Hsz Hcc Hp Hc.
  destruct (rfs_positive cc ncc integral nM nZ Hint Hsz Hcc) as (l & s & El & Hs & Hl). exists l. split; [exact El|]. apply Hl.
  apply association_sum_iff in Hs. rewrite Hs. apply asum_pos; [exact HL|exact Hcl| |].
  - intros r Hr. apply in_seq in Hr. destruct (Hp r ltac:(lia)) as [P1 P2]. unfold swapped.
    destruct (forallb (fun z => Qcleb (L r z) 0) (seq 0 nZ)); qclra.
  - intros c Hc'. apply in_seq in Hc'. apply Hc. lia.
Qed.
End Positive.
