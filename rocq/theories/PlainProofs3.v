(** The loop over the partitions, and the gradients of a scan. *)
From Coq Require Import ZArith List Bool Arith QArith Qcanon Lia Permutation.
From Verif Require Import Base ListUtil QcLra PermanentSpec PermanentProofs LexSpec PartitionModel PartitionSpec PartitionProofs PartitionProofs2
  RfsModel RfsSpec RfsProofs RfsProofs2 RfsProofs3 RfsProofs4 RfsProofs5 PlainModel PlainSpec PlainProofs PlainProofs2.
Import ListNotations.
Local Open Scope Qc_scope.

Lemma norm_in : forall v il g m, NoDup il -> p_norm il v g m = if in_dec Nat.eq_dec m il then g m / v else g m.
Proof.
  intros v. induction il as [|x il IH]; intros g m N; [reflexivity|]. inversion N; subst.
  unfold p_norm in *. cbn [fold_left]. rewrite IH by assumption.
  destruct (in_dec Nat.eq_dec m il) as [I|I]; destruct (in_dec Nat.eq_dec m (x :: il)) as [J|J]; destruct (Nat.eqb_spec m x) as [E|E]; subst; try contradiction; try reflexivity.
  all: exfalso; cbn [In] in *; try (apply J; auto; fail); destruct J; congruence || contradiction.
Qed.

Definition normd (v x : Qc) : Qc := if Qcltb 0 v then x / v else x.
Definition normp (v x : Qc) : Qc := if Qcltb 0 v then x / v else 0.

Section Loop.
Variable L : nat -> nat -> Qc.
Variables pd cl : nat -> Qc.
Variables lmg psg : nat -> nat -> option Qc.
Variable kbest : nat -> nat -> (nat -> nat -> Qc) -> list (list nat).
Variable b : nat -> list nat * list nat.
Variable flag : nat -> bool.
Variables (val dp : nat -> Qc) (dl : nat -> nat -> Qc).
Variable np : nat.
Variable g0 : cgen.
Notation mu p := (negb ((length (fst (b p)) + length (snd (b p)) <=? 8) || negb (flag p))).
Hypothesis HS : forall p, (p < np)%nat -> getPartitionSize g0 p = Val (length (fst (b p)), length (snd (b p)), flag p).
Hypothesis HG : forall p ext, (p < np)%nat -> exists g' a, getPartition g0 p ext = Val (g', Got (Some a) (fst (b p)) (snd (b p)) (flag p)).
Hypothesis HV : forall p s, (p < np)%nat -> exists s',
  p_block L pd cl lmg psg kbest (mu p) (flag p) (fst (b p)) (snd (b p)) s = Val (val p, s') /\
  (forall m, fst s' m = fst s m + dl p m) /\ snd s' = snd s + dp p.
Hypothesis Hd : forall p m, (p < np)%nat -> ~ In m (fst (b p)) -> dl p m = 0.
Hypothesis Hn : forall p, (p < np)%nat -> NoDup (fst (b p)).
Hypothesis Hu : forall p q m, (p < np)%nat -> (q < np)%nat -> In m (fst (b p)) -> In m (fst (b q)) -> p = q.

Lemma loop_run : forall ps g l lg pg, like g g0 -> (forall p, In p ps -> (p < np)%nat) -> NoDup ps ->
  exists lg' pg', p_blocks L pd cl lmg psg kbest g ps l lg pg = Val (l * qprod (map val ps), lg', pg') /\
  (forall m, (forall p, In p ps -> ~ In m (fst (b p))) -> lg' m = lg m) /\
  (forall p m, In p ps -> In m (fst (b p)) -> lg' m = normd (val p) (lg m + dl p m)) /\
  pg' = pg + qsum (map (fun p => normp (val p) (dp p)) ps).
Proof.
  induction ps as [|p ps IH]; intros g l lg pg Hlk Hps N; cbn [p_blocks map].
  - exists lg, pg. rewrite qprod_nil, qsum_nil. split; [f_equal; f_equal; f_equal; ring|]. split; [reflexivity|]. split; [intros p m []|ring].
  - inversion N as [|? ? Np N']; subst. assert (Hp := Hps p (or_introl eq_refl)).
    rewrite (like_size g g0 p Hlk), (HS p Hp). cbn [obind].
    destruct (HG p (mu p) Hp) as (g' & a & Eg).
    destruct (like_get g g0 p (mu p) g' (Some a) _ _ _ Hlk Eg) as (g2 & a2 & E2 & Hlk2).
    rewrite E2. cbn [obind fst snd gflag grows gcols].
    destruct (HV p (lg, 0) Hp) as ((lg1 & pp) & Eb & A & B). cbn [fst snd] in A, B. rewrite Eb. cbn [obind].
    assert (S1 : forall q, In q ps -> (q < np)%nat) by (intros q Hq; apply Hps; right; exact Hq).
    set (lg2 := if Qcltb 0 (val p) then p_norm (fst (b p)) (val p) lg1 else lg1).
    set (pg2 := pg + normp (val p) (dp p)).
    destruct (IH g2 (l * val p) lg2 pg2 Hlk2 S1 N') as (lg' & pg' & E & R1 & R2 & R3).
    assert (EQ : (if Qcltb 0 (val p) then p_blocks L pd cl lmg psg kbest g2 ps (l * val p) (p_norm (fst (b p)) (val p) lg1) (pg + pp / val p)
                  else p_blocks L pd cl lmg psg kbest g2 ps (l * val p) lg1 pg) = Val (l * val p * qprod (map val ps), lg', pg')).
    { rewrite <- E. unfold lg2, pg2, normp. destruct (Qcltb 0 (val p)).
      - replace (dp p) with pp by (rewrite B; ring). reflexivity.
      - replace (pg + 0) with pg by ring. reflexivity. }
    assert (P2 : forall m, lg2 m = if in_dec Nat.eq_dec m (fst (b p)) then normd (val p) (lg m + dl p m) else lg m).
    { intros m. unfold lg2, normd. destruct (Qcltb 0 (val p)).
      - rewrite norm_in by (apply Hn; exact Hp). destruct (in_dec Nat.eq_dec m (fst (b p))) as [I|I]; rewrite A; [reflexivity|].
        rewrite (Hd p m Hp I). ring.
      - destruct (in_dec Nat.eq_dec m (fst (b p))) as [I|I]; rewrite A; [reflexivity|]. rewrite (Hd p m Hp I). ring. }
    exists lg', pg'. split; [|split; [|split]].
    + rewrite EQ. rewrite qprod_cons. f_equal. f_equal. f_equal. ring.
    + intros m Hm. rewrite R1 by (intros q Hq; apply Hm; right; exact Hq). rewrite P2.
      destruct (in_dec Nat.eq_dec m (fst (b p))) as [I|I]; [exfalso; apply (Hm p (or_introl eq_refl) I)|reflexivity].
    + intros q m [->|Hq] Hm.
      * rewrite R1.
        -- rewrite P2. destruct (in_dec Nat.eq_dec m (fst (b q))); [reflexivity|contradiction].
        -- intros q' Hq' Hm'. apply Np. rewrite (Hu q q' m); auto.
      * rewrite (R2 q m Hq Hm), P2. destruct (in_dec Nat.eq_dec m (fst (b p))) as [I|I]; [|reflexivity].
        exfalso. apply Np. rewrite (Hu p q m); auto.
    + rewrite R3. unfold pg2. rewrite qsum_cons. ring.
Qed.
End Loop.

Section Scan.
Variable L : nat -> nat -> Qc.
Variables pd cl : nat -> Qc.
Variables lmg psg : nat -> nat -> option Qc.
Variables gl gp : nat -> nat -> Qc.
Variable kbest : nat -> nat -> (nat -> nat -> Qc) -> list (list nat).
Hypothesis HL : forall r c, 0 <= L r c.
Hypothesis Hpd : forall r, 0 <= pd r <= 1.
Hypothesis Hcl : forall c, 0 <= cl c.
Hypothesis Hst : forall m n, 0 < L m n -> lmg m n = Some (gl m n) /\ psg m n = Some (gp m n).
Hypothesis Hk : kbest_contract kbest.

Theorem scan_run : forall cc ncc nM nZ, (nM + nZ <> 0)%nat -> components_of (support L) 0 nM nZ cc ncc ->
  exists g np l lg pg, partition cc ncc (cg_new (support L) nM nZ 0%Z) = Val (g, np) /\
  p_blocks L pd cl lmg psg kbest g (seq 0 np) 1 (fun _ => 0) 0 = Val (l, lg, pg) /\
  blocks_likelihood L pd cl 8 kbest g (seq 0 np) 1 = Val l /\
  (tractable L pd cl nM nZ -> (exists s, association_sum nM nZ L pd cl s /\ 0 < s) ->
   (forall m, (m < nM)%nat -> mean nM nZ L pd cl (gain nZ gl m) (lg m)) /\ mean nM nZ L pd cl (gains nM nZ gp) pg).
Proof.
  intros cc ncc nM nZ Hsz Hcc.
  destruct (partition_ok (support L) 0%Z nM nZ cc ncc Hcc Hsz) as
    (g & np & b & flag & Epart & Hnp & _ & _ & HS & HG & HR & HC & HF & _ & HI & HCo).
  set (A := fun p => asum L (fun r => 1 - pd r) cl (fst (b p)) (snd (b p))).
  set (hw := fun p => hyp_weight (length (fst (b p))) (length (snd (b p))) (fun x y => L (nth x (fst (b p)) 0%nat) (nth y (snd (b p)) 0%nat))
     (fun x => pd (nth x (fst (b p)) 0%nat)) (fun y => cl (nth y (snd (b p)) 0%nat))).
  assert (Npc : forall p, (p < np)%nat -> NoDup (snd (b p))) by (intros p Hp; eapply part_cols; eauto).
  assert (Npr : forall p, (p < np)%nat -> NoDup (fst (b p))) by (intros p Hp; eapply part_rows; eauto).
  assert (Hu : forall p q m, (p < np)%nat -> (q < np)%nat -> In m (fst (b p)) -> In m (fst (b q)) -> p = q).
  { intros p q m Hp Hq H1 H2. apply (@uniq (fun p => fst (b p)) (seq 0 np) p q m); auto using seq_NoDup; [eapply Nrows; eauto|apply in_seq; lia|apply in_seq; lia]. }
  set (mu := fun p => negb ((length (fst (b p)) + length (snd (b p)) <=? 8) || negb (flag p))).
  (* the hypotheses visited in a block *)
  assert (Hblk : forall p, exists hs, (p < np)%nat -> flag p = true ->
     block_likelihood L pd cl kbest (mu p) true (fst (b p)) (snd (b p)) = Val (qsum (map (hw p) hs)) /\
     (forall s, exists s', p_block L pd cl lmg psg kbest (mu p) true (fst (b p)) (snd (b p)) s = Val (qsum (map (hw p) hs), s') /\
        ran L pd cl gl gp (fst (b p)) (snd (b p)) 0 s hs (qsum (map (hw p) hs), s')) /\
     NoDup hs /\ (forall h, In h hs -> association (length (fst (b p))) (length (snd (b p))) true h) /\
     (mu p = false \/ few 200 L pd cl (fst (b p)) (snd (b p)) -> forall h, association (length (fst (b p))) (length (snd (b p))) true h -> hw p h <> 0 -> In h hs)).
  { intros p. destruct (le_lt_dec np p) as [Hp|Hp]; [exists []; intros; lia|].
    destruct (flag p) eqn:Ef; [|exists []; intros; discriminate].
    assert (Hne : (length (fst (b p)) + length (snd (b p)) <> 0)%nat).
    { apply HF in Ef; [|exact Hp]. destruct Ef as (i & j & Hi & _). destruct (fst (b p)); [destruct Hi|cbn; lia]. }
    destruct (block_run L pd cl lmg psg gl gp (fst (b p)) (snd (b p)) HL (fun r => proj2 (Hpd r)) Hcl Hst kbest Hk (mu p) Hne) as (hs & K).
    exists hs. intros _ _. exact K. }
  assert (Hhs : exists Hs : nat -> list (list nat), forall p, (p < np)%nat -> flag p = true ->
     block_likelihood L pd cl kbest (mu p) true (fst (b p)) (snd (b p)) = Val (qsum (map (hw p) (Hs p))) /\
     (forall s, exists s', p_block L pd cl lmg psg kbest (mu p) true (fst (b p)) (snd (b p)) s = Val (qsum (map (hw p) (Hs p)), s') /\
        ran L pd cl gl gp (fst (b p)) (snd (b p)) 0 s (Hs p) (qsum (map (hw p) (Hs p)), s')) /\
     NoDup (Hs p) /\ (forall h, In h (Hs p) -> association (length (fst (b p))) (length (snd (b p))) true h) /\
     (mu p = false \/ few 200 L pd cl (fst (b p)) (snd (b p)) -> forall h, association (length (fst (b p))) (length (snd (b p))) true h -> hw p h <> 0 -> In h (Hs p))).
  { assert (Q : forall n, exists Hs : nat -> list (list nat), forall p, (p < n)%nat -> (p < np)%nat -> flag p = true ->
       block_likelihood L pd cl kbest (mu p) true (fst (b p)) (snd (b p)) = Val (qsum (map (hw p) (Hs p))) /\
       (forall s, exists s', p_block L pd cl lmg psg kbest (mu p) true (fst (b p)) (snd (b p)) s = Val (qsum (map (hw p) (Hs p)), s') /\
          ran L pd cl gl gp (fst (b p)) (snd (b p)) 0 s (Hs p) (qsum (map (hw p) (Hs p)), s')) /\
       NoDup (Hs p) /\ (forall h, In h (Hs p) -> association (length (fst (b p))) (length (snd (b p))) true h) /\
       (mu p = false \/ few 200 L pd cl (fst (b p)) (snd (b p)) -> forall h, association (length (fst (b p))) (length (snd (b p))) true h -> hw p h <> 0 -> In h (Hs p))).
    { induction n as [|n IHn]; [exists (fun _ => []); intros; lia|]. destruct IHn as (Hs & IHn). destruct (Hblk n) as (hs & K).
      exists (fun p => if Nat.eqb p n then hs else Hs p). intros p Hp. destruct (Nat.eqb_spec p n) as [->|Ne]; [exact K|]. apply IHn. lia. }
    destruct (Q np) as (Hs & K). exists Hs. intros p Hp. apply (K p Hp Hp). }
  destruct Hhs as (Hs & Hhs). clear Hblk.
  set (val := fun p => if flag p then qsum (map (hw p) (Hs p)) else zero_likelihood pd cl (fst (b p)) (snd (b p))).
  set (dl := fun p m => if flag p then qsum (map (fun h => hw p h * lmgain gl (fst (b p)) (snd (b p)) h m) (Hs p)) else 0).
  set (dp := fun p => if flag p then qsum (map (fun h => hw p h * psgain gp (fst (b p)) (snd (b p)) h) (Hs p)) else 0).
  assert (HV : forall p s, (p < np)%nat -> exists s',
     p_block L pd cl lmg psg kbest (mu p) (flag p) (fst (b p)) (snd (b p)) s = Val (val p, s') /\
     (forall m, fst s' m = fst s m + dl p m) /\ snd s' = snd s + dp p).
  { intros p s Hp. unfold val, dl, dp. destruct (flag p) eqn:Ef.
    - destruct (Hhs p Hp Ef) as (_ & R & _). destruct (R s) as (s' & E & _ & R2 & R3). exists s'. split; [exact E|]. split; [exact R2|exact R3].
    - exists s. split; [reflexivity|]. split; [intros m; ring|ring]. }
  assert (Hd : forall p m, (p < np)%nat -> ~ In m (fst (b p)) -> dl p m = 0).
  { intros p m Hp Hm. unfold dl. destruct (flag p); [|reflexivity].
    apply (qsum_zero (fun h => hw p h * lmgain gl (fst (b p)) (snd (b p)) h m)). intros h _. rewrite lmgain_out by exact Hm. ring. }
  destruct (loop_run L pd cl lmg psg kbest b flag val dp dl np g HS HG HV Hd Npr Hu (seq 0 np) g 1 (fun _ => 0) 0
     (conj eq_refl (conj eq_refl eq_refl)) ltac:(intros p Hp; apply in_seq in Hp; lia) (seq_NoDup _ _)) as (lg & pg & Ep & _ & Rl & Rp).
  exists g, np, (1 * qprod (map val (seq 0 np))), lg, pg. split; [exact Epart|]. split; [exact Ep|]. split.
  { apply (blocks_run L pd cl 8 kbest b flag val np g HS HG); [|repeat split|intros p Hp; apply in_seq in Hp; lia].
    intros p Hp. unfold val. fold (mu p). destruct (flag p) eqn:Ef; [apply (Hhs p Hp Ef)|reflexivity]. }
  intros Htr (s & Hs1 & Hs0).
  assert (HW : association_sum nM nZ L pd cl (qprod (map A (seq 0 np)))) by (eapply whole_product; eauto).
  assert (Es : s = qprod (map A (seq 0 np))). { apply association_sum_iff in Hs1. apply association_sum_iff in HW. congruence. }
  assert (A0 : forall p, (p < np)%nat -> A p <> 0).
  { intros p Hp E0. assert (Z : qprod (map A (seq 0 np)) = 0).
    { assert (I : In p (seq 0 np)) by (apply in_seq; lia). revert I. generalize (seq 0 np). induction l as [|x l IH]; intros I; [destruct I|].
      cbn [map]. rewrite qprod_cons. destruct I as [->|I]; [rewrite E0; ring|rewrite IH by exact I; ring]. }
    rewrite Es, Z in Hs0. revert Hs0. apply Qcle_not_lt, Qcle_refl. }
  assert (Apos : forall p, (p < np)%nat -> 0 < A p).
  { intros p Hp. assert (K : 0 <= A p).
    { apply (block_nonneg L pd cl HL Hpd Hcl (fst (b p)) (snd (b p))); [apply Npc; exact Hp|]. apply block_sum_iff; [apply Npc; exact Hp|reflexivity]. }
    apply Qcle_lt_or_eq in K. destruct K as [K|K]; [exact K|]. exfalso. apply (A0 p Hp). symmetry. exact K. }
  assert (Cm : forall p, (p < np)%nat -> flag p = true -> mu p = false \/ few 200 L pd cl (fst (b p)) (snd (b p))).
  { intros p Hp Ef. destruct (Htr (fst (b p)) (snd (b p))) as [K|K]; [|left|right; exact K].
    - split; [apply Npr; exact Hp|]. split; [apply Npc; exact Hp|]. split; [|split].
      + assert (Ef' := Ef). apply HF in Ef'; [|exact Hp]. destruct Ef' as (i & j & Hi & Hj & Hp0). exists i, j. split; [exact Hi|]. split; [exact Hj|].
        revert Hp0. apply support_pos.
      + intros [i|j] Hu'; cbn in Hu' |- *; [eapply row_range; eauto|eapply col_range; eauto].
      + intros u w Hu' Hw. destruct (b p) as [il jl] eqn:Eb. cbn [fst snd] in *. rewrite <- Eb in *. apply HCo; auto.
    - unfold mu. apply Nat.leb_le in K. rewrite K. reflexivity. }
  set (N := fun (G : nat -> nat -> Qc) m p => asum (Lat L G m) (fun r => 1 - pat pd m r) cl (fst (b p)) (snd (b p))).
  assert (Dead : forall G p m, (p < np)%nat -> flag p = false -> In m (fst (b p)) -> N G m p = 0).
  { intros G p m Hp Ef Hm. unfold N. rewrite asum_zero.
    - assert (Z : qprod (map (fun r => 1 - pat pd m r) (fst (b p))) = 0).
      { revert Hm. generalize (fst (b p)). induction l as [|x l IH]; intros I; [destruct I|]. cbn [map]. rewrite qprod_cons.
        destruct I as [->|I]; [unfold pat; rewrite Nat.eqb_refl; ring|rewrite IH by exact I; ring]. }
      rewrite Z. ring.
    - intros r c Hr Hc. unfold Lat. rewrite (dead_block L HL b flag np HF p Hp Ef r c Hr Hc). destruct (Nat.eqb r m); ring. }
  assert (Ev : forall p, (p < np)%nat -> flag p = true -> val p = A p).
  { intros p Hp Ef. unfold val. rewrite Ef. destruct (Hhs p Hp Ef) as (_ & _ & Q1 & Q2 & Q3).
    apply (block_weight L pd cl (fst (b p)) (snd (b p)) (Npc p Hp) (Hs p) Q1 Q2 (Q3 (Cm p Hp Ef))). }
  (* every block yields the ratio *)
  assert (RL : forall p m, (p < np)%nat -> In m (fst (b p)) -> lg m = N gl m p / A p).
  { intros p m Hp Hm. rewrite (Rl p m) by (try (apply in_seq; lia); exact Hm). destruct (flag p) eqn:Ef.
    - rewrite (Ev p Hp Ef). unfold normd. replace (Qcltb 0 (A p)) with true by (symmetry; apply Qcltb_true, Apos, Hp).
      unfold dl. rewrite Ef. destruct (Hhs p Hp Ef) as (_ & _ & Q1 & Q2 & Q3).
      assert (BL := block_lm L pd cl (fst (b p)) (snd (b p)) (Npr p Hp) (Npc p Hp) (Hs p) Q1 Q2 (Q3 (Cm p Hp Ef)) gl m Hm).
      fold (hw p) in BL. rewrite BL. fold (N gl m p). f_equal. ring.
    - rewrite (Dead gl p m Hp Ef Hm). unfold normd, dl. rewrite Ef. destruct (Qcltb 0 (val p)); unfold Qcdiv; ring. }
  assert (RP : pg = qsum (map (fun p => qsum (map (fun m => N gp m p / A p) (fst (b p)))) (seq 0 np))).
  { rewrite Rp, Qcplus_0_l. apply qsum_ext. intros p Hp. apply in_seq in Hp. destruct (flag p) eqn:Ef.
    - rewrite (Ev p ltac:(lia) Ef). unfold normp. replace (Qcltb 0 (A p)) with true by (symmetry; apply Qcltb_true, Apos; lia).
      unfold dp. rewrite Ef. destruct (Hhs p ltac:(lia) Ef) as (_ & _ & Q1 & Q2 & Q3).
      assert (BL := block_ps L pd cl (fst (b p)) (snd (b p)) (Npr p ltac:(lia)) (Npc p ltac:(lia)) (Hs p) Q1 Q2 (Q3 (Cm p ltac:(lia) Ef)) gp).
      fold (hw p) in BL. rewrite BL. unfold Qcdiv. rewrite Qcmult_comm, <- qsum_scale. apply qsum_ext. intros m _. unfold N. ring.
    - unfold normp, dp. rewrite Ef. transitivity 0; [destruct (Qcltb 0 (val p)); unfold Qcdiv; ring|]. symmetry.
      apply (qsum_zero (fun m => N gp m p / A p)). intros m Hm. rewrite (Dead gp p m ltac:(lia) Ef Hm). unfold Qcdiv. ring. }
  (* and so does the whole *)
  destruct (assoc_list nM nZ) as (hs & Nh & Ah).
  assert (Ess : qsum (map (hyp_weight nM nZ L pd cl) hs) = s).
  { assert (K : association_sum nM nZ L pd cl (qsum (map (hyp_weight nM nZ L pd cl) hs))) by (exists hs; auto).
    apply association_sum_iff in K. apply association_sum_iff in Hs1. congruence. }
  assert (WH : forall G p m, (p < np)%nat -> In m (fst (b p)) ->
     qsum (map (fun h => hyp_weight nM nZ L pd cl h * gain nZ G m h) hs) = N G m p / A p * s).
  { intros G p m Hp Hm. assert (HmM : (m < nM)%nat) by (eapply row_range; eauto).
    assert (K := whole_gain nM nZ L pd cl G m hs HmM Nh Ah). apply association_sum_iff in K. rewrite K.
    assert (NC := Ncols nZ b np HC).
    transitivity (qprod (map (fun q => N G m q) (seq 0 np))).
    - unfold N. rewrite <- (asum_blocks (Lat L G m) (fun r => 1 - pat pd m r) cl b (seq 0 np) NC (seq_NoDup _ _)).
      + symmetry. rewrite (asum_cols (Lat L G m) (fun r => 1 - pat pd m r) cl _ _ _ NC HC). apply asum_rows; [exact HR|apply seq_NoDup].
      + intros q q' r c Hq Hq' Hne Hr Hc. apply in_seq in Hq, Hq'. unfold Lat.
        rewrite (cross L HL nM nZ b flag np HR HC HI q q' r c) by (auto; lia). destruct (Nat.eqb r m); ring.
    - rewrite (map_ext_in (fun q => N G m q) (fun q => if Nat.ltb q np then N G m q else A q)).
      + rewrite (qprod_one A _ (N G m p / A p) p (seq 0 np)); [rewrite Es; ring|apply seq_NoDup|apply in_seq; lia| |].
        * intros q Hq. cbv beta. destruct (Nat.ltb_spec q np) as [Hlt|]; [|reflexivity]. unfold N, A.
          assert (Nm : ~ In m (fst (b q))) by (intros K1; apply Hq; apply (Hu q p m); auto).
          apply asum_ext; intros; unfold Lat, pat; (destruct (Nat.eqb_spec r m); [subst; contradiction|reflexivity]) || reflexivity.
        * cbv beta. apply Nat.ltb_lt in Hp. rewrite Hp. apply Nat.ltb_lt in Hp. field. apply A0. exact Hp.
      + intros q Hq. apply in_seq in Hq. destruct (Nat.ltb_spec q np); [reflexivity|lia]. }
  assert (Own : forall m, (m < nM)%nat -> exists p, (p < np)%nat /\ In m (fst (b p))).
  { intros m Hm. assert (I : In m (flat_map (fun p => fst (b p)) (seq 0 np))).
    { eapply Permutation_in; [apply Permutation_sym; exact HR|]. apply in_seq. lia. }
    apply in_flat_map in I. destruct I as (p & Hp & I). apply in_seq in Hp. exists p. split; [lia|exact I]. }
  split.
  - intros m Hm. destruct (Own m Hm) as (p & Hp & I). exists hs. split; [exact Nh|]. split; [exact Ah|]. rewrite Ess. split; [exact Hs0|].
    rewrite (RL p m Hp I). symmetry. apply WH; assumption.
  - exists hs. split; [exact Nh|]. split; [exact Ah|]. rewrite Ess. split; [exact Hs0|]. unfold gains.
    rewrite (qsum_ext (fun h => hyp_weight nM nZ L pd cl h * qsum (map (fun m => gain nZ gp m h) (seq 0 nM)))
       (fun h => qsum (map (fun m => hyp_weight nM nZ L pd cl h * gain nZ gp m h) (seq 0 nM))) hs) by (intros h _; symmetry; apply qsum_scale).
    rewrite (qsum_swap (fun h m => hyp_weight nM nZ L pd cl h * gain nZ gp m h)).
    rewrite <- (qsum_perm _ _ (Permutation_map (fun m => qsum (map (fun h => hyp_weight nM nZ L pd cl h * gain nZ gp m h) hs)) HR)).
    rewrite qsum_flat, RP, Qcmult_comm, <- qsum_scale. apply qsum_ext. intros p Hp. apply in_seq in Hp.
    rewrite <- qsum_scale. apply qsum_ext. intros m Hm. rewrite (WH gp p m) by (auto; lia). ring.
Qed.
End Scan.
