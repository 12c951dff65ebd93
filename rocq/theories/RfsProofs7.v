(** How much of the sum over hypotheses is lost by taking the best 200 of a block only. *)
From Coq Require Import ZArith List Bool Arith QArith Qcanon Lia Permutation Sorted Relations.
From Verif Require Import Base ListUtil QcLra PermanentSpec PermanentProofs EnumLemmas PartitionModel PartitionSpec
  PartitionProofs LexModel LexSpec RfsModel RfsSpec RfsProofs RfsProofs2 RfsProofs3 RfsProofs4 RfsProofs5 RfsProofs6.
Import ListNotations.
Local Open Scope Qc_scope.

(** The terms from k on are at most w each. *)
Lemma murty_gap : forall E w, (forall r c, 0 <= E r c) -> 0 <= w -> forall outs, Forall (fun a => product_along E 0 a <= w) outs ->
  forall k N, (k <= N)%nat -> murty_sum N E outs <= murty_sum k E outs + QcN (N - k) * w.
Proof.
  intros E w En Hw outs H. induction H as [|a outs Ha H IH]; intros k N HkN.
  - assert (P : 0 <= QcN (N - k) * w) by (apply qmul_nonneg; [apply QcN_nonneg|exact Hw]).
    destruct k, N; cbn [murty_sum]; qclra.
  - assert (P : forall n, 0 <= QcN n * w) by (intros n; apply qmul_nonneg; [apply QcN_nonneg|exact Hw]).
    destruct k as [|k]; destruct N as [|N]; try lia; cbn [murty_sum].
    + specialize (P 0%nat). change (0 - 0)%nat with 0%nat. qclra.
    + specialize (IH 0%nat N ltac:(lia)). rewrite Nat.sub_0_r in *. assert (P1 := P N). rewrite QcN_S.
      replace ((QcN N + 1) * w) with (QcN N * w + w) by ring.
      destruct (Qc_eq_dec (product_along E 0 a) 0); [|destruct outs; cbn [murty_sum] in IH]; qclra.
    + change (S N - S k)%nat with (N - k)%nat. specialize (IH k N ltac:(lia)). specialize (P (N - k)%nat).
      destruct (Qc_eq_dec (product_along E 0 a) 0); qclra.
Qed.

(** The mean of the best k terms is at least that of the best N. *)
Lemma murty_top : forall E, (forall r c, 0 <= E r c) -> forall outs,
  StronglySorted (fun a b => product_along E 0 b <= product_along E 0 a) outs ->
  forall k N, (k <= N)%nat -> QcN k * murty_sum N E outs <= QcN N * murty_sum k E outs.
Proof.
  intros E En outs H. induction H as [|a outs H IH Ha]; intros k N HkN.
  - replace (murty_sum N E []) with 0 by (destruct N; reflexivity). replace (murty_sum k E []) with 0 by (destruct k; reflexivity). rewrite !Qcmult_0_r. apply Qcle_refl.
  - destruct k as [|k]; destruct N as [|N]; try lia; cbn [murty_sum].
    + apply Qcle_refl.
    + rewrite QcN_0, Qcmult_0_l, Qcmult_0_r. apply Qcle_refl.
    + set (w := product_along E 0 a) in *. destruct (Qc_eq_dec w 0); [rewrite !Qcmult_0_r; apply Qcle_refl|].
      specialize (IH k N ltac:(lia)). assert (G := murty_gap E w En (product_nonneg E a 0 En) outs Ha k N ltac:(lia)).
      assert (D : QcN N = QcN (N - k) + QcN k) by (rewrite <- QcN_add; f_equal; lia).
      rewrite !QcN_S.
      replace ((QcN k + 1) * (w + murty_sum N E outs)) with (QcN k * w + w + QcN k * murty_sum N E outs + murty_sum N E outs) by ring.
      replace ((QcN N + 1) * (w + murty_sum k E outs)) with (QcN (N - k) * w + QcN k * w + w + QcN N * murty_sum k E outs + murty_sum k E outs) by (rewrite D; ring).
      qclra.
Qed.

Lemma pow_nonneg : forall q n, 0 <= q -> 0 <= Qcpower q n.
Proof. intros q n H. induction n as [|n IH]; cbn [Qcpower]; [discriminate|]. apply qmul_nonneg; assumption. Qed.
Lemma pow_le : forall q q' n, 0 <= q -> q <= q' -> Qcpower q n <= Qcpower q' n.
Proof.
  intros q q' n H H'. induction n as [|n IH]; cbn [Qcpower]; [apply Qcle_refl|].
  apply Qcle_trans with (q' * Qcpower q n).
  - apply Qcmult_le_compat_r; [exact H'|apply pow_nonneg; exact H].
  - rewrite !(Qcmult_comm q'). apply Qcmult_le_compat_r; [exact IH|]. eapply Qcle_trans; eassumption.
Qed.
Lemma pow_add : forall q m n, Qcpower q (m + n) = Qcpower q m * Qcpower q n.
Proof. induction m as [|m IH]; intros n; cbn [Nat.add Qcpower]; [ring|]. rewrite IH. ring. Qed.
Lemma prod_pow : forall q (big : nat -> bool) ps, qprod (map (fun p => if big p then q else 1) ps) = Qcpower q (length (filter big ps)).
Proof.
  intros q big. induction ps as [|p ps IH]; [reflexivity|]. cbn [map filter]. rewrite qprod_cons, IH. destruct (big p); cbn [length Qcpower]; [reflexivity|ring].
Qed.
Lemma big_blocks : forall {A B : Type} (f : nat -> list A) (g : nat -> list B) (big : nat -> bool) k ps,
  (forall p, big p = true -> (k <= length (f p) + length (g p))%nat) ->
  (length (filter big ps) * k <= length (flat_map f ps) + length (flat_map g ps))%nat.
Proof.
  intros A B f g big k ps H. induction ps as [|p ps IH]; [cbn; lia|]. cbn [filter flat_map]. rewrite !app_length.
  destruct (big p) eqn:Eb; [|lia]. specialize (H p Eb). cbn [length Nat.mul]. lia.
Qed.

Section Loss.
Variable L : nat -> nat -> Qc.
Variables pd cl : nat -> Qc.
Variable lim : nat.
Variable kbest : nat -> nat -> (nat -> nat -> Qc) -> list (list nat).
Hypothesis HL : forall r c, 0 <= L r c.
Hypothesis Hpd : forall r, 0 <= pd r <= 1.
Hypothesis Hcl : forall c, 0 <= cl c.
Hypothesis Hk : kbest_contract kbest.

Lemma block_loss : forall il jl N, NoDup jl -> (200 <= N)%nat -> few N L pd cl il jl ->
  asum L (fun r => 1 - pd r) cl il jl * QcN 200 <=
  murty_sum 200 (extended L pd cl il jl) (kbest (length il) (length jl) (extended L pd cl il jl)) * QcN N.
Proof.
  intros il jl N Nj HN Hf. assert (En : forall r c, 0 <= extended L pd cl il jl r c) by (apply E_nonneg; [exact HL|intros r; apply Hpd|exact Hcl]).
  destruct (murty_block_k L pd cl il jl HL (fun r => proj2 (Hpd r)) Hcl kbest Hk N Nj) as (v & Bv & _ & _ & H3).
  apply (proj1 (block_sum_iff _ _ _ _ _ _ Nj)) in Bv. rewrite <- Bv, <- (H3 Hf).
  destruct (Hk (length il) (length jl) (extended L pd cl il jl) En) as (_ & _ & K3 & _).
  rewrite Qcmult_comm, (Qcmult_comm _ (QcN N)). apply murty_top; [exact En|exact K3|exact HN].
Qed.

Theorem rfs_loss : forall cc ncc integral nM nZ, 0 < integral -> (nM + nZ <> 0)%nat ->
  components_of (support L) 0 nM nZ cc ncc ->
  exists l s, rfs_likelihood L pd cl lim kbest cc ncc integral nM nZ = Val l /\
  association_sum nM nZ L (swapped nZ L pd) cl s /\
  forall N, (200 <= N)%nat -> (forall il jl, component L nM nZ il jl -> (lim < length il + length jl)%nat -> few N L pd cl il jl) ->
  s * Qcpower (QcN 200) ((nM + nZ) / S lim) <= l * integral * Qcpower (QcN N) ((nM + nZ) / S lim).
Proof.
  intros cc ncc integral nM nZ Hint Hsz Hcc.
  destruct (partition_ok (support L) 0%Z nM nZ cc ncc Hcc Hsz) as
    (g & np & b & flag & Epart & Hnp & _ & _ & HS & HG & HR & HC & HF & _ & HI & HCo).
  set (pd' := swapped nZ L pd).
  set (A := fun p => asum L (fun r => 1 - pd' r) cl (fst (b p)) (snd (b p))).
  set (big := fun p => flag p && (lim <? length (fst (b p)) + length (snd (b p)))%nat).
  assert (Np : forall p, (p < np)%nat -> NoDup (snd (b p))) by (intros p Hp; eapply part_cols; eauto).
  assert (DU := dead_unseen L nM nZ b flag np HR HC HF HI HCo).
  assert (Live : forall p r, (p < np)%nat -> flag p = true -> In r (fst (b p)) -> pd' r = pd r).
  { intros p r Hp Hf Hr. unfold pd', swapped. destruct (forallb (fun z => Qcleb (L r z) 0) (seq 0 nZ)) eqn:E; [|reflexivity].
    exfalso. assert (K : In r (unseen nM nZ L)).
    { unfold unseen. apply filter_In. split; [|exact E].
      apply in_seq. assert (Q := row_range nM b np HR p r Hp Hr). lia. }
    apply (Permutation_in _ (Permutation_sym DU)) in K. apply in_flat_map in K. destruct K as (q & Hq & K).
    unfold dead_rows in K. destruct (flag q) eqn:Fq; [destruct K|].
    assert (p = q); [|subst; congruence].
    apply (@uniq (fun p => fst (b p)) (seq 0 np) p q r); auto using seq_NoDup; [eapply Nrows; eauto|apply in_seq; lia]. }
  assert (Dead : forall p r, (p < np)%nat -> flag p = false -> In r (fst (b p)) -> 1 - pd' r = pd r).
  { intros p r Hp Hf Hr. unfold pd', swapped.
    assert (K : In r (unseen nM nZ L)).
    { apply (Permutation_in _ DU). apply in_flat_map. exists p. split; [apply in_seq; lia|].
      unfold dead_rows. rewrite Hf. exact Hr. }
    apply filter_In in K. destruct K as [_ ->]. ring. }
  assert (Hpart : forall p, (p < np)%nat -> exists v,
     block_likelihood L pd cl kbest (negb ((length (fst (b p)) + length (snd (b p)) <=? lim) || negb (flag p))) (flag p)
       (fst (b p)) (snd (b p)) = Val v /\ 0 <= v /\ v <= A p /\ (forall N, (200 <= N)%nat -> (big p = true -> few N L pd cl (fst (b p)) (snd (b p))) -> A p * (if big p then QcN 200 else 1) <= v * (if big p then QcN N else 1))).
  { intros p Hp. destruct (flag p) eqn:Ef.
    - cbn [negb map]. rewrite orb_false_r.
      assert (Hne : (length (fst (b p)) + length (snd (b p)) <> 0)%nat).
      { apply HF in Ef; [|exact Hp]. destruct Ef as (i & j & Hi & _). destruct (fst (b p)); [destruct Hi|cbn; lia]. }
      assert (EB : A p = asum L (fun r => 1 - pd r) cl (fst (b p)) (snd (b p))).
      { unfold A. apply asum_ext_q. intros r Hr. rewrite (Live p r Hp Ef Hr). reflexivity. }
      unfold block_likelihood. cbn [negb].
      destruct (Nat.leb_spec (length (fst (b p)) + length (snd (b p))) lim) as [Hle|Hgt]; cbn [negb].
      + destruct (lex_block L pd cl (fst (b p)) (snd (b p)) Hne) as (v & Ev & Bv).
        assert (EA : v = A p).
        { apply (proj1 (block_sum_iff _ _ _ _ _ _ (Np p Hp))) in Bv. rewrite EB. exact Bv. }
        exists v. split; [exact Ev|]. split; [exact (block_nonneg L pd cl HL Hpd Hcl _ _ _ (Np p Hp) Bv)|]. rewrite EA.
        split; [apply Qcle_refl|]. intros N _ _. unfold big. rewrite Ef. destruct (Nat.ltb_spec lim (length (fst (b p)) + length (snd (b p)))); [lia|]. cbn [andb]. apply Qcle_refl.
      + destruct (murty_block L pd cl (fst (b p)) (snd (b p)) HL (fun r => proj2 (Hpd r)) Hcl kbest Hk (Np p Hp)) as (v & Bv & H1 & H2 & H3).
        assert (EA : v = A p).
        { apply (proj1 (block_sum_iff _ _ _ _ _ _ (Np p Hp))) in Bv. rewrite EB. exact Bv. }
        eexists. split; [reflexivity|]. split; [exact H2|]. rewrite <- EA. split; [exact H1|].
        intros N HN K. assert (Eb : big p = true) by (unfold big; rewrite Ef; apply Nat.ltb_lt; exact Hgt). rewrite Eb in *. rewrite EA, EB.
        apply block_loss; [exact (Np p Hp)|exact HN|exact (K eq_refl)].
    - cbn [negb]. rewrite orb_true_r. cbn [negb]. unfold block_likelihood. cbn [negb].
      rewrite zero_value. eexists. split; [reflexivity|].
      assert (EA : A p = qprod (map pd (fst (b p))) * qprod (map cl (snd (b p)))).
      { unfold A. rewrite asum_zero by (eapply dead_block; eauto). f_equal. f_equal. apply map_ext_in.
        intros r Hr. apply (Dead p r Hp Ef Hr). }
      split; [apply qmul_nonneg; apply prod_nonneg_map; auto; intros x; apply Hpd|].
      rewrite EA. split; [apply Qcle_refl|]. intros N _ _. unfold big. rewrite Ef. cbn [andb]. apply Qcle_refl. }
  assert (Hval : exists val, forall p, (p < np)%nat ->
     block_likelihood L pd cl kbest (negb ((length (fst (b p)) + length (snd (b p)) <=? lim) || negb (flag p))) (flag p)
       (fst (b p)) (snd (b p)) = Val (val p) /\ 0 <= val p /\ val p <= A p /\ (forall N, (200 <= N)%nat -> (big p = true -> few N L pd cl (fst (b p)) (snd (b p))) -> A p * (if big p then QcN 200 else 1) <= val p * (if big p then QcN N else 1))).
  { exists (fun p => match block_likelihood L pd cl kbest (negb ((length (fst (b p)) + length (snd (b p)) <=? lim) || negb (flag p))) (flag p)
       (fst (b p)) (snd (b p)) with Val v => v | _ => 0 end).
    intros p Hp. destruct (Hpart p Hp) as (v & E & Q). rewrite E. auto. }
  destruct Hval as (val & Hval).
  set (s := qprod (map A (seq 0 np))).
  assert (HW : association_sum nM nZ L pd' cl s) by (eapply whole_product; eauto).
  assert (HB := blocks_run L pd cl lim kbest b flag val np g HS HG (fun p Hp => proj1 (Hval p Hp)) (seq 0 np) g 1
     (conj eq_refl (conj eq_refl eq_refl)) ltac:(intros p Hp; apply in_seq in Hp; lia)).
  set (v := qprod (map val (seq 0 np))) in *.
  assert (Hi0 : integral <> 0) by (intros K; rewrite K in Hint; revert Hint; apply Qcle_not_lt, Qcle_refl).
  exists (1 * v / integral), s. split; [|split; [exact HW|]].
  { unfold rfs_likelihood. change (sig L) with (support L). rewrite Epart. cbn [obind fst snd]. rewrite HB. cbn [obind].
    destruct (Qc_eq_dec integral 0); [contradiction|reflexivity]. }
  assert (EV : 1 * v / integral * integral = v) by (field; exact Hi0).
  assert (V0 : 0 <= v).
  { apply qprod_nonneg. intros x Hx. apply in_map_iff in Hx. destruct Hx as (p & <- & Hp). apply in_seq in Hp.
    apply Hval. lia. }
  rewrite EV. intros N HN Hfew.
  assert (Ap : forall p, (p < np)%nat -> 0 <= A p) by (intros p Hp; destruct (Hval p Hp) as (_ & A1 & A2 & _); qclra).
  assert (N0 : 0 <= QcN 200) by apply QcN_nonneg. assert (N1 : QcN 200 <= QcN N) by (apply QcN_le; exact HN).
  assert (P : s * Qcpower (QcN 200) (length (filter big (seq 0 np))) <= v * Qcpower (QcN N) (length (filter big (seq 0 np)))).
  { rewrite <- !prod_pow. apply prod_le. intros p Hp. apply in_seq in Hp. destruct (Hval p ltac:(lia)) as (_ & _ & _ & A3).
    split; [apply Ap; lia|]. split; [destruct (big p); [exact N0|discriminate]|]. apply A3; [exact HN|]. intros Hb.
    unfold big in Hb. apply andb_prop in Hb. destruct Hb as [Ef Hlt]. apply Nat.ltb_lt in Hlt. apply Hfew; [|exact Hlt].
    split; [|split; [|split; [|split]]].
    + eapply part_rows; eauto; lia.
    + apply Np. lia.
    + apply HF in Ef; [|lia]. destruct Ef as (i & j & Hi & Hj & Hp0). exists i, j. split; [exact Hi|]. split; [exact Hj|].
      revert Hp0. apply support_pos.
    + intros [i|j] Hu; cbn in Hu |- *; [eapply row_range; eauto; lia|eapply col_range; eauto; lia].
    + intros u w Hu Hw. destruct (b p) as [il jl] eqn:Eb. cbn [fst snd].
      rewrite <- Eb in *. apply HCo; auto; lia. }
  assert (Cn : (length (filter big (seq 0 np)) <= (nM + nZ) / S lim)%nat).
  { apply Nat.div_le_lower_bound; [lia|]. assert (Q := big_blocks (fun p => fst (b p)) (fun p => snd (b p)) big (S lim) (seq 0 np)).
    rewrite (Permutation_length HR), (Permutation_length HC), !seq_length in Q. rewrite Nat.mul_comm. apply Q.
    intros p Hb. unfold big in Hb. apply andb_prop in Hb. destruct Hb as [_ Hlt]. apply Nat.ltb_lt in Hlt. lia. }
  set (e := ((nM + nZ) / S lim)%nat) in *. set (c := length (filter big (seq 0 np))) in *.
  replace e with (c + (e - c))%nat by lia. rewrite !pow_add, !Qcmult_assoc.
  apply Qcle_trans with (v * Qcpower (QcN N) c * Qcpower (QcN 200) (e - c)).
  - apply Qcmult_le_compat_r; [exact P|apply pow_nonneg; exact N0].
  - rewrite !(Qcmult_comm (v * Qcpower (QcN N) c)). apply Qcmult_le_compat_r; [apply pow_le; assumption|].
    apply qmul_nonneg; [exact V0|apply pow_nonneg, QcN_nonneg].
Qed.
End Loss.
