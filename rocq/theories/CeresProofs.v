(** Value of the measurement log-likelihood of RFSCeresSLAM. *)
From Coq Require Import ZArith List Bool Arith QArith Qcanon Lia Permutation Sorted Relations.
From Verif Require Import Base ListUtil QcLra PermanentSpec PermanentProofs EnumLemmas PartitionModel PartitionSpec
  PartitionProofs RfsModel RfsSpec RfsProofs RfsProofs2 RfsProofs3 RfsProofs4 CeresModel CeresSpec.
Import ListNotations.
Local Open Scope Qc_scope.

Lemma qprod_flat_map : forall (f : nat -> Qc) (g : nat -> list nat) ps,
  qprod (map f (flat_map g ps)) = qprod (map (fun p => qprod (map f (g p))) ps).
Proof.
  intros f g. induction ps as [|p ps IH]; cbn [flat_map map]; [reflexivity|].
  rewrite map_app, qprod_app, qprod_cons, IH. reflexivity.
Qed.

Lemma qprod_rm : forall (f : nat -> Qc) c cols, NoDup cols -> In c cols ->
  qprod (map f cols) = f c * qprod (map f (rm c cols)).
Proof.
  intros f c. induction cols as [|x cols IH]; intros N Hc; [destruct Hc|].
  inversion N; subst. cbn [map remove]. destruct (Nat.eq_dec c x) as [->|Hne].
  - rewrite qprod_cons. f_equal. rewrite notin_remove by assumption. reflexivity.
  - destruct Hc as [->|Hc]; [congruence|]. cbn [map]. rewrite !qprod_cons, (IH H2 Hc). ring.
Qed.

Lemma asum_odds : forall L q cl rows cols, NoDup cols ->
  asum (fun r c => L r c * q r * cl c) q cl rows cols =
  qprod (map q rows) * qprod (map cl cols) * asum L (fun _ => 1) (fun _ => 1) rows cols.
Proof.
  intros L q cl. induction rows as [|r rs IH]; intros cols N; cbn [asum map].
  - rewrite qprod_nil. assert (E : qprod (map (fun _ : nat => 1) cols) = 1).
    { clear N. induction cols as [|c cols IHc]; cbn [map]; [reflexivity|]. rewrite qprod_cons, IHc. ring. }
    rewrite E. ring.
  - rewrite qprod_cons, IH by exact N.
    rewrite (qsum_ext (fun c => L r c * q r * cl c * asum (fun r0 c0 => L r0 c0 * q r0 * cl c0) q cl rs (rm c cols))
      (fun c => q r * qprod (map q rs) * qprod (map cl cols) * (L r c * asum L (fun _ => 1) (fun _ => 1) rs (rm c cols)))).
    + rewrite qsum_scale. ring.
    + intros c Hc. rewrite IH by (apply remove_nodup; exact N). rewrite (qprod_rm cl c cols N Hc). ring.
Qed.

Section Scan.
Variable lik : nat -> nat -> Qc.
Variable pd clu : nat -> Qc.
Variable da : nat -> Z.
Variable eps thr eint : Qc.
Variable kbest : nat -> nat -> (nat -> nat -> Qc) -> list (list nat).
Hypothesis Hk : kbest_contract kbest.
Hypothesis Hpd : forall m, 0 <= pd m < 1.
Hypothesis Heps : 0 < eps.
Hypothesis Heint : 0 < eint.
Notation cl := (clutter clu da eps).

Lemma clutter_pos : forall n, 0 < cl n.
Proof.
  intros n. unfold clutter. destruct (da n =? -1)%Z.
  - destruct (Qcltb (clu n) eps) eqn:E; [exact Heps|].
    assert (K : ~ clu n < eps) by (intros K; apply Qcltb_true in K; congruence).
    apply Qcnot_lt_le in K. qclra.
  - destruct (da n =? -2)%Z; [reflexivity|exact Heps].
Qed.

Variable fv : list nat.
Notation O := (odds lik pd clu da eps thr fv).
Notation q := (fun a => 1 - pd (nth a fv 0%nat)).

Lemma q_pos : forall m, 0 < 1 - pd m.
Proof. intros m. destruct (Hpd m). qclra. Qed.

Lemma odds_nonneg : forall m n, 0 <= O m n.
Proof.
  intros m n. unfold odds. destruct (_ && _); [apply Qcle_refl|].
  destruct (Qcltb _ thr); [apply Qcle_refl|]. destruct (Qcltb eps _) eqn:E; [|apply Qcle_refl].
  apply Qcltb_true in E. apply Qclt_le_weak. eapply Qclt_trans; [exact Heps|exact E].
Qed.

Lemma base_value : forall il jl,
  fold_left Qcmult (map cl jl) (fold_left Qcmult (map (fun r => pd (nth r fv 0%nat)) il) 1) =
  qprod (map (fun r => pd (nth r fv 0%nat)) il) * qprod (map cl jl).
Proof. intros il jl. rewrite !fold_mul. ring. Qed.

Lemma asum_one : forall il jl, asum O (fun _ => 1 - 0) (fun _ => 1) il jl = asum O (fun _ => 1) (fun _ => 1) il jl.
Proof. intros. apply asum_ext; intros; ring. Qed.

Definition extra (flag : bool) (il jl : list nat) : Qc :=
  if flag then murty_sum 201 (extended O (fun _ => 0) (fun _ => 1) il jl)
                 (kbest (length il) (length jl) (extended O (fun _ => 0) (fun _ => 1) il jl)) else 1.

Lemma c_block_ok : forall flag il jl, NoDup jl -> (flag = false -> forall r c, In r il -> In c jl -> O r c = 0) ->
  let x := extra flag il jl in
  c_block lik pd clu da eps thr kbest fv flag il jl =
    qprod (map (fun r => pd (nth r fv 0%nat)) il) * qprod (map cl jl) * x /\
  0 <= x /\ x <= asum O (fun _ => 1) (fun _ => 1) il jl /\
  (flag = false \/ few 201 O (fun _ => 0) (fun _ => 1) il jl -> x = asum O (fun _ => 1) (fun _ => 1) il jl).
Proof.
  intros flag il jl N Hz x. unfold x, extra, c_block. rewrite base_value. destruct flag.
  - destruct (murty_block_k O (fun _ => 0) (fun _ => 1) il jl odds_nonneg) with (kbest := kbest) (k := 201%nat) as (s & Bs & H1 & H2 & H3);
      [discriminate|intros; discriminate|exact Hk|exact N|].
    apply (proj1 (block_sum_iff _ _ _ _ _ _ N)) in Bs. rewrite asum_one in Bs. subst s.
    split; [reflexivity|]. split; [exact H2|]. split; [exact H1|]. intros [K|K]; [discriminate|auto].
  - split; [ring|]. split; [discriminate|].
    assert (E : asum O (fun _ => 1) (fun _ => 1) il jl = 1).
    { rewrite asum_zero by (apply Hz; reflexivity).
      assert (G : forall l : list nat, qprod (map (fun _ => 1) l) = 1).
      { induction l as [|y l IH]; cbn [map]; [reflexivity|]. rewrite qprod_cons, IH. ring. }
      rewrite !G. ring. }
    rewrite E. split; [apply Qcle_refl|reflexivity].
Qed.

Lemma c_blocks_run : forall (b : nat -> list nat * list nat) flag np g0,
  (forall p ext, (p < np)%nat -> exists g' a, getPartition g0 p ext = Val (g', Got (Some a) (fst (b p)) (snd (b p)) (flag p))) ->
  forall ps g l, like g g0 -> (forall p, In p ps -> (p < np)%nat) ->
  c_blocks lik pd clu da eps thr kbest fv g ps l =
  Val (l * qprod (map (fun p => c_block lik pd clu da eps thr kbest fv (flag p) (fst (b p)) (snd (b p))) ps)).
Proof.
  intros b flag np g0 HG. induction ps as [|p ps IH]; intros g l Hlk Hps; cbn [c_blocks map].
  - rewrite qprod_nil. f_equal. ring.
  - assert (Hp := Hps p (or_introl eq_refl)).
    destruct (HG p true Hp) as (g' & a & Eg).
    destruct (like_get g g0 p true g' (Some a) _ _ _ Hlk Eg) as (g2 & a2 & E2 & Hlk2).
    rewrite E2. cbn [obind fst snd gflag grows gcols].
    rewrite (IH g2 _ Hlk2 (fun q Hq => Hps q (or_intror Hq))). rewrite qprod_cons. f_equal. ring.
Qed.

(** The whole table, rows counted in view. *)
Lemma table_value : forall cc ncc nZ, (length fv + nZ <> 0)%nat ->
  components_of (support O) 0%Z (length fv) nZ cc ncc ->
  exists v, (let* r := partition cc ncc (cg_new (sig O) (length fv) nZ 0%Z) in
             c_blocks lik pd clu da eps thr kbest fv (fst r) (seq 0 (snd r)) 1) = Val v /\
  let s := asum (fun r c => O r c * q r * cl c) q cl (seq 0 (length fv)) (seq 0 nZ) in
  let P := qprod (map pd fv) in let Q := qprod (map (fun m => 1 - pd m) fv) in
  0 <= v /\ v * Q <= s * P /\
  ((forall il jl, component O (length fv) nZ il jl -> few 201 O (fun _ => 0) (fun _ => 1) il jl) -> v * Q = s * P).
Proof.
  intros cc ncc nZ Hsz Hcc. set (nM := length fv) in *.
  destruct (partition_ok (support O) 0%Z nM nZ cc ncc Hcc Hsz) as
    (g & np & b & flag & Epart & Hnp & _ & _ & HS & HG & HR & HC & HF & _ & HI & HCo).
  assert (Np : forall p, (p < np)%nat -> NoDup (snd (b p))) by (intros p Hp; eapply part_cols; eauto).
  set (A := fun p => asum O (fun _ => 1) (fun _ => 1) (fst (b p)) (snd (b p))).
  set (Bb := fun p => qprod (map (fun r => pd (nth r fv 0%nat)) (fst (b p))) * qprod (map cl (snd (b p)))).
  set (X := fun p => extra (flag p) (fst (b p)) (snd (b p))).
  assert (HV : forall p, (p < np)%nat -> c_block lik pd clu da eps thr kbest fv (flag p) (fst (b p)) (snd (b p)) = Bb p * X p /\
     0 <= X p /\ X p <= A p /\
     (flag p = false \/ few 201 O (fun _ => 0) (fun _ => 1) (fst (b p)) (snd (b p)) -> X p = A p)).
  { intros p Hp. apply c_block_ok; [auto|]. intros Hf. eapply dead_block; eauto using odds_nonneg. }
  assert (HB := c_blocks_run b flag np g HG (seq 0 np) g 1
     (conj eq_refl (conj eq_refl eq_refl)) ltac:(intros p Hp; apply in_seq in Hp; lia)).
  assert (Eb : qprod (map (fun p => c_block lik pd clu da eps thr kbest fv (flag p) (fst (b p)) (snd (b p))) (seq 0 np)) =
               qprod (map pd fv) * qprod (map cl (seq 0 nZ)) * qprod (map X (seq 0 np))).
  { transitivity (qprod (map Bb (seq 0 np)) * qprod (map X (seq 0 np))).
    - assert (G : forall ps, (forall p, In p ps -> (p < np)%nat) ->
        qprod (map (fun p => c_block lik pd clu da eps thr kbest fv (flag p) (fst (b p)) (snd (b p))) ps) = qprod (map Bb ps) * qprod (map X ps)).
      { induction ps as [|p ps IH]; intros Hps; cbn [map]; rewrite ?qprod_nil, ?qprod_cons; [ring|].
        rewrite (proj1 (HV p (Hps p (or_introl eq_refl)))), IH by (intros; apply Hps; right; assumption). ring. }
      apply G. intros p Hp. apply in_seq in Hp. lia.
    - f_equal. unfold Bb.
      assert (G : forall ps, qprod (map (fun p => qprod (map (fun r => pd (nth r fv 0%nat)) (fst (b p))) * qprod (map cl (snd (b p)))) ps) =
        qprod (map (fun r => pd (nth r fv 0%nat)) (flat_map (fun p => fst (b p)) ps)) * qprod (map cl (flat_map (fun p => snd (b p)) ps))).
      { intros ps. rewrite !qprod_flat_map. induction ps as [|p ps IH]; cbn [map]; rewrite ?qprod_nil, ?qprod_cons; [reflexivity|]. rewrite IH. ring. }
      rewrite G. rewrite (qprod_perm _ _ (Permutation_map _ HR)), (qprod_perm _ _ (Permutation_map _ HC)). f_equal.
      unfold nM. rewrite <- (map_map (fun r => nth r fv 0%nat) pd), map_nth_seq. reflexivity. }
  assert (W : asum O (fun _ => 1) (fun _ => 1) (seq 0 nM) (seq 0 nZ) = qprod (map A (seq 0 np))).
  { assert (K := whole_product O (fun _ => 0) (fun _ => 1) odds_nonneg nM nZ b flag np HR HC HI).
    apply association_sum_iff in K. rewrite asum_one in K. rewrite <- K. reflexivity. }
  exists (1 * qprod (map (fun p => c_block lik pd clu da eps thr kbest fv (flag p) (fst (b p)) (snd (b p))) (seq 0 np))).
  split. { change (sig O) with (support O). rewrite Epart. cbn [obind fst snd]. exact HB. }
  cbv zeta. rewrite asum_odds by apply seq_NoDup. rewrite Eb, W.
  assert (EQ : qprod (map (fun a => 1 - pd (nth a fv 0%nat)) (seq 0 nM)) = qprod (map (fun m => 1 - pd m) fv)).
  { unfold nM. rewrite <- (map_map (fun r => nth r fv 0%nat) (fun m => 1 - pd m)), map_nth_seq. reflexivity. }
  rewrite EQ. set (PP := qprod (map pd fv)). set (QQ := qprod (map (fun m => 1 - pd m) fv)).
  set (CC := qprod (map cl (seq 0 nZ))).
  assert (P0 : 0 <= PP) by (apply prod_nonneg_map; intros m; apply Hpd).
  assert (Q0 : 0 <= QQ) by (apply prod_nonneg_map; intros m; apply Qclt_le_weak, q_pos).
  assert (C0 : 0 <= CC) by (apply prod_nonneg_map; intros m; apply Qclt_le_weak, clutter_pos).
  assert (X0 : 0 <= qprod (map X (seq 0 np))).
  { apply qprod_nonneg. intros x Hx. apply in_map_iff in Hx. destruct Hx as (p & <- & Hp). apply in_seq in Hp. apply HV. lia. }
  assert (XA : qprod (map X (seq 0 np)) <= qprod (map A (seq 0 np))).
  { assert (K := prod_le X A (fun _ => 1) (fun _ => 1) (seq 0 np)).
    assert (G : qprod (map (fun _ : nat => 1) (seq 0 np)) = 1).
    { generalize (seq 0 np). induction l as [|y l IH]; cbn [map]; [reflexivity|]. rewrite qprod_cons, IH. ring. }
    rewrite G, !Qcmult_1_r in K. apply K. intros p Hp. apply in_seq in Hp. destruct (HV p ltac:(lia)) as (_ & H1 & H2 & _).
    split; [exact H1|]. split; [discriminate|]. rewrite !Qcmult_1_r. exact H2. }
  split; [|split].
  - rewrite Qcmult_1_l. apply qmul_nonneg; [apply qmul_nonneg; assumption|exact X0].
  - replace (1 * (PP * CC * qprod (map X (seq 0 np))) * QQ) with (qprod (map X (seq 0 np)) * (PP * CC * QQ)) by ring.
    replace (QQ * CC * qprod (map A (seq 0 np)) * PP) with (qprod (map A (seq 0 np)) * (PP * CC * QQ)) by ring.
    apply Qcmult_le_compat_r; [exact XA|]. apply qmul_nonneg; [apply qmul_nonneg|]; assumption.
  - intros Hf. replace (qprod (map X (seq 0 np))) with (qprod (map A (seq 0 np))); [ring|].
    f_equal. apply map_ext_in. intros p Hp. apply in_seq in Hp. symmetry.
    destruct (HV p ltac:(lia)) as (_ & _ & _ & H3). apply H3.
    destruct (flag p) eqn:Ef; [right|auto]. apply Hf. split; [|split; [|split; [|split]]].
    + eapply part_rows; eauto; lia.
    + apply Np. lia.
    + apply HF in Ef; [|lia]. destruct Ef as (i & j & Hi & Hj & Hp0). exists i, j. split; [exact Hi|]. split; [exact Hj|].
      revert Hp0. apply support_pos.
    + intros [i|j] Hu; cbn in Hu |- *; [apply (row_range nM b np HR p)|apply (col_range nZ b np HC p)]; auto; lia.
    + intros u w Hu Hw. destruct (b p) as [il jl] eqn:Ebp. cbn [fst snd].
      rewrite <- Ebp in *. apply HCo; auto; lia.
Qed.

Lemma counted_clutter : forall n, counted clu da eps n = cl n.
Proof. reflexivity. Qed.

Lemma pair_ok : forall r n, (forall n, (da n < 0)%Z \/ nth r fv 0%nat = r) ->
  O r n * (1 - pd (nth r fv 0%nat)) * cl n = pair_weight lik pd clu da eps thr (nth r fv 0%nat) n.
Proof.
  intros r n Hd. unfold odds, pair_weight, allowed. change (counted clu da eps n) with (cl n).
  set (j := nth r fv 0%nat) in *.
  assert (Q := q_pos j). assert (C := clutter_pos n).
  assert (Qn : 1 - pd j <> 0) by (intros K; rewrite K in Q; discriminate).
  assert (Cn : cl n <> 0) by (intros K; rewrite K in C; discriminate).
  assert (Ex : lik j n * pd j / (1 - pd j) / cl n = lik j n * pd j / ((1 - pd j) * cl n)).
  { field. split; assumption. }
  rewrite Ex. set (x := lik j n * pd j / ((1 - pd j) * cl n)).
  assert (Eb : (negb (da n =? Z.of_nat r) && negb (da n =? -1))%Z = negb ((da n =? Z.of_nat j) || (da n =? -1))%Z).
  { rewrite negb_orb. f_equal. f_equal. destruct (Hd n) as [H|H]; [|fold j in H; rewrite H; reflexivity].
    destruct (Z.eqb_spec (da n) (Z.of_nat r)); destruct (Z.eqb_spec (da n) (Z.of_nat j)); try reflexivity; lia. }
  rewrite Eb. destruct ((da n =? Z.of_nat j) || (da n =? -1))%Z; cbn [negb andb]; [|ring].
  assert (Ec : Qcleb thr x = negb (Qcltb x thr)).
  { destruct (Qcltb x thr) eqn:E1; cbn [negb].
    - apply not_true_iff_false. intros K. apply Qcleb_true in K. apply Qcltb_true in E1. apply (Qcle_not_lt _ _ K E1).
    - apply Qcleb_true. apply Qcnot_lt_le. intros K. apply Qcltb_true in K. congruence. }
  rewrite Ec. destruct (Qcltb x thr); cbn [negb andb]; [ring|].
  destruct (Qcltb eps x); [|ring]. unfold x. field. split; assumption.
Qed.
End Scan.

Theorem scan_value : forall lik pd clu da eps thr eint kbest, kbest_contract kbest ->
  (forall m, 0 <= pd m < 1) -> 0 < eps -> 0 < eint ->
  forall cc ncc M nZ, let fv := visible pd M in
  (forall n, (da n < 0)%Z) \/ fv = seq 0 M ->
  components_of (support (odds lik pd clu da eps thr fv)) 0%Z (length fv) nZ cc ncc ->
  exists v s, c_scan lik pd clu da eps thr eint kbest cc ncc M nZ = Val v /\
  block_sum (pair_weight lik pd clu da eps thr) pd (counted clu da eps) fv (seq 0 nZ) s /\
  0 <= v /\ v * qprod (map (fun m => 1 - pd m) fv) <= s * eint * qprod (map pd fv) /\
  ((forall il jl, component (odds lik pd clu da eps thr fv) (length fv) nZ il jl ->
      few 201 (odds lik pd clu da eps thr fv) (fun _ => 0) (fun _ => 1) il jl) ->
   v * qprod (map (fun m => 1 - pd m) fv) = s * eint * qprod (map pd fv)).
Proof.
  intros lik pd clu da eps thr eint kbest Hk Hpd Heps Heint cc ncc M nZ fv Hda Hcc.
  set (s := asum (pair_weight lik pd clu da eps thr) (fun r => 1 - pd r) (counted clu da eps) fv (seq 0 nZ)).
  assert (Bs : block_sum (pair_weight lik pd clu da eps thr) pd (counted clu da eps) fv (seq 0 nZ) s).
  { apply block_sum_iff; [apply seq_NoDup|reflexivity]. }
  unfold c_scan. change (in_fov pd M) with fv. destruct (Nat.eqb_spec (length fv) 0) as [E0|E0].
  - assert (Ev : fv = []) by (destruct fv; [reflexivity|discriminate]).
    eexists _, s. split; [reflexivity|]. split; [exact Bs|].
    rewrite fold_mul. unfold s. rewrite Ev. cbn [asum map]. rewrite qprod_nil.
    change (clutter clu da eps) with (counted clu da eps).
    split; [|split].
    + rewrite Qcmult_1_l. apply qmul_nonneg; [|apply Qclt_le_weak; exact Heint].
      apply prod_nonneg_map. intros n. apply Qclt_le_weak. apply (clutter_pos clu da eps Heps n).
    + rewrite Qcmult_1_l. apply Qcle_refl.
    + intros _. ring.
  - destruct (table_value lik pd clu da eps thr kbest Hk Hpd Heps fv cc ncc nZ ltac:(lia) Hcc) as (v & Ev & V0 & V1 & V2).
    assert (Es : asum (fun r c => odds lik pd clu da eps thr fv r c * (1 - pd (nth r fv 0%nat)) * clutter clu da eps c)
        (fun a => 1 - pd (nth a fv 0%nat)) (clutter clu da eps) (seq 0 (length fv)) (seq 0 nZ) = s).
    { assert (K := asum_map (pair_weight lik pd clu da eps thr) (fun r => 1 - pd r) (counted clu da eps)
         (fun j => nth j fv 0%nat) (fun c => c) (seq 0 (length fv)) (seq 0 nZ) (fun x y _ _ H => H)).
      rewrite map_nth_seq, map_id in K. fold s in K. rewrite <- K.
      apply asum_ext; [|reflexivity|reflexivity]. intros r c Hr _. apply pair_ok; try assumption.
      intros n. destruct Hda as [H|H]; [auto|]. right. rewrite H. apply in_seq in Hr.
      rewrite H, seq_length in Hr. rewrite seq_nth by lia. reflexivity. }
    cbv zeta in V1, V2. rewrite Es in V1, V2.
    assert (Ei : 0 <= eint) by (apply Qclt_le_weak; exact Heint).
    exists (v * eint), s. split; [|split; [exact Bs|]].
    + revert Ev. destruct (partition _ _ _) as [r|u|]; cbn [obind]; intros Ev; [|discriminate|discriminate].
      rewrite Ev. reflexivity.
    + split; [apply qmul_nonneg; assumption|]. split.
      * replace (v * eint * qprod (map (fun m => 1 - pd m) fv)) with (v * qprod (map (fun m => 1 - pd m) fv) * eint) by ring.
        replace (s * eint * qprod (map pd fv)) with (s * qprod (map pd fv) * eint) by ring.
        apply Qcmult_le_compat_r; assumption.
      * intros Hf. replace (v * eint * qprod (map (fun m => 1 - pd m) fv)) with (v * qprod (map (fun m => 1 - pd m) fv) * eint) by ring.
        rewrite (V2 Hf). ring.
Qed.
