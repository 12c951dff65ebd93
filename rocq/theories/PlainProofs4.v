(** From the scan of the code to the table of the specification. *)
From Coq Require Import ZArith List Bool Arith QArith Qcanon Lia Permutation Relations.
From Verif Require Import Base ListUtil QcLra PermanentSpec PermanentProofs LexSpec PartitionModel PartitionSpec
  RfsModel RfsSpec RfsProofs RfsProofs2 RfsProofs3 RfsProofs4 RfsProofs5 PlainModel PlainSpec PlainProofs PlainProofs2 PlainProofs3.
Import ListNotations.
Local Open Scope Qc_scope.

(** ** Tables that agree *)
Section Ext.
Variables L1 L2 : nat -> nat -> Qc.
Variables p1 p2 c1 c2 : nat -> Qc.
Hypothesis EL : forall m n, L1 m n = L2 m n.
Hypothesis Ep : forall m, p1 m = p2 m.
Hypothesis Ec : forall n, c1 n = c2 n.

Lemma connected_ext : forall nM nZ u v, connected (support L1) 0%Z nM nZ u v -> connected (support L2) 0%Z nM nZ u v.
Proof.
  intros nM nZ u v H. induction H as [u v H|u|u v H IH|u v w H IH H' IH'].
  - apply rst_step. destruct H as [i j Hi Hj H]. constructor; auto. unfold support in *. rewrite EL in H. exact H.
  - apply rst_refl.
  - apply rst_sym. exact IH.
  - eapply rst_trans; eauto.
Qed.
Lemma weight_ext : forall nM nZ h, hyp_weight nM nZ L1 p1 c1 h = hyp_weight nM nZ L2 p2 c2 h.
Proof.
  intros nM nZ h. unfold hyp_weight. f_equal; f_equal; apply map_ext; intros x; rewrite ?EL, ?Ep, ?Ec; reflexivity.
Qed.
Lemma sum_ext : forall nM nZ s, association_sum nM nZ L1 p1 c1 s -> association_sum nM nZ L2 p2 c2 s.
Proof.
  intros nM nZ s (hs & N & A & ->). exists hs. split; [exact N|]. split; [exact A|]. apply qsum_ext. intros h _. apply weight_ext.
Qed.
Lemma swapped_ext : forall nZ m, swapped nZ L1 p1 m = swapped nZ L2 p2 m.
Proof.
  intros nZ m. unfold swapped. rewrite Ep.
  replace (forallb (fun z => Qcleb (L1 m z) 0) (seq 0 nZ)) with (forallb (fun z => Qcleb (L2 m z) 0) (seq 0 nZ)); [reflexivity|].
  generalize (seq 0 nZ). induction l as [|x l IH]; [reflexivity|]. cbn. rewrite EL, IH. reflexivity.
Qed.
Lemma mean_ext : forall nM nZ f g v, (forall h, f h = g h) -> mean nM nZ L1 p1 c1 f v -> mean nM nZ L2 p2 c2 g v.
Proof.
  intros nM nZ f g v E (hs & N & A & P & Q). exists hs. split; [exact N|]. split; [exact A|].
  rewrite (qsum_ext (hyp_weight nM nZ L2 p2 c2) (hyp_weight nM nZ L1 p1 c1) hs) by (intros; symmetry; apply weight_ext).
  split; [exact P|]. rewrite Q. apply qsum_ext. intros h _. rewrite weight_ext, E. reflexivity.
Qed.
End Ext.

Section Ext2.
Variables L1 L2 : nat -> nat -> Qc.
Variables p1 p2 c1 c2 : nat -> Qc.
Hypothesis EL : forall m n, L1 m n = L2 m n.
Hypothesis Ep : forall m, p1 m = p2 m.
Hypothesis Ec : forall n, c1 n = c2 n.
Lemma connected_iff : forall nM nZ u v, connected (support L1) 0%Z nM nZ u v <-> connected (support L2) 0%Z nM nZ u v.
Proof. intros. split; apply connected_ext; [exact EL|intros; symmetry; apply EL]. Qed.
Lemma components_ext : forall nM nZ cc ncc, components_of (support L1) 0%Z nM nZ cc ncc -> components_of (support L2) 0%Z nM nZ cc ncc.
Proof.
  intros nM nZ cc ncc (A & B & C). split; [exact A|]. split; [exact B|]. intros u v Hu Hv. rewrite (C u v Hu Hv). apply connected_iff.
Qed.
Lemma component_ext : forall nM nZ il jl, component L1 nM nZ il jl -> component L2 nM nZ il jl.
Proof.
  intros nM nZ il jl (A & B & (i & j & Hi & Hj & C) & R & D). split; [exact A|]. split; [exact B|]. split; [|split; [exact R|]].
  - exists i, j. rewrite <- EL. auto.
  - intros u v Hu Hv. rewrite (D u v Hu Hv). apply connected_iff.
Qed.
Lemma few_ext : forall k il jl, few k L1 p1 c1 il jl -> few k L2 p2 c2 il jl.
Proof.
  intros k il jl H hs N A. apply H; [exact N|]. intros h Hh. destruct (A h Hh) as [A1 A2]. split; [exact A1|].
  rewrite (weight_ext _ (fun a b => L2 (nth a il 0%nat) (nth b jl 0%nat)) _ (fun a => p2 (nth a il 0%nat)) _ (fun b => c2 (nth b jl 0%nat))); auto.
Qed.
End Ext2.
Lemma tractable_ext : forall L1 L2 p1 p2 c1 c2 nM nZ, (forall m n, L1 m n = L2 m n) -> (forall m, p1 m = p2 m) -> (forall n, c1 n = c2 n) ->
  tractable L1 p1 c1 nM nZ -> tractable L2 p2 c2 nM nZ.
Proof.
  intros L1 L2 p1 p2 c1 c2 nM nZ EL Ep Ec H il jl C. destruct (H il jl) as [K|K].
  - apply (component_ext L2 L1); [intros; symmetry; apply EL|exact C].
  - left. exact K.
  - right. apply (few_ext L1 L2 p1 p2 c1 c2); assumption.
Qed.

(** ** The scan *)
Definition nine : nat -> Qc := fun _ => Q2Qc (9 # 10).

Lemma fov_all : forall pdm M, p_fov pdm M = seq 0 M.
Proof.
  intros pdm M. unfold p_fov. generalize (seq 0 M). induction l as [|x l IH]; [reflexivity|]. cbn [filter].
  replace (Qcltb 0 (p_pd pdm x)) with true by (symmetry; vm_compute; reflexivity). rewrite IH. reflexivity.
Qed.
Lemma idx_id : forall M m, nth m (seq 0 M) m = m.
Proof.
  intros M m. destruct (Nat.ltb_spec m M) as [H|H]; [apply seq_nth; exact H|]. apply nth_overflow. rewrite seq_length. exact H.
Qed.

Lemma entry_table : forall gauss da thr M pdm m n,
  p_entry gauss da thr (p_pd pdm (nth m (seq 0 M) m)) m (nth m (seq 0 M) m) n = table gauss nine da thr m n.
Proof.
  intros gauss da thr M pdm m n. rewrite idx_id. unfold p_entry, p_open, table, gate, p_pd, nine. cbv zeta.
  destruct (Z.eqb_spec (da n) (-1)) as [E|E].
  - rewrite E. replace (-1 =? Z.of_nat m)%Z with false by (symmetry; apply Z.eqb_neq; lia). cbn [negb andb Z.leb Z.compare].
    destruct (Qcltb (gauss m n * Q2Qc (9 # 10)) thr); reflexivity.
  - destruct (Z.eqb_spec (da n) (Z.of_nat m)) as [E'|E']; cbn [negb andb]; [|reflexivity].
    replace (0 <=? da n)%Z with true by (symmetry; apply Z.leb_le; lia). destruct (Qcltb (gauss m n) thr); reflexivity.
Qed.
Lemma stored_table : forall gauss jac da thr M pdm m n,
  0 < p_entry gauss da thr (p_pd pdm (nth m (seq 0 M) m)) m (nth m (seq 0 M) m) n ->
  p_stored gauss jac da thr (p_pd pdm (nth m (seq 0 M) m)) m (nth m (seq 0 M) m) n = Some (table gauss nine da thr m n * jac m n).
Proof.
  intros gauss jac da thr M pdm m n H. rewrite <- (entry_table gauss da thr M pdm m n). rewrite !idx_id in *. unfold p_entry, p_stored in *.
  destruct (p_open gauss da thr (p_pd pdm m) m m n); [reflexivity|]. exfalso. revert H. apply Qcle_not_lt, Qcle_refl.
Qed.

Lemma table_nonneg : forall gauss pd da thr m n, (forall m n, 0 <= gauss m n) -> (forall m, 0 <= pd m) -> 0 <= table gauss pd da thr m n.
Proof.
  intros gauss pd da thr m n H P. assert (G : forall x, 0 <= x -> 0 <= gate thr x).
  { intros x Hx. unfold gate. destruct (Qcltb x thr); [apply Qcle_refl|exact Hx]. }
  unfold table. destruct (da n =? -1)%Z; [apply G, qmul_nonneg; auto|]. destruct (da n =? Z.of_nat m)%Z; [apply G; auto|apply Qcle_refl].
Qed.
Lemma clutter_nonneg : forall clu da n, (forall n, 0 <= clu n) -> 0 <= origin_clutter clu da n.
Proof. intros clu da n H. unfold origin_clutter. destruct (da n =? -1)%Z; [apply H|]. destruct (da n =? -2)%Z; discriminate. Qed.

Theorem plain_run : forall gauss jl jp pdm clu da thr kbest cc ncc integral M nZ,
  (forall m n, 0 <= gauss m n) -> (forall n, 0 <= clu n) -> kbest_contract kbest -> 0 < integral -> (0 < M)%nat ->
  let L := table gauss nine da thr in let cl := origin_clutter clu da in
  components_of (support L) 0%Z M nZ cc ncc ->
  exists l lg pg s, plain_scan gauss jl jp pdm clu da thr kbest cc ncc integral M nZ = Val (l, lg, pg) /\
  association_sum M nZ L (swapped nZ L nine) cl s /\ 0 <= l /\ l * integral <= s /\
  (tractable L nine cl M nZ -> l * integral = s) /\
  (tractable L nine cl M nZ -> (exists t, association_sum M nZ L nine cl t /\ 0 < t) ->
   (forall m, (m < M)%nat -> mean M nZ L nine cl (gain nZ (fun m n => L m n * jl m n) m) (lg m)) /\
   mean M nZ L nine cl (gains M nZ (fun m n => L m n * jp m n)) pg).
Proof.
  intros gauss jl jp pdm clu da thr kbest cc ncc integral M nZ Hg Hc Hk Hi HM L cl Hcc.
  unfold plain_scan. rewrite fov_all, seq_length. replace (M =? 0) with false by (symmetry; apply Nat.eqb_neq; lia). cbv zeta.
  set (L1 := fun m n => p_entry gauss da thr (p_pd pdm (nth m (seq 0 M) m)) m (nth m (seq 0 M) m) n).
  set (pd1 := fun m => p_pd pdm (nth m (seq 0 M) m)).
  assert (EL : forall m n, L1 m n = L m n) by (intros; apply entry_table).
  assert (EL' : forall m n, L m n = L1 m n) by (intros; symmetry; apply EL).
  assert (Ep : forall m, pd1 m = nine m) by reflexivity. assert (Ep' : forall m, nine m = pd1 m) by reflexivity.
  assert (Ec : forall n, p_clutter clu da n = cl n) by reflexivity.
  assert (Hnine : forall r, 0 <= pd1 r <= 1) by (intros r; split; discriminate).
  assert (HL1 : forall r c, 0 <= L1 r c). { intros r c. rewrite EL. apply table_nonneg; [exact Hg|discriminate]. }
  assert (Hcl : forall c, 0 <= p_clutter clu da c) by (intros c; apply (clutter_nonneg clu da c Hc)).
  assert (Hcc1 := components_ext L L1 EL' M nZ cc ncc Hcc).
  destruct (scan_run L1 pd1 (p_clutter clu da) (fun m n => p_stored gauss jl da thr (p_pd pdm (nth m (seq 0 M) m)) m (nth m (seq 0 M) m) n)
     (fun m n => p_stored gauss jp da thr (p_pd pdm (nth m (seq 0 M) m)) m (nth m (seq 0 M) m) n) (fun m n => L m n * jl m n) (fun m n => L m n * jp m n) kbest HL1 Hnine Hcl) with (cc := cc) (ncc := ncc) (nM := M) (nZ := nZ)
     as (g & np & l & lg & pg & E1 & E2 & E3 & E4); [|exact Hk|lia|exact Hcc1|].
  { intros m n H. split; apply stored_table; exact H. }
  destruct (rfs_exact L1 pd1 (p_clutter clu da) 8 kbest HL1 Hnine Hcl Hk cc ncc integral M nZ Hi ltac:(lia) Hcc1) as (l' & s & F1 & F2 & F3 & F4 & F5).
  unfold rfs_likelihood in F1. change (sig L1) with (support L1) in *. rewrite E1 in *. cbn [obind fst snd] in *.
  rewrite E3 in F1. rewrite E2. cbn [obind] in *. destruct (Qc_eq_dec integral 0); [discriminate|].
  assert (El : l' = l / integral) by congruence. subst l'.
  exists (l / integral), lg, pg, s. split; [reflexivity|]. split; [|split; [exact F3|split; [exact F4|split]]].
  - apply (sum_ext L1 L (swapped nZ L1 pd1) (swapped nZ L nine) (p_clutter clu da) cl); auto. intros m. apply swapped_ext; auto.
  - intros T. apply F5. apply (tractable_ext L L1 nine pd1 cl (p_clutter clu da)); auto.
  - intros T (t & T1 & T2). destruct E4 as (M1 & M2).
    + apply (tractable_ext L L1 nine pd1 cl (p_clutter clu da)); auto.
    + exists t. split; [|exact T2]. apply (sum_ext L L1 nine pd1 cl (p_clutter clu da)); auto.
    + split.
      * intros m Hm. apply (mean_ext L1 L pd1 nine (p_clutter clu da) cl EL Ep Ec M nZ (gain nZ (fun m n => L m n * jl m n) m) _ (lg m)); auto.
      * apply (mean_ext L1 L pd1 nine (p_clutter clu da) cl EL Ep Ec M nZ (gains M nZ (fun m n => L m n * jp m n)) _ pg); auto.
Qed.

(** With the detection probability that the code assumes, and a possible measurement for every landmark. *)
Lemma swapped_seen : forall M nZ L pd m, unseen M nZ L = [] -> (m < M)%nat -> swapped nZ L pd m = pd m.
Proof.
  intros M nZ L pd m U Hm. unfold swapped. destruct (forallb (fun z => Qcleb (L m z) 0) (seq 0 nZ)) eqn:E; [|reflexivity].
  exfalso. assert (I : In m (unseen M nZ L)) by (apply filter_In; split; [apply in_seq; lia|exact E]). rewrite U in I. destruct I.
Qed.
Theorem plain_seen : forall gauss jl jp pdm clu da thr kbest cc ncc integral M nZ,
  (forall m n, 0 <= gauss m n) -> (forall n, 0 <= clu n) -> kbest_contract kbest -> 0 < integral -> (0 < M)%nat ->
  (forall m, pdm m = Q2Qc (9 # 10)) ->
  let L := table gauss pdm da thr in let cl := origin_clutter clu da in
  components_of (support L) 0%Z M nZ cc ncc -> unseen M nZ L = [] -> tractable L pdm cl M nZ ->
  exists l lg pg, plain_scan gauss jl jp pdm clu da thr kbest cc ncc integral M nZ = Val (l, lg, pg) /\
  association_sum M nZ L pdm cl (l * integral).
Proof.
  intros gauss jl jp pdm clu da thr kbest cc ncc integral M nZ Hg Hc Hk Hi HM Hpd L cl Hcc U T.
  assert (EL : forall m n, L m n = table gauss nine da thr m n).
  { intros m n. unfold L, table. rewrite Hpd. reflexivity. }
  destruct (plain_run gauss jl jp pdm clu da thr kbest cc ncc integral M nZ Hg Hc Hk Hi HM) as (l & lg & pg & s & E & S & _ & _ & V & _).
  { apply (components_ext L); assumption. }
  exists l, lg, pg. split; [exact E|]. rewrite V.
  - apply association_sum_iff in S. apply association_sum_iff. rewrite S. apply asum_ext.
    + intros; symmetry; apply EL.
    + intros m Hm. apply in_seq in Hm. f_equal. f_equal. rewrite Hpd.
      rewrite <- (swapped_ext L (table gauss nine da thr) pdm nine EL); [|intros; rewrite Hpd; reflexivity].
      rewrite (swapped_seen M nZ L pdm m U) by lia. apply Hpd.
    + reflexivity.
  - apply (tractable_ext L _ pdm nine cl _ M nZ EL); [intros; rewrite Hpd; reflexivity|reflexivity|exact T].
Qed.

(** Few landmarks and measurements. *)
Lemma small_tractable : forall L pd cl M nZ, (M + nZ <= 8)%nat -> tractable L pd cl M nZ.
Proof.
  intros L pd cl M nZ H il jl (N1 & N2 & _ & K & _). left.
  assert (A : (length il <= M)%nat).
  { rewrite <- (seq_length M 0). apply NoDup_incl_length; [exact N1|]. intros x Hx. apply in_seq. specialize (K (Row x) Hx). cbn in K. lia. }
  assert (B : (length jl <= nZ)%nat).
  { rewrite <- (seq_length nZ 0). apply NoDup_incl_length; [exact N2|]. intros x Hx. apply in_seq. specialize (K (Col x) Hx). cbn in K. lia. }
  lia.
Qed.
