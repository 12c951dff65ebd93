(** A function meeting [kbest_contract], and the statements of C17-C18. *)
From Coq Require Import ZArith List Bool Arith QArith Qcanon Lia Permutation Sorted.
From Verif Require Import Base ListUtil QcLra PermanentSpec PermanentProofs EnumLemmas AssignSpec PartitionModel PartitionSpec
  PartitionProofs RfsModel RfsSpec RfsProofs RfsProofs2 RfsProofs3 RfsProofs4.
Import ListNotations.
Local Open Scope Qc_scope.

Section Sort.
Variable w : list nat -> Qc.
(** Insertion sort, largest weight first. *)
Fixpoint insw (a : list nat) (l : list (list nat)) : list (list nat) :=
  match l with [] => [a] | b :: r => if Qcleb (w b) (w a) then a :: l else b :: insw a r end.
Definition sortw (l : list (list nat)) : list (list nat) := fold_right insw [] l.

Lemma insw_perm : forall a l, Permutation (a :: l) (insw a l).
Proof.
  intros a. induction l as [|b l IH]; cbn [insw]; [apply Permutation_refl|].
  destruct (Qcleb (w b) (w a)); [apply Permutation_refl|].
  eapply perm_trans; [apply perm_swap|]. constructor. exact IH.
Qed.
Lemma insw_sorted : forall a l, StronglySorted (fun a b => w b <= w a) l -> StronglySorted (fun a b => w b <= w a) (insw a l).
Proof.
  intros a. induction l as [|b l IH]; intros H; cbn [insw]; [repeat constructor|].
  inversion H as [|? ? H1 H2]; subst. destruct (Qcleb (w b) (w a)) eqn:E.
  - apply Qcleb_true in E. constructor; [exact H|]. constructor; [exact E|].
    rewrite Forall_forall in *. intros x Hx. eapply Qcle_trans; [apply H2; exact Hx|exact E].
  - constructor; [apply IH; exact H1|]. rewrite Forall_forall in *. intros x Hx.
    apply (Permutation_in _ (Permutation_sym (insw_perm a l))) in Hx. destruct Hx as [<-|Hx]; [|auto].
    apply Qclt_le_weak. apply Qcnot_le_lt. intros K. apply Qcleb_true in K. congruence.
Qed.
Lemma sortw_perm : forall l, Permutation l (sortw l).
Proof.
  induction l as [|a l IH]; cbn; [constructor|]. eapply perm_trans; [constructor; exact IH|apply insw_perm].
Qed.
Lemma sortw_sorted : forall l, StronglySorted (fun a b => w b <= w a) (sortw l).
Proof. induction l as [|a l IH]; cbn; [constructor|]. apply insw_sorted. exact IH. Qed.
End Sort.

(** Keeps the first of the assignments that agree on the first nR rows. *)
Fixpoint dedup (nR : nat) (seen l : list (list nat)) : list (list nat) :=
  match l with
  | [] => []
  | a :: r => if in_dec (list_eq_dec Nat.eq_dec) (firstn nR a) seen then dedup nR seen r
              else a :: dedup nR (firstn nR a :: seen) r
  end.

Lemma dedup_in : forall nR l seen a, In a (dedup nR seen l) -> In a l /\ ~ In (firstn nR a) seen.
Proof.
  intros nR. induction l as [|b l IH]; intros seen a H; cbn [dedup] in H; [destruct H|].
  destruct (in_dec (list_eq_dec Nat.eq_dec) (firstn nR b) seen) as [K|K].
  - apply IH in H. split; [right; tauto|tauto].
  - destruct H as [<-|H]; [split; [left; reflexivity|exact K]|].
    apply IH in H. split; [right; tauto|]. intros Q. apply (proj2 H). right. exact Q.
Qed.
Lemma dedup_nodup : forall nR l seen, NoDup (map (firstn nR) (dedup nR seen l)).
Proof.
  intros nR. induction l as [|b l IH]; intros seen; cbn [dedup]; [constructor|].
  destruct (in_dec (list_eq_dec Nat.eq_dec) (firstn nR b) seen); [apply IH|]. cbn [map]. constructor; [|apply IH].
  intros K. apply in_map_iff in K. destruct K as (a & E & Ha). apply dedup_in in Ha. apply (proj2 Ha). left. congruence.
Qed.
Lemma dedup_sorted : forall nR (R : list nat -> list nat -> Prop) l seen, StronglySorted R l -> StronglySorted R (dedup nR seen l).
Proof.
  intros nR R. induction l as [|b l IH]; intros seen H; cbn [dedup]; [constructor|]. inversion H; subst.
  destruct (in_dec (list_eq_dec Nat.eq_dec) (firstn nR b) seen); [auto|]. constructor; [auto|].
  rewrite Forall_forall in *. intros a Ha. apply dedup_in in Ha. apply H3. tauto.
Qed.
Lemma dedup_rep : forall nR (w : list nat -> Qc) l seen, StronglySorted (fun a b => w b <= w a) l ->
  forall b, In b l -> In (firstn nR b) seen \/
  exists a, In a (dedup nR seen l) /\ firstn nR a = firstn nR b /\ w b <= w a.
Proof.
  intros nR w. induction l as [|c l IH]; intros seen H b Hb; [destruct Hb|]. inversion H as [|? ? H1 H2]; subst.
  rewrite Forall_forall in H2. cbn [dedup]. destruct (in_dec (list_eq_dec Nat.eq_dec) (firstn nR c) seen) as [K|K].
  - destruct Hb as [<-|Hb]; [auto|]. apply IH; auto.
  - destruct Hb as [<-|Hb].
    + right. exists c. split; [left; reflexivity|]. split; [reflexivity|apply Qcle_refl].
    + destruct (IH (firstn nR c :: seen) H1 b Hb) as [[Q|Q]|(a & Ha & E & Hw)].
      * right. exists c. split; [left; reflexivity|]. split; [exact Q|auto].
      * auto.
      * right. exists a. split; [right; exact Ha|auto].
Qed.

Definition kbest_ref (nR nC : nat) (E : nat -> nat -> Qc) : list (list nat) :=
  dedup nR [] (sortw (product_along E 0) (enum (nR + nC) (seq 0 (nR + nC)))).

Theorem kbest_ref_ok : kbest_contract kbest_ref.
Proof.
  intros nR nC E HE. unfold kbest_ref. set (l := enum (nR + nC) (seq 0 (nR + nC))).
  assert (HI : forall a, In a (sortw (product_along E 0) l) <-> assignment (nR + nC) a).
  { intros a. unfold assignment. rewrite <- (enum_in (nR + nC) (seq 0 (nR + nC)) a (seq_NoDup _ _) (seq_length _ _)).
    split; apply Permutation_in; [apply Permutation_sym|]; apply sortw_perm. }
  split; [intros a Ha; apply HI; apply dedup_in in Ha; tauto|]. split; [apply dedup_nodup|].
  split; [apply dedup_sorted, sortw_sorted|].
  intros _ b Hb _. destruct (dedup_rep nR (product_along E 0) _ [] (sortw_sorted _ l) b (proj2 (HI b) Hb)) as [[]|H]. exact H.
Qed.

Theorem factorises : forall L pd cl nM nZ cc ncc, (forall r c, 0 <= L r c) -> (nM + nZ <> 0)%nat ->
  components_of (support L) 0%Z nM nZ cc ncc ->
  exists g np, partition cc ncc (cg_new (support L) nM nZ 0%Z) = Val (g, np) /\
  (forall p ext, (p < np)%nat -> exists g' got v, getPartition g p ext = Val (g', got) /\
     block_sum L pd cl (grows got) (gcols got) v) /\
  forall v, (forall p, (p < np)%nat -> exists ext g' got, getPartition g p ext = Val (g', got) /\
     block_sum L pd cl (grows got) (gcols got) (v p)) ->
  association_sum nM nZ L pd cl (qprod (map v (seq 0 np))).
Proof.
  intros L pd cl nM nZ cc ncc HL Hsz Hcc.
  destruct (partition_ok (support L) 0%Z nM nZ cc ncc Hcc Hsz) as
    (g & np & b & flag & Epart & Hnp & _ & _ & HS & HG & HR & HC & HF & _ & HI & HCo).
  assert (Np : forall p, (p < np)%nat -> NoDup (snd (b p))) by (intros p Hp; eapply part_cols; eauto).
  exists g, np. split; [exact Epart|]. split.
  - intros p ext Hp. destruct (HG p ext Hp) as (g' & a & Eg).
    eexists g', _, (asum L (fun r => 1 - pd r) cl (fst (b p)) (snd (b p))). split; [exact Eg|].
    cbn [grows gcols]. apply block_sum_iff; [auto|reflexivity].
  - intros v Hv.
    assert (HW : association_sum nM nZ L pd cl
      (qprod (map (fun p => asum L (fun r => 1 - pd r) cl (fst (b p)) (snd (b p))) (seq 0 np)))) by (eapply whole_product; eauto).
    erewrite map_ext_in; [exact HW|]. intros p Hp. apply in_seq in Hp.
    destruct (Hv p ltac:(lia)) as (ext & g' & got & Eg & Hb). destruct (HG p ext ltac:(lia)) as (g2 & a & Eg2).
    rewrite Eg2 in Eg. injection Eg as <- <-. cbn [grows gcols] in Hb.
    apply (proj1 (block_sum_iff _ _ _ _ _ _ (Np p ltac:(lia)))) in Hb. exact Hb.
Qed.

Theorem sum_unique : forall nM nZ L pd cl, exists v, association_sum nM nZ L pd cl v /\
  forall v', association_sum nM nZ L pd cl v' -> v' = v.
Proof.
  intros. eexists. split; [apply association_sum_iff; reflexivity|]. intros v' H. apply association_sum_iff in H. exact H.
Qed.

Theorem rfs_seen : forall L pd cl lim kbest, (forall r c, 0 <= L r c) -> (forall r, 0 <= pd r <= 1) -> (forall c, 0 <= cl c) ->
  kbest_contract kbest -> forall cc ncc integral nM nZ, 0 < integral -> (nM + nZ <> 0)%nat ->
  components_of (support L) 0%Z nM nZ cc ncc -> unseen nM nZ L = [] ->
  (forall il jl, component L nM nZ il jl -> (length il + length jl <= lim)%nat \/ few 200 L pd cl il jl) ->
  exists l s, rfs_likelihood L pd cl lim kbest cc ncc integral nM nZ = Val l /\ association_sum nM nZ L pd cl s /\
  l * integral = s.
Proof.
  intros L pd cl lim kbest HL Hpd Hcl Hk cc ncc integral nM nZ Hi Hs Hc Hu Hf.
  destruct (rfs_value L pd cl lim kbest HL Hpd Hcl Hk cc ncc integral nM nZ Hi Hs Hc) as (l & s & E & HA & _ & _ & HE).
  exists l, s. split; [exact E|]. split; [exact HA|]. specialize (HE Hf). rewrite Hu in HE. cbn [map] in HE.
  rewrite !qprod_nil, !Qcmult_1_r in HE. exact HE.
Qed.

