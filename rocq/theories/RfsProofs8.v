(** A likelihood of which the best 200 hypotheses are only a part. *)
From Coq Require Import ZArith List Bool Arith QArith Qcanon Lia Permutation Sorted Relations.
From Verif Require Import Base ListUtil QcLra PermanentSpec AssignSpec PartitionModel PartitionSpec PartitionRef LexSpec
  RfsModel RfsSpec RfsProofs RfsProofs2 RfsProofs3 RfsProofs4 RfsProofs5 RfsProofs6 RfsProofs7 RfsKbest.
Import ListNotations.
Local Open Scope Qc_scope.
(** Five landmarks and four measurements that all fit one another equally well. *)
Definition cut_half : Qc := Q2Qc (1 # 2).
Definition cutL (_ _ : nat) : Qc := cut_half.
Definition cutpd (_ : nat) : Qc := cut_half.
Definition cutcl (_ : nat) : Qc := 1.

Lemma cut_sum : association_sum 5 4 cutL (swapped 4 cutL cutpd) cutcl (Q2Qc (501 # 32)).
Proof. apply association_sum_iff. apply Qc_is_canon. vm_compute. reflexivity. Qed.
Lemma cut_connected : forall u v, in_range 5 4 u -> in_range 5 4 v -> connected (support cutL) 0 5 4 u v.
Proof.
  assert (S1 : forall i j, (0 < support cutL i j)%Z) by (intros; vm_compute; reflexivity).
  assert (K : forall i j, (i < 5)%nat -> (j < 4)%nat -> connected (support cutL) 0 5 4 (Row i) (Col j)).
  { intros i j Hi Hj. apply rst_step. constructor; auto. }
  intros [i|j] [i'|j'] Hu Hv; cbn in Hu, Hv.
  - eapply rst_trans; [apply (K i 0%nat); lia|apply rst_sym, K; lia].
  - apply K; assumption.
  - apply rst_sym, K; assumption.
  - eapply rst_trans; [apply rst_sym, (K 0%nat j); lia|apply K; lia].
Qed.
Lemma cut_components : components_of (support cutL) 0 5 4 (fun _ => 0%nat) 1.
Proof.
  split; [intros; lia|]. split.
  - intros c Hc. exists (Row 0). cbn. lia.
  - intros u v Hu Hv. split; [intros _; apply cut_connected; assumption|reflexivity].
Qed.
Lemma cut_value : forall kbest, exists il jl, length il = 5%nat /\ length jl = 4%nat /\
  rfs_likelihood cutL cutpd cutcl 8 kbest (fun _ => 0%nat) 1 1 5 4 =
  Val (1 * murty_sum 200 (extended cutL cutpd cutcl il jl) (kbest (length il) (length jl) (extended cutL cutpd cutcl il jl)) / 1).
Proof.
  intros kbest. exists [0;1;2;3;4]%nat, [0;1;2;3]%nat. split; [reflexivity|]. split; [reflexivity|].
  lazy -[murty_sum extended Qcmult Qcdiv cutL cutpd cutcl]. reflexivity.
Qed.
Lemma cut_few : forall il jl, length il = 5%nat -> length jl = 4%nat -> few 501 cutL cutpd cutcl il jl.
Proof.
  intros il jl Ei Ej hs Nh Hh. rewrite Ei, Ej in Hh.
  assert (S1 : association_sum 5 4 (fun _ _ => 1) (fun _ => 0) (fun _ => 1) (QcN 501)).
  { apply association_sum_iff. apply Qc_is_canon. vm_compute. reflexivity. }
  destruct S1 as (all & Na & Ia & Sa).
  assert (W : forall l : list (list nat), qsum (map (hyp_weight 5 4 (fun _ _ => 1) (fun _ => 0) (fun _ => 1)) l) = QcN (length l)).
  { assert (O : forall (A : Type) (f : A -> Qc) l, (forall x, f x = 1) -> qprod (map f l) = 1).
    { intros A f l H. induction l as [|x l IH]; [reflexivity|]. cbn [map]. rewrite qprod_cons, IH, H. ring. }
    induction l as [|x l IH]; [reflexivity|]. cbn [map length]. rewrite qsum_cons, IH, QcN_S. unfold hyp_weight.
    rewrite !O; [ring|reflexivity|]. intros m. destruct (nth m x 0 <? 4)%nat; ring. }
  rewrite W in Sa. assert (E : length all = 501%nat).
  { apply Nat.le_antisymm; apply QcN_le; rewrite <- Sa; apply Qcle_refl. }
  rewrite <- E. apply NoDup_incl_length; [exact Nh|]. intros x Hx. apply Ia, Hh, Hx.
Qed.

(** No hypothesis has more than this weight. *)
Lemma cut_product : forall il jl a, length il = 5%nat -> length jl = 4%nat -> assignment 9 a ->
  product_along (extended cutL cutpd cutcl il jl) 0 a <= Q2Qc (1 # 32).
Proof.
  intros il jl a Ei Ej Ha. assert (La := Permutation_length Ha). rewrite ?seq_length in La.
  assert (R1 : forall r c, (r < 5)%nat -> 0 <= extended cutL cutpd cutcl il jl r c <= cut_half).
  { intros r c Hr. unfold extended. rewrite Ei, Ej. destruct (Nat.ltb_spec r 5); [|lia].
    destruct (c <? 4)%nat; [split; vm_compute; discriminate|]. destruct (r =? c - 4)%nat; split; vm_compute; discriminate. }
  assert (R2 : forall r c, 0 <= extended cutL cutpd cutcl il jl r c <= 1).
  { intros r c. destruct (Nat.lt_ge_cases r 5) as [H|H].
    - specialize (R1 r c H). destruct R1 as [A1 A2]. split; [exact A1|]. eapply Qcle_trans; [exact A2|]. vm_compute. discriminate.
    - unfold extended. rewrite Ei, Ej. destruct (Nat.ltb_spec r 5); [lia|]. destruct (c <? 4)%nat; [destruct (r - 5 =? c)%nat|]; split; vm_compute; discriminate. }
  assert (R3 : forall l i, 0 <= product_along (extended cutL cutpd cutcl il jl) i l <= 1).
  { induction l as [|x l IH]; intros i; cbn [product_along]; [split; discriminate|]. destruct (IH (S i)) as [A1 A2]. destruct (R2 i x) as [B1 B2].
    split; [apply qmul_nonneg; assumption|]. eapply Qcle_trans; [apply (Qcmult_le_compat_r _ 1); [exact B2|exact A1]|]. rewrite Qcmult_1_l. exact A2. }
  assert (M : forall x y p q, 0 <= x -> x <= p -> 0 <= y -> y <= q -> x * y <= p * q).
  { intros x y p q Hx Hp Hy Hq. apply Qcle_trans with (p * y); [apply Qcmult_le_compat_r; assumption|].
    rewrite !(Qcmult_comm p). apply Qcmult_le_compat_r; [exact Hq|]. exact (Qcle_trans _ _ _ Hx Hp). }
  destruct a as [|a0 [|a1 [|a2 [|a3 [|a4 r]]]]]; cbn in La; try lia. cbn [product_along].
  replace (Q2Qc (1 # 32)) with (cut_half * (cut_half * (cut_half * (cut_half * (cut_half * 1))))) by (apply Qc_is_canon; vm_compute; reflexivity).
  destruct (R3 r 5%nat) as [P1 P2].
  assert (Z1 : forall i x y, (i < 5)%nat -> 0 <= y -> 0 <= extended cutL cutpd cutcl il jl i x * y) by (intros i x y Hi Hy; apply qmul_nonneg; [apply R1; exact Hi|exact Hy]).
  assert (Q4 := Z1 4%nat a4 _ ltac:(lia) P1). assert (Q3 := Z1 3%nat a3 _ ltac:(lia) Q4). assert (Q2 := Z1 2%nat a2 _ ltac:(lia) Q3).
  assert (Q1 := Z1 1%nat a1 _ ltac:(lia) Q2).
  apply M; [apply R1; lia|apply R1; lia|exact Q1|]. apply M; [apply R1; lia|apply R1; lia|exact Q2|].
  apply M; [apply R1; lia|apply R1; lia|exact Q3|]. apply M; [apply R1; lia|apply R1; lia|exact Q4|].
  apply M; [apply R1; lia|apply R1; lia|exact P1|exact P2].
Qed.

Lemma same_val : forall {A : Type} (a b : A), Val a = Val b -> a = b.
Proof. intros A a b H. injection H. auto. Qed.
Lemma cut_exactly : forall kbest, kbest_contract kbest ->
  rfs_likelihood cutL cutpd cutcl 8 kbest (fun _ => 0%nat) 1 1 5 4 = Val (Q2Qc (200 # 32)).
Proof.
  intros kbest Hk.
  assert (HL : forall r c, 0 <= cutL r c) by (intros; vm_compute; discriminate).
  assert (Hp : forall r, 0 <= cutpd r <= 1) by (intros; split; vm_compute; discriminate).
  assert (Hc : forall r, 0 <= cutcl r) by (intros; vm_compute; discriminate).
  destruct (rfs_loss cutL cutpd cutcl 8 kbest HL Hp Hc Hk (fun _ => 0%nat) 1%nat 1 5 4 ltac:(reflexivity) ltac:(lia) cut_components) as (l & s & El & Hs & Hl).
  apply association_sum_iff in Hs. rewrite <- (proj1 (association_sum_iff _ _ _ _ _ _) cut_sum) in Hs. subst s.
  specialize (Hl 501%nat ltac:(lia)).
  assert (Lo : Q2Qc (200 # 32) <= l).
  { assert (P := Hl ltac:(intros il jl (Ni & Nj & _ & Rg & _) Hlt;
      assert (length il <= 5)%nat by (rewrite <- (seq_length 5 0); apply NoDup_incl_length; [exact Ni|]; intros x Hx; apply in_seq; specialize (Rg (Row x) Hx); cbn in Rg; lia);
      assert (length jl <= 4)%nat by (rewrite <- (seq_length 4 0); apply NoDup_incl_length; [exact Nj|]; intros x Hx; apply in_seq; specialize (Rg (Col x) Hx); cbn in Rg; lia);
      apply cut_few; lia)).
    change ((5 + 4) / 9)%nat with 1%nat in P. cbn [Qcpower] in P. rewrite !Qcmult_1_r in P.
    replace (Q2Qc (501 # 32) * QcN 200) with (Q2Qc (200 # 32) * QcN 501) in P by (apply Qc_is_canon; vm_compute; reflexivity).
    apply (Qcmul_le _ _ (QcN 501)); [reflexivity|exact P]. }
  assert (Hi : l <= Q2Qc (200 # 32)).
  { destruct (cut_value kbest) as (il & jl & Ei & Ej & E). rewrite El in E. apply same_val in E. clear Lo Hl El. revert E. rewrite Ei, Ej. intros ->. rename Ei into Ei', Ej into Ej'.
    set (E := extended cutL cutpd cutcl il jl).
    assert (En : forall r c, 0 <= E r c) by (apply E_nonneg; [exact HL|apply Hp|exact Hc]).
    assert (K1 := proj1 (Hk (length il) (length jl) E En)). rewrite Ei', Ej' in K1. change (5 + 4)%nat with 9%nat in K1.
    assert (G := murty_gap E (Q2Qc (1 # 32)) En ltac:(discriminate) (kbest 5%nat 4%nat E)
      ltac:(apply Forall_forall; intros a Ha; apply cut_product; auto) 0%nat 200%nat ltac:(lia)).
    change (murty_sum 0 E (kbest 5%nat 4%nat E)) with 0 in G. change (200 - 0)%nat with 200%nat in G.
    replace (0 + QcN 200 * Q2Qc (1 # 32)) with (Q2Qc (200 # 32)) in G by (apply Qc_is_canon; vm_compute; reflexivity).
    replace (1 * murty_sum 200 E (kbest 5%nat 4%nat E) / 1) with (murty_sum 200 E (kbest 5%nat 4%nat E)) by (field; discriminate). exact G. }
  rewrite El. f_equal. apply Qcle_antisym; assumption.
Qed.
