(** Sums over hypotheses weighted with the entry of one landmark are sums of hypotheses of another table. *)
From Coq Require Import ZArith List Bool Arith QArith Qcanon Lia Permutation.
From Verif Require Import Base ListUtil QcLra PermanentSpec PermanentProofs LexSpec
  RfsModel RfsSpec RfsProofs RfsProofs2 RfsProofs3 RfsProofs4 PlainModel PlainSpec PlainProofs.
Import ListNotations.
Local Open Scope Qc_scope.

Lemma qprod_one : forall (f f' : nat -> Qc) g m l, NoDup l -> In m l -> (forall x, x <> m -> f' x = f x) -> f' m = f m * g ->
  qprod (map f' l) = qprod (map f l) * g.
Proof.
  intros f f' g m l N I Hx Hm. induction l as [|x l IH]; [destruct I|]. inversion N; subst. cbn [map]. rewrite !qprod_cons.
  destruct I as [->|I].
  - rewrite Hm. replace (map f' l) with (map f l); [ring|]. apply map_ext_in. intros y Hy. symmetry. apply Hx. intros ->. contradiction.
  - rewrite IH by assumption. rewrite Hx by (intros ->; contradiction). ring.
Qed.

Definition Lat (L G : nat -> nat -> Qc) (m r c : nat) : Qc := if Nat.eqb r m then L r c * G r c else L r c.
Definition pat (pd : nat -> Qc) (m r : nat) : Qc := if Nat.eqb r m then 1 else pd r.

Lemma weight_gain : forall nM nZ L pd L1 pd1 G cl m h, (m < nM)%nat ->
  (forall r c, r <> m -> L1 r c = L r c) -> (forall c, L1 m c = L m c * G m c) -> (forall r, r <> m -> pd1 r = pd r) -> pd1 m = 1 ->
  hyp_weight nM nZ L1 pd1 cl h = hyp_weight nM nZ L pd cl h * gain nZ G m h.
Proof.
  intros nM nZ L pd L1 pd1 G cl m h Hm A1 A2 B1 B2. unfold hyp_weight.
  rewrite (qprod_one (fun m => if Nat.ltb (nth m h 0%nat) nZ then L m (nth m h 0%nat) else 1 - pd m) _ (gain nZ G m h) m); [ring|apply seq_NoDup|apply in_seq; lia| |].
  - intros x Hx. cbv beta. rewrite A1, B1 by exact Hx. reflexivity.
  - cbv beta. unfold gain. rewrite A2, B2. destruct (Nat.ltb _ _); ring.
Qed.

(** All associations, some of them without weight left out. *)
Lemma sum_most : forall nM nZ L pd cl (f : list nat -> Qc) hs hs', NoDup hs -> NoDup hs' ->
  (forall h, In h hs -> association nM nZ true h) -> (forall h, In h hs' <-> association nM nZ true h) ->
  (forall h, association nM nZ true h -> hyp_weight nM nZ L pd cl h <> 0 -> In h hs) ->
  qsum (map (fun h => hyp_weight nM nZ L pd cl h * f h) hs) = qsum (map (fun h => hyp_weight nM nZ L pd cl h * f h) hs').
Proof.
  intros nM nZ L pd cl f hs hs' N N' A A' C.
  set (P := fun h => if Qc_eq_dec (hyp_weight nM nZ L pd cl h) 0 then false else true).
  rewrite <- (qsum_filter _ P hs), <- (qsum_filter _ P hs').
  - apply qsum_perm, Permutation_map, NoDup_Permutation; [apply NoDup_filter; exact N|apply NoDup_filter; exact N'|].
    intros h. rewrite !filter_In. unfold P. rewrite A'. destruct (Qc_eq_dec (hyp_weight nM nZ L pd cl h) 0) as [E|E].
    + split; intros [_ K]; discriminate.
    + split; intros [K _]; split; auto.
  - intros h _ Hh. unfold P in Hh. destruct (Qc_eq_dec (hyp_weight nM nZ L pd cl h) 0) as [E|E]; [rewrite E; ring|discriminate].
  - intros h _ Hh. unfold P in Hh. destruct (Qc_eq_dec (hyp_weight nM nZ L pd cl h) 0) as [E|E]; [rewrite E; ring|discriminate].
Qed.

Lemma assoc_list : forall nM nZ, exists hs, NoDup hs /\ forall h, In h hs <-> association nM nZ true h.
Proof.
  intros nM nZ. exists (henum nZ nM (seq 0 nZ)). split; [apply henum_nodup; [apply seq_NoDup|apply seq_not]|].
  intros h. rewrite henum_in by apply seq_not. apply assoc_association.
Qed.

(** One landmark of the whole table. *)
Lemma whole_gain : forall nM nZ L pd cl G m hs, (m < nM)%nat -> NoDup hs -> (forall h, In h hs <-> association nM nZ true h) ->
  association_sum nM nZ (Lat L G m) (pat pd m) cl (qsum (map (fun h => hyp_weight nM nZ L pd cl h * gain nZ G m h) hs)).
Proof.
  intros nM nZ L pd cl G m hs Hm N A. exists hs. split; [exact N|]. split; [exact A|].
  apply qsum_ext. intros h _. symmetry. apply weight_gain; auto; unfold Lat, pat.
  - intros r c Hr. destruct (Nat.eqb_spec r m); [contradiction|reflexivity].
  - intros c. rewrite Nat.eqb_refl. reflexivity.
  - intros r Hr. destruct (Nat.eqb_spec r m); [contradiction|reflexivity].
  - rewrite Nat.eqb_refl. reflexivity.
Qed.

(** One landmark of a block. *)
Section Block.
Variable L : nat -> nat -> Qc.
Variables pd cl : nat -> Qc.
Variables il jl : list nat.
Notation nR := (length il).
Notation nC := (length jl).
Notation L' := (fun a b => L (nth a il 0%nat) (nth b jl 0%nat)).
Notation hw := (hyp_weight nR nC L' (fun a => pd (nth a il 0%nat)) (fun b => cl (nth b jl 0%nat))).
Hypothesis Ni : NoDup il.
Hypothesis Nj : NoDup jl.
Variable hs : list (list nat).
Hypothesis Nh : NoDup hs.
Hypothesis Ah : forall h, In h hs -> association nR nC true h.
Hypothesis Ch : forall h, association nR nC true h -> hw h <> 0 -> In h hs.

Lemma block_gain : forall G a, (a < nR)%nat ->
  qsum (map (fun h => hw h * rgain il jl G h a) hs) =
  asum (Lat L G (nth a il 0%nat)) (fun r => 1 - pat pd (nth a il 0%nat) r) cl il jl.
Proof.
  intros G a Ha. destruct (assoc_list nR nC) as (hs' & N' & A').
  rewrite (sum_most nR nC L' (fun a => pd (nth a il 0%nat)) (fun b => cl (nth b jl 0%nat)) _ hs hs' Nh N' Ah A' Ch).
  apply block_sum_iff; [exact Nj|]. exists hs'. split; [exact N'|]. split; [exact A'|].
  apply qsum_ext. intros h _. symmetry.
  assert (I : forall r, r <> a -> (r < nR)%nat -> nth r il 0%nat <> nth a il 0%nat).
  { intros r Hr Hlt E. apply Hr. apply (proj1 (NoDup_nth il 0%nat) Ni); auto. }
  unfold hyp_weight, rgain.
  assert (Q : qprod (map (fun m => if Nat.ltb (nth m h 0%nat) nC then Lat L G (nth a il 0%nat) (nth m il 0%nat) (nth (nth m h 0%nat) jl 0%nat)
        else 1 - pat pd (nth a il 0%nat) (nth m il 0%nat)) (seq 0 nR)) =
     qprod (map (fun m => if Nat.ltb (nth m h 0%nat) nC then L' m (nth m h 0%nat) else 1 - pd (nth m il 0%nat)) (seq 0 nR)) *
     gain nC (fun a b => G (nth a il 0%nat) (nth b jl 0%nat)) a h).
  { rewrite (map_ext_in _ (fun m => if Nat.ltb m nR then (if Nat.ltb (nth m h 0%nat) nC then Lat L G (nth a il 0%nat) (nth m il 0%nat) (nth (nth m h 0%nat) jl 0%nat)
        else 1 - pat pd (nth a il 0%nat) (nth m il 0%nat)) else (if Nat.ltb (nth m h 0%nat) nC then L' m (nth m h 0%nat) else 1 - pd (nth m il 0%nat)))).
    - apply (qprod_one (fun m => if Nat.ltb (nth m h 0%nat) nC then L' m (nth m h 0%nat) else 1 - pd (nth m il 0%nat)) _ _ a);
        [apply seq_NoDup|apply in_seq; lia| |].
      + intros x Hx. cbv beta. destruct (Nat.ltb_spec x nR) as [Hlt|]; [|reflexivity].
        unfold Lat, pat. destruct (Nat.eqb_spec (nth x il 0%nat) (nth a il 0%nat)) as [K|K]; [exfalso; revert K; apply I; auto|reflexivity].
      + cbv beta. apply Nat.ltb_lt in Ha. rewrite Ha. unfold Lat, pat, gain. cbv beta. rewrite Nat.eqb_refl. destruct (Nat.ltb (nth a h 0%nat) nC); ring.
    - intros x Hx. apply in_seq in Hx. destruct (Nat.ltb_spec x nR); [reflexivity|lia]. }
  rewrite Q. ring.
Qed.

Lemma block_weight : qsum (map hw hs) = asum L (fun r => 1 - pd r) cl il jl.
Proof.
  destruct (assoc_list nR nC) as (hs' & N' & A').
  assert (K := sum_most nR nC L' (fun a => pd (nth a il 0%nat)) (fun b => cl (nth b jl 0%nat)) (fun _ => 1) hs hs' Nh N' Ah A' Ch).
  assert (O : forall l, qsum (map (fun h => hw h * (fun _ : list nat => 1) h) l) = qsum (map hw l)).
  { intros l. apply qsum_ext. intros h _. ring. }
  rewrite <- (O hs). eapply eq_trans; [exact K|]. eapply eq_trans; [apply (O hs')|]. apply block_sum_iff; [exact Nj|]. exists hs'. auto.
Qed.

Lemma lmgain_at : forall gl h a, (a < nR)%nat -> lmgain gl il jl h (nth a il 0%nat) = rgain il jl gl h a.
Proof.
  intros gl h a Ha. unfold lmgain.
  assert (F : forall n s, (s + n <= nR)%nat -> qsum (map (fun b => if Nat.eqb (nth a il 0%nat) (nth b il 0%nat) then rgain il jl gl h b else 0) (seq s n)) =
     if (Nat.leb s a && Nat.ltb a (s + n))%bool then rgain il jl gl h a else 0).
  { induction n as [|n IH]; intros s Hs; cbn [seq map].
    - rewrite qsum_nil. destruct (Nat.leb_spec s a), (Nat.ltb_spec a (s + 0)); try reflexivity. lia.
    - rewrite qsum_cons, IH by lia. destruct (Nat.eqb_spec (nth a il 0%nat) (nth s il 0%nat)) as [E|E].
      + assert (a = s) by (apply (proj1 (NoDup_nth il 0%nat) Ni); auto; lia). subst s.
        destruct (Nat.leb_spec (S a) a); [lia|]. destruct (Nat.leb_spec a a); [|lia]. destruct (Nat.ltb_spec a (a + S n)); [|lia].
        cbn [andb]. ring.
      + assert (a <> s) by (intros ->; contradiction).
        destruct (Nat.leb_spec (S s) a), (Nat.ltb_spec a (S s + n)), (Nat.leb_spec s a), (Nat.ltb_spec a (s + S n)); cbn [andb]; try ring; lia. }
  rewrite F by lia. cbn [Nat.leb andb]. destruct (Nat.ltb_spec a (0 + nR)); [reflexivity|lia].
Qed.
Lemma lmgain_out : forall gl h m, ~ In m il -> lmgain gl il jl h m = 0.
Proof.
  intros gl h m Hm. unfold lmgain. apply (qsum_zero (fun a => if Nat.eqb m (nth a il 0%nat) then rgain il jl gl h a else 0)).
  intros a Ha. apply in_seq in Ha. destruct (Nat.eqb_spec m (nth a il 0%nat)) as [->|]; [|reflexivity].
  exfalso. apply Hm. apply nth_In. lia.
Qed.

Lemma block_lm : forall gl m, In m il ->
  qsum (map (fun h => hw h * lmgain gl il jl h m) hs) = asum (Lat L gl m) (fun r => 1 - pat pd m r) cl il jl.
Proof.
  intros gl m Hm. destruct (In_nth _ _ 0%nat Hm) as (a & Ha & <-). rewrite <- (block_gain gl a Ha).
  apply qsum_ext. intros h _. rewrite lmgain_at by exact Ha. reflexivity.
Qed.
Lemma qsum_swap : forall {X Y} (F : X -> Y -> Qc) xs ys,
  qsum (map (fun x => qsum (map (F x) ys)) xs) = qsum (map (fun y => qsum (map (fun x => F x y) xs)) ys).
Proof.
  intros X Y F. induction xs as [|x xs IH]; intros ys; cbn [map].
  - rewrite qsum_nil. symmetry. apply (qsum_zero (fun _ => 0)). reflexivity.
  - rewrite qsum_cons, IH, <- qsum_plus. apply qsum_ext. intros y _. rewrite qsum_cons. reflexivity.
Qed.
Lemma block_ps : forall gp,
  qsum (map (fun h => hw h * psgain gp il jl h) hs) = qsum (map (fun m => asum (Lat L gp m) (fun r => 1 - pat pd m r) cl il jl) il).
Proof.
  intros gp. unfold psgain.
  rewrite (qsum_ext (fun h => hw h * qsum (map (rgain il jl gp h) (seq 0 nR))) (fun h => qsum (map (fun a => hw h * rgain il jl gp h a) (seq 0 nR))) hs).
  - rewrite (qsum_swap (fun h a => hw h * rgain il jl gp h a)).
    rewrite (qsum_ext _ (fun a => asum (Lat L gp (nth a il 0%nat)) (fun r => 1 - pat pd (nth a il 0%nat) r) cl il jl) (seq 0 nR)).
    + set (F := fun m => asum (Lat L gp m) (fun r => 1 - pat pd m r) cl il jl).
      change (qsum (map (fun a => F (nth a il 0%nat)) (seq 0 nR)) = qsum (map F il)).
      rewrite <- (map_map (fun a => nth a il 0%nat) F), map_nth_seq. reflexivity.
    + intros a Ha. apply in_seq in Ha. apply block_gain. lia.
  - intros h _. symmetry. apply qsum_scale.
Qed.
End Block.
