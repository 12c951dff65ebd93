(** The hypotheses of one partition and what they add up to. *)
From Coq Require Import ZArith List Bool Arith QArith Qcanon Lia Permutation Sorted.
From Verif Require Import Base ListUtil QcLra Loop PermanentSpec PermanentProofs EnumLemmas AssignSpec PartitionModel PartitionSpec
  LexModel LexSpec LexProofs2 RfsModel RfsSpec RfsProofs RfsProofs2 RfsProofs3 RfsProofs4 LmbModel LmbSpec LmbEvents.
Import ListNotations.
Local Open Scope Qc_scope.

Lemma fold_plus : forall {X} (f : X -> Qc) l v, fold_left (fun s x => s + f x) l v = v + qsum (map f l).
Proof.
  intros X f. induction l as [|x l IH]; intros v; cbn [fold_left map]; rewrite ?qsum_nil, ?qsum_cons; [ring|].
  rewrite IH. ring.
Qed.
Lemma fold_plus0 : forall {X} (f : X -> Qc) l, fold_left (fun s x => s + f x) l 0 = qsum (map f l).
Proof. intros X f l. rewrite fold_plus. ring. Qed.

Section Block.
Context {G : Type}.
Variable nZ : nat.
Variable vs : list (view G).
Variable L : nat -> nat -> Qc.
Variables il jl : list nat.
Notation at_ := (at_ vs).
Notation missed_pd := (missed_pd vs).
Notation nR := (length il).
Notation nC := (length jl).
Hypothesis Nil : NoDup il.
Hypothesis Hq : forall i, In i il -> 1 - missed_pd i <> 0.
Notation "'row' r" := (nth r il 0%nat) (at level 10).

Definition ratio (i : nat) : Qc := vPe (at_ i) * (1 - vPd (at_ i)) / (1 - missed_pd i).
Definition tgt (r : nat) (o : list nat) : nat := if Nat.ltb (nth r o 0%nat) nC then nth (nth r o 0%nat) jl 0%nat else nZ.
Definition sh (r : nat) (o : list nat) : Qc := if Nat.ltb (nth r o 0%nat) nC then 1 else ratio (row r).

Definition adds (P : list (list nat * Qc)) (a a' : acc) : Prop :=
  pl a' = pl a + qsum (map snd P) /\
  (forall r, (r < nR)%nat -> upe a' (row r) = upe a (row r) + qsum (map (fun p => snd p * sh r (fst p)) P)) /\
  (forall r z, (r < nR)%nat -> mw a' (row r) z = mw a (row r) z +
     qsum (map (fun p => if Nat.eqb (tgt r (fst p)) z then snd p * sh r (fst p) else 0) P)) /\
  (forall i, ~ In i il -> upe a' i = upe a i /\ forall z, mw a' i z = mw a i z).

Lemma adds_nil : forall a, adds [] a a.
Proof.
  intros a. unfold adds. cbn [map]. rewrite qsum_nil. split; [ring|]. split; [intros; ring|]. split; [intros; ring|].
  auto.
Qed.
Lemma adds_cons : forall p P a a1 a2, adds [p] a a1 -> adds P a1 a2 -> adds (p :: P) a a2.
Proof.
  intros p P a a1 a2 (A1 & A2 & A3 & A4) (B1 & B2 & B3 & B4). unfold adds.
  cbn [map] in *. split; [rewrite B1, A1, !qsum_cons, qsum_nil; ring|]. split; [|split].
  - intros r Hr. rewrite (B2 r Hr), (A2 r Hr), !qsum_cons, qsum_nil. ring.
  - intros r z Hr. rewrite (B3 r z Hr), (A3 r z Hr), !qsum_cons, qsum_nil. ring.
  - intros i Hi. destruct (A4 i Hi) as [C1 C2], (B4 i Hi) as [D1 D2]. split; [congruence|].
    intros z. rewrite D2. apply C2.
Qed.

Lemma row_inj : forall r s, (r < nR)%nat -> (s < nR)%nat -> row r = row s -> r = s.
Proof. intros r s Hr Hs E. apply (proj1 (NoDup_nth il 0%nat) Nil); auto. Qed.
Lemma row_in : forall r, (r < nR)%nat -> In (row r) il.
Proof. intros r Hr. apply nth_In. exact Hr. Qed.

Lemma account_row_ok : forall o w r a, (r < nR)%nat ->
  account_row nZ vs il jl o w r a =
  Val (Acc (pl a) (add1 (upe a) (row r) (w * sh r o)) (add2 (mw a) (row r) (tgt r o) (w * sh r o))).
Proof using Hq.
  intros o w r a Hr. unfold account_row, sh, tgt. destruct (Nat.ltb (nth r o 0%nat) nC).
  - rewrite Qcmult_1_r. reflexivity.
  - destruct (Qc_eq_dec (1 - missed_pd (row r)) 0) as [E|E]; [exfalso; exact (Hq (row r) (nth_In _ _ Hr) E)|].
    assert (X : w * vPe (at_ (row r)) * (1 - vPd (at_ (row r))) / (1 - missed_pd (row r)) = w * ratio (row r)).
    { unfold ratio, Qcdiv. ring. }
    rewrite X. reflexivity.
Qed.

Lemma account_ok : forall o w a, exists a', account nZ vs il jl o w a = Val a' /\ adds [(o, w)] a a'.
Proof.
  intros o w a. unfold account.
  destruct (for_inv (fun k t => pl t = pl a + w /\
     (forall r, (r < nR)%nat -> upe t (row r) = upe a (row r) + if Nat.ltb r k then w * sh r o else 0) /\
     (forall r z, (r < nR)%nat -> mw t (row r) z = mw a (row r) z + if Nat.ltb r k && Nat.eqb (tgt r o) z then w * sh r o else 0) /\
     (forall i, ~ In i il -> upe t i = upe a i /\ forall z, mw t i z = mw a i z))
     (account_row nZ vs il jl o w) nR (Acc (pl a + w) (upe a) (mw a))) as (a' & E & H1 & H2 & H3 & H4).
  - split; [reflexivity|]. cbn. split; [intros; ring|]. split; [intros; ring|auto].
  - intros k t Hk (H1 & H2 & H3 & H4). rewrite account_row_ok by exact Hk. eexists. split; [reflexivity|].
    cbn [pl upe mw]. split; [exact H1|]. split; [|split].
    + intros r Hr. unfold add1. rewrite (H2 r Hr). destruct (Nat.eqb_spec (row r) (row k)) as [Er|Er].
      * apply row_inj in Er; [subst r|exact Hr|exact Hk]. rewrite Nat.ltb_irrefl.
        replace (k <? S k) with true by (symmetry; apply Nat.ltb_lt; lia). ring.
      * assert (r <> k) by (intros ->; congruence).
        replace (r <? S k) with (r <? k); [reflexivity|].
        destruct (Nat.ltb_spec r k), (Nat.ltb_spec r (S k)); try reflexivity; lia.
    + intros r z Hr. unfold add2. rewrite (H3 r z Hr). destruct (Nat.eqb_spec (row r) (row k)) as [Er|Er]; cbn [andb].
      * apply row_inj in Er; [subst r|exact Hr|exact Hk]. rewrite Nat.ltb_irrefl.
        replace (k <? S k) with true by (symmetry; apply Nat.ltb_lt; lia). cbn [andb].
        rewrite (Nat.eqb_sym z (tgt k o)). destruct (Nat.eqb (tgt k o) z); ring.
      * assert (r <> k) by (intros ->; congruence).
        replace (r <? S k) with (r <? k); [reflexivity|].
        destruct (Nat.ltb_spec r k), (Nat.ltb_spec r (S k)); try reflexivity; lia.
    + intros i Hi. destruct (H4 i Hi) as [Q1 Q2]. unfold add1, add2.
      destruct (Nat.eqb_spec i (row k)) as [Er|Er]; [exfalso; apply Hi; subst; apply row_in; exact Hk|]. cbn [andb]. auto.
  - exists a'. split; [exact E|]. unfold adds. cbn [map fst snd]. rewrite qsum_cons, qsum_nil.
    split; [rewrite H1; ring|]. split; [|split; [|exact H4]].
    + intros r Hr. rewrite (H2 r Hr), qsum_cons, qsum_nil. replace (r <? nR) with true by (symmetry; apply Nat.ltb_lt; lia). ring.
    + intros r z Hr. rewrite (H3 r z Hr), qsum_cons, qsum_nil. replace (r <? nR) with true by (symmetry; apply Nat.ltb_lt; lia).
      cbn [andb]. ring.
Qed.
End Block.

Section Hyps.
Context {G : Type}.
Variable probDet : G -> Qc.
Variable correct : nat -> G -> option (G * Qc).
Variable clutter : nat -> Qc.
Variable thr : Qc.
Variable nZ : nat.
Variable kbest : nat -> nat -> (nat -> nat -> Qc) -> list (list nat).
Variable vs : list (view G).
Variables il jl : list nat.
Notation at_ := (at_ vs).
Notation missed_pd := (missed_pd vs).
Notation nR := (length il).
Notation nC := (length jl).
Notation lmbL := (lmbL correct clutter thr vs).
Notation hw := (hyp_weight nR nC (fun a b => lmbL (nth a il 0%nat) (nth b jl 0%nat))
                  (fun a => missed_pd (nth a il 0%nat)) (fun b => 1)).
Notation "'row' r" := (nth r il 0%nat) (at level 10).
Hypothesis Nil : NoDup il.
Hypothesis Hq : forall i, In i il -> 1 - missed_pd i <> 0.
Notation adds := (adds nZ vs il jl).

Lemma ones : forall (l : list nat), qprod (map (fun _ => 1) l) = 1.
Proof. induction l as [|x l IH]; cbn [map]; rewrite ?qprod_nil, ?qprod_cons; [reflexivity|]. rewrite IH. ring. Qed.

Lemma order_weight_ok : forall o, order_weight correct clutter thr vs il jl o = hw (firstn nR o).
Proof using.
  intros o. unfold order_weight. rewrite fold_both. unfold hyp_weight. rewrite ones, Qcmult_1_l, Qcmult_1_r.
  f_equal. apply map_ext_in. intros a Ha. apply in_seq in Ha. rewrite nth_firstn by lia. reflexivity.
Qed.

Lemma lex_account_ok : forall outs s nP fuel z a,
  (forall o, In o outs -> length o = (nR + nC)%nat) ->
  (forall k, next_calls k s = Val (firstn k (combine (seq (S nP) (length outs)) outs ++ repeat (0%nat, z) k))) ->
  (length outs < fuel)%nat ->
  exists a', lex_account correct clutter thr nZ vs fuel il jl s a = Val a' /\
  adds (map (fun o => (o, hw (firstn nR o))) outs) a a'.
Proof.
  induction outs as [|o outs IH]; intros s nP fuel z a HP H Hf; destruct fuel as [|fuel]; try (cbn in Hf; lia).
  - specialize (H 1%nat). cbn in H. cbn [lex_account]. destruct (next s) as [[[s' n] p]|u|]; try discriminate.
    cbn in *. injection H as -> ->. exists a. split; [reflexivity|apply adds_nil].
  - assert (H1 := H 1%nat). cbn in H1. cbn [lex_account]. destruct (next s) as [[[s' n] p]|u|] eqn:E; try discriminate.
    cbn in H1. injection H1 as -> ->. cbn [obind Nat.eqb].
    rewrite (proj2 (Nat.eqb_eq _ _) (HP o (or_introl eq_refl))).
    destruct (account_ok nZ vs il jl Nil Hq o (order_weight correct clutter thr vs il jl o) a) as (a1 & E1 & A1).
    rewrite E1. cbn [obind].
    destruct (IH s' (S nP) fuel z a1) as (a2 & E2 & A2).
    + intros o' Ho'. apply HP. right. exact Ho'.
    + intros k. specialize (H (S k)). cbn in H. rewrite E in H. cbn [obind] in H.
      destruct (next_calls k s') as [l|u|]; try discriminate. cbn in H. injection H as H. f_equal. rewrite H.
      assert (K : forall (x : nat * list nat) k l a a', (k <= a)%nat -> (k <= a')%nat ->
          firstn k (l ++ repeat x a) = firstn k (l ++ repeat x a')).
      { clear. induction k as [|k IHk]; intros l a a' Ha Ha'; auto.
        destruct l as [|c l]; simpl.
        - destruct a, a'; try lia. simpl. f_equal. apply (IHk []); lia.
        - f_equal. apply IHk; lia. }
      change ((0%nat, z) :: repeat (0%nat, z) k) with (repeat (0%nat, z) (S k)). apply K; lia.
    + cbn in Hf. lia.
    + exists a2. split; [exact E2|]. cbn [map]. rewrite order_weight_ok in A1. eapply adds_cons; eauto.
Qed.

Notation E := (extended lmbL missed_pd (fun _ => 1) il jl).
Notation w := (product_along E 0).
Notation nz := (RfsProofs3.nz lmbL missed_pd (fun _ => 1) il jl).

Lemma murty_account_ok : (forall r c, 0 <= E r c) -> forall outs k a, StronglySorted (fun a b => w b <= w a) outs ->
  exists a', murty_account nZ vs k il jl E outs a = Val a' /\ adds (map (fun o => (o, w o)) (firstn k (filter nz outs))) a a'.
Proof.
  intros HE. induction outs as [|o outs IH]; intros k a HS.
  - exists a. destruct k; (split; [reflexivity|apply adds_nil]).
  - inversion HS as [|? ? HS' HF]; subst. destruct k as [|k]; [exists a; split; [reflexivity|apply adds_nil]|].
    cbn [murty_account filter]. unfold RfsProofs3.nz at 1. destruct (Qc_eq_dec (w o) 0) as [E0|E0].
    + replace (filter nz outs) with (@nil (list nat)); [exists a; split; [reflexivity|apply adds_nil]|].
      clear IH HS HS'. induction outs as [|b outs IHo]; [reflexivity|]. inversion HF; subst. cbn [filter].
      unfold RfsProofs3.nz at 1. destruct (Qc_eq_dec (w b) 0) as [E1|E1]; [apply IHo; assumption|].
      exfalso. apply E1. assert (K := product_nonneg E b 0 HE).
      rewrite E0 in H1. apply Qcle_antisym; assumption.
    + destruct (account_ok nZ vs il jl Nil Hq o (w o) a) as (a1 & Ea & A1). rewrite Ea. cbn [obind].
      destruct (IH k a1 HS') as (a2 & Eb & A2). exists a2. split; [exact Eb|]. cbn [firstn map]. eapply adds_cons; eauto.
Qed.

(** The result in terms of association hypotheses. *)
Definition sumup (hs : list (list nat)) (a a' : acc) : Prop :=
  pl a' = pl a + qsum (map hw hs) /\
  (forall r, (r < nR)%nat -> upe a' (row r) = upe a (row r) + qsum (map (fun h => hw h * sh vs il jl r h) hs)) /\
  (forall r z, (r < nR)%nat -> mw a' (row r) z = mw a (row r) z +
     qsum (map (fun h => if Nat.eqb (tgt nZ jl r h) z then hw h * sh vs il jl r h else 0) hs)) /\
  (forall i, ~ In i il -> upe a' i = upe a i /\ forall z, mw a' i z = mw a i z).

Lemma hyp_nth : forall r o, (r < nR)%nat -> (nR <= length o)%nat ->
  Nat.ltb (nth r (hyp il jl o) 0%nat) nC = Nat.ltb (nth r o 0%nat) nC /\
  (Nat.ltb (nth r o 0%nat) nC = true -> nth r (hyp il jl o) 0%nat = nth r o 0%nat).
Proof using.
  intros r o Hr Ho. unfold hyp.
  assert (K : nth r (map (fun c => if Nat.ltb c nC then c else nC) (firstn nR o)) 0%nat =
              if Nat.ltb (nth r o 0%nat) nC then nth r o 0%nat else nC).
  { apply nth_error_nth. rewrite nth_error_map, nth_error_firstn by exact Hr.
    destruct (nth_error o r) as [c|] eqn:Ec; [|apply nth_error_None in Ec; lia].
    rewrite (nth_error_nth o r 0%nat Ec). reflexivity. }
  rewrite K. destruct (Nat.ltb (nth r o 0%nat) nC) eqn:El; [auto|]. rewrite Nat.ltb_irrefl. split; [reflexivity|discriminate].
Qed.

Lemma adds_sumup : forall P a a', adds P a a' -> (forall p, In p P -> (nR <= length (fst p))%nat /\ snd p = hw (hyp il jl (fst p))) ->
  sumup (map (fun p => hyp il jl (fst p)) P) a a'.
Proof using.
  intros P a a' (H1 & H2 & H3 & H4) HP.
  assert (Hsh : forall r p, (r < nR)%nat -> In p P -> sh vs il jl r (hyp il jl (fst p)) = sh vs il jl r (fst p) /\
     tgt nZ jl r (hyp il jl (fst p)) = tgt nZ jl r (fst p)).
  { intros r p Hr Hp. destruct (HP p Hp) as [Hl _]. destruct (hyp_nth r (fst p) Hr Hl) as [K1 K2].
    unfold sh, tgt. rewrite K1. split; [reflexivity|].
    destruct (Nat.ltb (nth r (fst p) 0%nat) nC) eqn:El; [|reflexivity]. rewrite K2; reflexivity. }
  split; [|split; [|split; [|exact H4]]].
  - rewrite H1, map_map. f_equal. apply qsum_ext. intros p Hp. apply HP. exact Hp.
  - intros r Hr. rewrite (H2 r Hr), map_map. f_equal. apply qsum_ext. intros p Hp.
    rewrite (proj1 (Hsh r p Hr Hp)), (proj2 (HP p Hp)). reflexivity.
  - intros r z Hr. rewrite (H3 r z Hr), map_map. f_equal. apply qsum_ext. intros p Hp.
    destruct (Hsh r p Hr Hp) as [K1 K2]. rewrite K1, K2, (proj2 (HP p Hp)). reflexivity.
Qed.

Theorem lex_hyps : (nR + nC <> 0)%nat -> forall a,
  exists a' hs, lex_account correct clutter thr nZ vs (S (S nC ^ nR)) il jl (lex_new nR nC true) a = Val a' /\
  NoDup hs /\ (forall h, In h hs <-> association nR nC true h) /\ sumup hs a a'.
Proof.
  intros Hn a. destruct (lex_enumerates nR nC true Hn) as (outs & Hc & Ha & Hi & Hp).
  replace (if Nat.eqb nR nC then true else true) with true in * by (destruct (Nat.eqb nR nC); reflexivity).
  cbv zeta in *. cbn iota in *.
  assert (N : NoDup (map (firstn nR) outs)) by (apply ascending_nodup; exact Ha).
  assert (Lo : forall o, In o outs -> length o = (nR + nC)%nat).
  { intros o Ho. apply Hp in Ho. destruct Ho as [Ho _]. apply Permutation_length in Ho. rewrite app_length, seq_length, repeat_length in Ho. lia. }
  destruct (lex_account_ok outs (lex_new nR nC true) 0 (S (S nC ^ nR)) (repeat 0%nat (nR + nC)) a Lo Hc) as (a' & Ea & A).
  { assert (K := NoDup_incl_length N (l' := henum nC nR (seq 0 nC))). rewrite map_length in K.
    assert (K2 := henum_length nC nR (seq 0 nC) (seq_NoDup _ _)). rewrite seq_length in K2.
    assert (K3 : incl (map (firstn nR) outs) (henum nC nR (seq 0 nC))).
    { intros h Hh. apply henum_in; [apply seq_not|]. apply assoc_association. apply Hi. exact Hh. }
    specialize (K K3). lia. }
  assert (Hh : forall o, In o outs -> hyp il jl o = firstn nR o).
  { intros o Ho. unfold hyp. rewrite <- (map_id (firstn nR o)) at 2. apply map_ext_in. intros c Hcc.
    assert (K : In (firstn nR o) (map (firstn nR) outs)) by (apply in_map; exact Ho).
    apply Hi in K. destruct K as (_ & K & _). destruct (K c Hcc) as [K1|[_ ->]].
    - apply Nat.ltb_lt in K1. rewrite K1. reflexivity.
    - rewrite Nat.ltb_irrefl. reflexivity. }
  exists a', (map (firstn nR) outs). split; [exact Ea|]. split; [exact N|]. split; [exact Hi|].
  assert (K := adds_sumup _ _ _ A). rewrite map_map in K. cbn [fst snd] in K.
  change (map _ outs) with (map (hyp il jl) outs) in K at 2.
  rewrite <- (map_ext_in _ _ outs Hh). apply K.
  intros p Hpp. apply in_map_iff in Hpp. destruct Hpp as (o & <- & Ho). cbn [fst snd]. rewrite (Lo o Ho), (Hh o Ho). split; [lia|reflexivity].
Qed.

Theorem murty_hyps_lmb : (forall r c, 0 <= lmbL r c) -> (forall r, missed_pd r <= 1) -> kbest_contract kbest -> forall a,
  exists a' hs rest_, murty_account nZ vs 200 il jl E (kbest nR nC E) a = Val a' /\
  NoDup (hs ++ rest_) /\ (forall h, In h (hs ++ rest_) <-> association nR nC true h /\ hw h <> 0) /\ sumup hs a a' /\
  length hs = Nat.min 200 (length (hs ++ rest_)).
Proof.
  intros HL Hpd Hk a.
  assert (H1 : 0 <= 1) by qclra.
  assert (HE := E_nonneg lmbL missed_pd (fun _ => 1) il jl HL Hpd (fun _ => H1)).
  destruct (murty_hyps lmbL missed_pd (fun _ => 1) il jl HL Hpd (fun _ => H1) kbest Hk) as (N & I & W).
  destruct (Hk nR nC E HE) as (_ & _ & K3 & _).
  destruct (murty_account_ok HE (kbest nR nC E) 200 a K3) as (a' & Ea & A).
  set (ps := filter nz (kbest nR nC E)) in *.
  exists a', (map (hyp il jl) (firstn 200 ps)), (map (hyp il jl) (skipn 200 ps)). split; [exact Ea|].
  rewrite <- map_app, firstn_skipn. split; [exact N|]. split; [exact I|]. split.
  - assert (K := adds_sumup _ _ _ A). rewrite map_map in K. cbn [fst snd] in K. apply K.
    intros p Hp. apply in_map_iff in Hp. destruct Hp as (o & <- & Ho). cbn [fst snd].
    assert (Ho' : In o ps) by (rewrite <- (firstn_skipn 200 ps); apply in_or_app; auto).
    destruct (W o Ho') as [W1 W2]. split; [|exact W2]. rewrite (AssignLemmas.assignment_length _ _ W1). lia.
  - rewrite !map_length, firstn_length. reflexivity.
Qed.
End Hyps.
