(** The permutations and assignments of one block. *)
From Coq Require Import ZArith List Bool Arith QArith Qcanon Lia Permutation Sorted.
From Verif Require Import Base ListUtil QcLra PermanentSpec PermanentProofs AssignSpec LexSpec LexModel LexProofs2
  RfsModel RfsSpec RfsProofs RfsProofs2 RfsProofs3 PlainModel PlainSpec.
Import ListNotations.
Local Open Scope Qc_scope.

Section Block.
Variable L : nat -> nat -> Qc.
Variables pd cl : nat -> Qc.
Variables lmg psg : nat -> nat -> option Qc.
Variables gl gp : nat -> nat -> Qc.
Variables il jl : list nat.
Notation nR := (length il).
Notation nC := (length jl).
Notation L' := (fun a b => L (nth a il 0%nat) (nth b jl 0%nat)).
Notation hw := (hyp_weight nR nC L' (fun a => pd (nth a il 0%nat)) (fun b => cl (nth b jl 0%nat))).
Hypothesis HL : forall r c, 0 <= L r c.
Hypothesis Hpd : forall r, pd r <= 1.
Hypothesis Hcl : forall c, 0 <= cl c.
Hypothesis Hst : forall m n, 0 < L m n -> lmg m n = Some (gl m n) /\ psg m n = Some (gp m n).

(** What an assignment adds. *)
Definition rgain (G : nat -> nat -> Qc) (h : list nat) (a : nat) : Qc :=
  gain nC (fun a b => G (nth a il 0%nat) (nth b jl 0%nat)) a h.
Definition lmgain (h : list nat) (m : nat) : Qc :=
  qsum (map (fun a => if Nat.eqb m (nth a il 0%nat) then rgain gl h a else 0) (seq 0 nR)).
Definition psgain (h : list nat) : Qc := qsum (map (rgain gp h) (seq 0 nR)).

Lemma fold_rows : forall o w l s,
  (forall a, In a l -> (nth a o 0%nat < nC)%nat -> 0 < L (nth a il 0%nat) (nth (nth a o 0%nat) jl 0%nat)) ->
  exists s', fold_left (fun r a => let* s := r in p_row lmg psg il jl o w s a) l (Val s) = Val s' /\
  (forall m, fst s' m = fst s m + w * qsum (map (fun a => if Nat.eqb m (nth a il 0%nat) then rgain gl o a else 0) l)) /\
  snd s' = snd s + w * qsum (map (rgain gp o) l).
Proof.
  intros o w. induction l as [|a l IH]; intros s H; cbn [fold_left map].
  - exists s. split; [reflexivity|]. rewrite !qsum_nil. split; [intros m; ring|ring].
  - cbn [obind]. unfold p_row at 2.
    assert (RG : forall G, rgain G o a = if Nat.ltb (nth a o 0%nat) nC then G (nth a il 0%nat) (nth (nth a o 0%nat) jl 0%nat) else 0) by reflexivity.
    destruct (Nat.ltb_spec (nth a o 0%nat) nC) as [Hc|Hc].
    + destruct (Hst _ _ (H a (or_introl eq_refl) Hc)) as [E1 E2]. rewrite E1, E2. cbn [of_option obind].
      destruct (IH (p_add (fst s) (nth a il 0%nat) (gl (nth a il 0%nat) (nth (nth a o 0%nat) jl 0%nat) * w)%Qc, (snd s + gp (nth a il 0%nat) (nth (nth a o 0%nat) jl 0%nat) * w)%Qc))
        as (s' & E & A & B). { intros b Hb. apply H. right. exact Hb. }
      exists s'. split; [exact E|]. cbn [fst snd] in A, B. split.
      * intros m. rewrite A, qsum_cons, RG. unfold p_add. destruct (Nat.eqb m (nth a il 0%nat)); ring.
      * rewrite B, qsum_cons, RG. ring.
    + destruct (IH s) as (s' & E & A & B). { intros b Hb. apply H. right. exact Hb. }
      exists s'. split; [exact E|]. split.
      * intros m. rewrite A, qsum_cons, RG. destruct (Nat.eqb m (nth a il 0%nat)); ring.
      * rewrite B, qsum_cons, RG. ring.
Qed.

(** The gain only depends on which of the columns are measurements. *)
Lemma rgain_ext : forall G o h a, (nth a h 0%nat = nth a o 0%nat \/ (nC <= nth a h 0%nat)%nat /\ (nC <= nth a o 0%nat)%nat) ->
  rgain G o a = rgain G h a.
Proof.
  intros G o h a [E|[E1 E2]]; unfold rgain, gain; [rewrite E; reflexivity|].
  destruct (Nat.ltb_spec (nth a o 0%nat) nC); [lia|]. destruct (Nat.ltb_spec (nth a h 0%nat) nC); [lia|reflexivity].
Qed.

Lemma hw_factor : forall h a, hw h <> 0 -> (a < nR)%nat -> (nth a h 0%nat < nC)%nat -> L' a (nth a h 0%nat) <> 0.
Proof.
  intros h a H Ha Hc E. apply H. unfold hyp_weight.
  assert (K : qprod (map (fun m => if Nat.ltb (nth m h 0%nat) nC then L' m (nth m h 0%nat) else 1 - pd (nth m il 0%nat)) (seq 0 nR)) = 0).
  { assert (I : In a (seq 0 nR)) by (apply in_seq; lia). revert I. generalize (seq 0 nR). induction l as [|x l IH]; intros I; [destruct I|]. destruct I as [->|I].
    - cbn [map]. rewrite qprod_cons. apply Nat.ltb_lt in Hc. rewrite Hc. rewrite E. ring.
    - cbn [map]. rewrite qprod_cons, IH by exact I. ring. }
  rewrite K. ring.
Qed.

Lemma rows_ok : forall o h s, (forall a, (a < nR)%nat -> nth a h 0%nat = nth a o 0%nat \/ (nC <= nth a h 0%nat)%nat /\ (nC <= nth a o 0%nat)%nat) ->
  exists s', p_rows lmg psg il jl o (hw h) s = Val s' /\
  (forall m, fst s' m = fst s m + hw h * lmgain h m) /\ snd s' = snd s + hw h * psgain h.
Proof.
  intros o h s Ho. unfold p_rows. destruct (Qcltb 0 (hw h)) eqn:E.
  - apply Qcltb_true in E.
    destruct (fold_rows o (hw h) (seq 0 nR) s) as (s' & F & A & B).
    { intros a Ha Hc. apply in_seq in Ha. destruct (Ho a) as [K|[K1 K2]]; [lia| |lia].
      assert (N := hw_factor h a). rewrite K in N. specialize (N ltac:(intros Z; rewrite Z in E; discriminate) ltac:(lia) Hc).
      assert (P := HL (nth a il 0%nat) (nth (nth a o 0%nat) jl 0%nat)). apply Qcle_lt_or_eq in P. destruct P as [P|P]; [exact P|congruence]. }
    exists s'. split; [exact F|]. split.
    + intros m. rewrite A. f_equal. f_equal. unfold lmgain. apply qsum_ext. intros a Ha. apply in_seq in Ha.
      rewrite (rgain_ext gl o h a) by (apply Ho; lia). reflexivity.
    + rewrite B. f_equal. f_equal. unfold psgain. apply qsum_ext. intros a Ha. apply in_seq in Ha. apply rgain_ext. apply Ho. lia.
  - assert (Z : hw h = 0).
    { assert (P := hw_nonneg L pd cl il jl HL Hpd Hcl h). apply Qcle_lt_or_eq in P. destruct P as [P|P]; [|congruence].
      apply Qcltb_true in P. congruence. }
    exists s. split; [reflexivity|]. rewrite Z. split; [intros m; ring|ring].
Qed.

(** The run over a list of hypotheses. *)
Definition ran (v : Qc) (s : p_state) (hs : list (list nat)) (r : Qc * p_state) : Prop :=
  fst r = v + qsum (map hw hs) /\
  (forall m, fst (snd r) m = fst s m + qsum (map (fun h => hw h * lmgain h m) hs)) /\
  snd (snd r) = snd s + qsum (map (fun h => hw h * psgain h) hs).

Lemma ran_cons : forall v s h s' hs r, (forall m, fst s' m = fst s m + hw h * lmgain h m) -> snd s' = snd s + hw h * psgain h ->
  ran (v + hw h) s' hs r -> ran v s (h :: hs) r.
Proof.
  intros v s h s' hs r A B (R1 & R2 & R3). unfold ran. cbn [map]. rewrite !qsum_cons. split; [rewrite R1; ring|]. split.
  - intros m. rewrite qsum_cons, R2, A. ring.
  - rewrite R3, B. ring.
Qed.
Lemma ran_nil : forall v s, ran v s [] (v, s).
Proof. intros. unfold ran. cbn. repeat split; intros; unfold qsum; cbn; ring. Qed.

Lemma lex_run : forall outs x nP fuel z v s,
  (forall o, In o outs -> Permutation o (seq 0 nC ++ repeat nC nR)) ->
  (forall k, next_calls k x = Val (firstn k (combine (seq (S nP) (length outs)) outs ++ repeat (0%nat, z) k))) ->
  (length outs < fuel)%nat ->
  exists r, p_lex L pd cl lmg psg fuel il jl x v s = Val r /\ ran v s (map (firstn nR) outs) r.
Proof.
  induction outs as [|o outs IH]; intros x nP fuel z v s HP H Hf; destruct fuel as [|fuel]; try (cbn in Hf; lia).
  - specialize (H 1%nat). cbn in H. cbn [p_lex]. destruct (next x) as [[[s' n] p]|u|]; try discriminate.
    cbn in *. injection H as -> ->. exists (v, s). split; [reflexivity|apply ran_nil].
  - assert (H1 := H 1%nat). cbn in H1. cbn [p_lex]. destruct (next x) as [[[x' n] p]|u|] eqn:E; try discriminate.
    cbn in H1. injection H1 as -> ->. cbn [obind Nat.eqb].
    rewrite (perm_weight_ok L pd cl il jl o) by (apply HP; left; reflexivity). cbn [obind].
    destruct (rows_ok o (firstn nR o) s) as (s' & Es & A & B). { intros a Ha. left. apply nth_firstn. exact Ha. }
    rewrite Es. cbn [obind].
    destruct (IH x' (S nP) fuel z (v + hw (firstn nR o)) s') as (r & Er & R); [| |cbn in Hf; lia|].
    { intros o' Ho'. apply HP. right. exact Ho'. }
    { intros k. specialize (H (S k)). cbn in H. rewrite E in H. cbn [obind] in H.
      destruct (next_calls k x') as [l|u|]; try discriminate. cbn in H. injection H as H. f_equal. rewrite H.
      assert (G : forall (x : nat * list nat) k l a a', (k <= a)%nat -> (k <= a')%nat ->
          firstn k (l ++ repeat x a) = firstn k (l ++ repeat x a')).
      { clear. induction k as [|k IHk]; intros l a a' Ha Ha'; auto.
        destruct l as [|c l]; simpl.
        - destruct a, a'; try lia. simpl. f_equal. apply (IHk []); lia.
        - f_equal. apply IHk; lia. }
      change ((0%nat, z) :: repeat (0%nat, z) k) with (repeat (0%nat, z) (S k)). apply G; lia. }
    exists r. split; [exact Er|]. cbn [map]. eapply ran_cons; eauto.
Qed.

Notation E := (extended L pd cl il jl).
Notation w := (product_along E 0).
Notation hypo := (hyp il jl).

Lemma murty_run : forall k outs v s, StronglySorted (fun a b => w b <= w a) outs ->
  (forall a, In a outs -> assignment (nR + nC) a) ->
  exists r, p_murty lmg psg k il jl E outs v s = Val r /\ ran v s (map hypo (firstn k (filter (nz L pd cl il jl) outs))) r.
Proof.
  induction k as [|k IH]; intros outs v s HS HA.
  - exists (v, s). split; [reflexivity|]. cbn [firstn map]. apply ran_nil.
  - destruct outs as [|o outs]; [exists (v, s); split; [reflexivity|apply ran_nil]|].
    cbn [p_murty]. destruct (Qc_eq_dec (w o) 0) as [E0|E0].
    + exists (v, s). split; [reflexivity|].
      replace (filter (nz L pd cl il jl) (o :: outs)) with (@nil (list nat)); [apply ran_nil|].
      symmetry. inversion HS as [|? ? HS' HF]; subst. cbn [filter]. unfold nz at 1. destruct (Qc_eq_dec (w o) 0); [|contradiction].
      clear - HF E0 HL Hpd Hcl. induction outs as [|b outs IHo]; [reflexivity|]. inversion HF; subst. cbn [filter].
      unfold nz at 1. destruct (Qc_eq_dec (w b) 0) as [E1|E1]; [apply IHo; assumption|].
      exfalso. apply E1. assert (K := product_nonneg E b 0 (E_nonneg L pd cl il jl HL Hpd Hcl)).
      rewrite E0 in H1. apply Qcle_antisym; assumption.
    + cbn [filter]. replace (nz L pd cl il jl o) with true by (symmetry; apply nz_true; exact E0). cbn [firstn map].
      assert (Ao := HA o (or_introl eq_refl)). assert (Ew := product_hyp L pd cl il jl o Ao E0). rewrite Ew.
      destruct (rows_ok o (hypo o) s) as (s' & Es & A & B).
      { intros a Ha. unfold hyp.
        assert (Lo : length (firstn nR o) = nR) by (rewrite firstn_length, (Permutation_length Ao), seq_length; lia).
        rewrite (nth_indep _ 0%nat (if Nat.ltb 0 nC then 0%nat else nC)) by (rewrite map_length; lia).
        rewrite (map_nth (fun c => if Nat.ltb c nC then c else nC) (firstn nR o) 0%nat a), nth_firstn by exact Ha.
        destruct (Nat.ltb_spec (nth a o 0%nat) nC); [left; reflexivity|right; lia]. }
      rewrite Es. cbn [obind]. inversion HS; subst.
      destruct (IH outs (v + hw (hypo o)) s') as (r & Er & R); [assumption|intros a Ha; apply HA; right; exact Ha|].
      exists r. split; [exact Er|]. eapply ran_cons; eauto.
Qed.

Variable kbest : nat -> nat -> (nat -> nat -> Qc) -> list (list nat).
Hypothesis Hk : kbest_contract kbest.

(** A block that is not the zero block. *)
Theorem block_run : forall murty, (nR + nC <> 0)%nat ->
  exists hs, block_likelihood L pd cl kbest murty true il jl = Val (qsum (map hw hs)) /\
  (forall s, exists s', p_block L pd cl lmg psg kbest murty true il jl s = Val (qsum (map hw hs), s') /\ ran 0 s hs (qsum (map hw hs), s')) /\
  NoDup hs /\ (forall h, In h hs -> association nR nC true h) /\
  (murty = false \/ few 200 L pd cl il jl -> forall h, association nR nC true h -> hw h <> 0 -> In h hs).
Proof.
  intros murty Hn. unfold p_block, block_likelihood. cbn [negb]. destruct murty.
  - destruct (Hk nR nC E (E_nonneg L pd cl il jl HL Hpd Hcl)) as (K1 & _ & K3 & _).
    destruct (murty_hyps L pd cl il jl HL Hpd Hcl kbest Hk) as (Nhs & Ihs & Hw).
    assert (MR := fun s => murty_run 200 (kbest nR nC E) 0 s K3 K1).
    assert (SF := murty_sum_firstn L pd cl il jl HL Hpd Hcl (kbest nR nC E) 200 K3).
    set (ps := filter (nz L pd cl il jl) (kbest nR nC E)) in *.
    exists (map hypo (firstn 200 ps)). split; [|split].
    { f_equal. rewrite SF, map_map.
      apply qsum_ext. intros a Ha. apply Hw. rewrite <- (firstn_skipn 200 ps). apply in_or_app. left. exact Ha. }
    { intros s. destruct (MR s) as ((v & s') & Er & R). assert (Ev : v = qsum (map hw (map hypo (firstn 200 ps)))).
      { destruct R as (R1 & _). cbn [fst] in R1. rewrite R1. ring. }
      rewrite Ev in *. exists s'. split; [exact Er|exact R]. }
    rewrite <- firstn_map. split; [|split].
    + rewrite <- (firstn_skipn 200 (map hypo ps)) in Nhs.
      clear - Nhs. revert Nhs. generalize (firstn 200 (map hypo ps)), (skipn 200 (map hypo ps)). intros x y N.
      induction x as [|e x IH]; [constructor|]. inversion N; subst. constructor; [intros K; apply H1; apply in_or_app; left; exact K|apply IH; assumption].
    + intros h Hh. apply Ihs. rewrite <- (firstn_skipn 200 (map hypo ps)). apply in_or_app. left. exact Hh.
    + intros [K|K]; [discriminate|]. intros h H1 H2.
      assert (Le : (length (map hypo ps) <= 200)%nat). { apply K; [exact Nhs|]. intros h' Hh'. apply Ihs. exact Hh'. }
      rewrite firstn_all2 by exact Le. apply Ihs. auto.
  - destruct (lex_enumerates nR nC true Hn) as (outs & Hc & Ha & Hi & Hp).
    replace (if Nat.eqb nR nC then true else true) with true in * by (destruct (Nat.eqb nR nC); reflexivity).
    cbv zeta in *. cbn iota in *.
    assert (N : NoDup (map (firstn nR) outs)) by (apply ascending_nodup; exact Ha).
    assert (Le : (length outs < S (S nC ^ nR))%nat).
    { assert (K := NoDup_incl_length N (l' := henum nC nR (seq 0 nC))).
      rewrite map_length in K.
      assert (K2 := henum_length nC nR (seq 0 nC) (seq_NoDup _ _)). rewrite seq_length in K2.
      assert (K3 : incl (map (firstn nR) outs) (henum nC nR (seq 0 nC))).
      { intros h Hh. apply henum_in; [apply seq_not|]. apply assoc_association. apply Hi. exact Hh. }
      specialize (K K3). lia. }
    exists (map (firstn nR) outs). split; [|split; [|split; [exact N|split]]].
    + rewrite (lex_loop_ok L pd cl il jl outs _ 0 _ (repeat 0%nat (nR + nC))); [|intros o Ho; apply Hp; exact Ho|exact Hc|exact Le].
      f_equal. rewrite map_map. reflexivity.
    + intros s. destruct (lex_run outs (lex_new nR nC true) 0 (S (S nC ^ nR)) (repeat 0%nat (nR + nC)) 0 s) as ((v & s') & Er & R); [intros o Ho; apply Hp; exact Ho|exact Hc|exact Le|].
      assert (Ev : v = qsum (map hw (map (firstn nR) outs))). { destruct R as (R1 & _). cbn [fst] in R1. rewrite R1. ring. }
      rewrite Ev in *. exists s'. split; [exact Er|exact R].
    + intros h Hh. apply Hi. exact Hh.
    + intros _ h Hh _. apply Hi. exact Hh.
Qed.
End Block.
