(** Blocks, missing map entries, the motion terms. *)
From Coq Require Import Reals ZArith List Bool Arith Lia Lra Permutation Sorted Relations.
From Coquelicot Require Import Coquelicot.
From Verif Require Import Base ListUtil PartitionModel PartitionSpec PartitionProofs SensorModel SensorDeriv OdometryModel OdometryProofs2 CeresGradModel CeresGradSpec CeresGradProofs CeresGradProofs2.
Import ListNotations.
Local Open Scope R_scope.

(** ** Blocks *)
Lemma entry_some : forall lik pd clu da thr fv m n, g_entry lik pd clu da thr fv m n <> None -> da n = (-1)%Z \/ da n = Z.of_nat m.
Proof.
  intros lik pd clu da thr fv m n H. unfold g_entry in H. destruct (barred da m n) eqn:E; [congruence|]. unfold barred in E.
  apply andb_false_iff in E. rewrite !negb_false_iff, !Z.eqb_eq in E. tauto.
Qed.

Theorem settled_free : forall lik pd clu da thr fv nZ bl, blocks_of (g_entry lik pd clu da thr fv) (length fv) nZ bl -> settled da nZ -> free da bl.
Proof.
  intros lik pd clu da thr fv nZ bl (_ & _ & HC) Hs b m n Hb Hf Hm Hn.
  set (ent := g_entry lik pd clu da thr fv) in *.
  assert (K := HC b (Row m) (Col n) Hb Hf Hm Hn).
  assert (L : forall i j, link (fin ent) 0 (length fv) nZ (Row i) (Col j) -> (j < nZ)%nat /\ (da j = (-1)%Z \/ da j = Z.of_nat i)).
  { intros i j H. inversion H as [i' j' H1 H2 H3]; subst. split; [assumption|]. apply (entry_some lik pd clu da thr fv). unfold fin in *.
    fold ent. destruct (ent i j); [discriminate|lia]. }
  destruct Hs as [Hs|Hs].
  - assert (G : forall u v, connected (fin ent) 0 (length fv) nZ u v -> u = v \/
      ((match u with Row _ => True | Col j => da j = (-1)%Z end) /\ (match v with Row _ => True | Col j => da j = (-1)%Z end))).
    { intros u v H. induction H as [u v H|u|u v H IH|u v w H1 IH1 H2 IH2].
      - right. inversion H as [i j H1 H2 H3]; subst. split; [exact I|]. destruct (L i j H) as (Lj & Lz). destruct (Hs j Lj); destruct Lz; lia.
      - left. reflexivity.
      - destruct IH as [->|[A B]]; auto.
      - destruct IH1 as [->|[A B]]; [exact IH2|]. destruct IH2 as [<-|[C D]]; auto. }
    destruct (G _ _ K) as [E|[_ E]]; [discriminate|left; exact E].
  - assert (G : forall u v, connected (fin ent) 0 (length fv) nZ u v ->
      (match u with Row i => Z.of_nat i | Col j => da j end) = (match v with Row i => Z.of_nat i | Col j => da j end)).
    { intros u v H. induction H as [u v H|u|u v H IH|u v w H1 IH1 H2 IH2]; try congruence.
      inversion H as [i j H1 H2 H3]; subst. destruct (L i j H) as (Lj & [E|E]); [exfalso; exact (Hs j Lj E)|congruence]. }
    right. symmetry. exact (G _ _ K).
Qed.

(** What CostMatrixGeneral::partition and getPartition deliver are such blocks. *)
Theorem blocks_exist : forall ent nR nC cc ncc, (nR + nC <> 0)%nat -> components_of (fin ent) 0 nR nC cc ncc ->
  exists g bl, partition cc ncc (cg_new (fin ent) nR nC 0) = Val (g, length bl) /\ blocks_of ent nR nC bl /\
  forall p b, nth_error bl p = Some b -> exists g' a, getPartition g p true = Val (g', Got (Some a) (b_rows b) (b_cols b) (b_flag b)).
Proof.
  intros ent nR nC cc ncc Hsz Hcc. destruct (partition_ok (fin ent) 0 nR nC cc ncc Hcc Hsz) as (g & np & b & flag & E & _ & _ & _ & _ & HG & HR & HCo & _ & _ & _ & HI).
  exists g, (map (fun p => (fst (b p), snd (b p), flag p)) (seq 0 np)). rewrite map_length, seq_length. split; [exact E|]. split.
  - split; [|split].
    + rewrite flat_map_concat_map, map_map, <- flat_map_concat_map. exact HR.
    + rewrite flat_map_concat_map, map_map, <- flat_map_concat_map. exact HCo.
    + intros x u v Hx Hf Hu Hv. apply in_map_iff in Hx. destruct Hx as (p & <- & Hp). apply in_seq in Hp. cbn [b_rows b_cols b_flag fst snd] in *.
      rewrite <- surjective_pairing in Hu, Hv. apply (HI p u v); auto; [lia|].
      destruct v as [i|j]; cbn [inside in_range] in *.
      * assert (K : In i (seq 0 nR)) by (eapply Permutation_in; [exact HR|apply in_flat_map; exists p; split; [apply in_seq; lia|exact Hv]]). apply in_seq in K. lia.
      * assert (K : In j (seq 0 nC)) by (eapply Permutation_in; [exact HCo|apply in_flat_map; exists p; split; [apply in_seq; lia|exact Hv]]). apply in_seq in K. lia.
  - intros p x Hx. rewrite nth_error_map in Hx. destruct (nth_error (seq 0 np) p) as [q|] eqn:Eq; [|discriminate]. injection Hx as <-.
    assert (p < np)%nat by (rewrite <- (seq_length np 0); apply nth_error_Some; congruence).
    assert (q = p) by (rewrite (nth_error_nth' _ 0%nat) in Eq by (rewrite seq_length; assumption); rewrite seq_nth in Eq by assumption; injection Eq as <-; reflexivity).
    subst q. apply HG. assumption.
Qed.

(** ** Evaluation returns *)
Lemma others_val : forall ent il jl lm ps L S, (forall m n, In m il -> In n jl -> lm m n = Some (L m n)) -> (forall m n, In m il -> In n jl -> ps m n = Some (S m n)) ->
  forall first outs k corr s, exists r, others ent lm ps il jl k first outs corr s = Val r.
Proof.
  intros ent il jl lm ps L S Hl Hp first. induction outs as [|a outs IH]; intros k corr s; destruct k as [|k]; cbn [others]; eauto.
  destruct (Rlt_dec _ _); [eauto|].
  destruct (rows_diff il jl lm ps L S Hl Hp a first (g_weight ent il jl a first) s) as (s1 & E & _). rewrite E. cbn [obind]. apply IH.
Qed.

Theorem scan_returns : forall lik lmg psg pd clu da thr M nZ integral bl kb,
  let fv := g_fov pd M in
  blocks_of (g_entry lik pd clu da thr fv) (length fv) nZ bl -> settled da nZ -> length kb = length bl -> (forall k, In k kb -> k <> []) ->
  exists r, g_scan lik lmg psg pd clu da thr M nZ integral bl kb = Val r.
Proof.
  intros lik lmg psg pd clu da thr M nZ integral bl kb fv HB Hs HL Hk. assert (HF := settled_free _ _ _ _ _ _ _ _ HB Hs).
  unfold g_scan. fold fv. destruct (Nat.eqb (length fv) 0); [eauto|].
  assert (G : forall bl kb l lg pg, free da bl -> length kb = length bl -> (forall k, In k kb -> k <> []) ->
    exists r, g_blocks lik lmg psg pd clu da thr fv bl kb l lg pg = Val r).
  { clear. induction bl as [|[[il jl] flag] bl IH]; intros kb l lg pg HF HL Hk; [cbn [g_blocks]; eauto|].
    destruct kb as [|k kb]; [discriminate|]. cbn [g_blocks].
    assert (HF' : free da bl) by (intros b m n Hb; apply (HF b); right; exact Hb).
    assert (Hk' : forall k, In k kb -> k <> []) by (intros; apply Hk; right; assumption).
    assert (HL' : length kb = length bl) by (cbn in HL; lia).
    destruct flag; [|apply IH; assumption].
    assert (Hb : forall m n, In m il -> In n jl -> barred da m n = false).
    { intros m n Hm Hn. apply not_barred. apply (HF (il, jl, true)); auto. left. reflexivity. }
    assert (Hlm : forall m n, In m il -> In n jl -> g_lm lmg da fv m n = Some (lmg (nth m fv 0%nat) n)) by (intros; unfold g_lm; rewrite Hb by assumption; reflexivity).
    assert (Hps : forall m n, In m il -> In n jl -> g_ps psg da fv m n = Some (psg (nth m fv 0%nat) n)) by (intros; unfold g_ps; rewrite Hb by assumption; reflexivity).
    unfold g_block. destruct k as [|first rest]; [exfalso; apply (Hk []); [left|]; reflexivity|].
    match goal with |- context [others ?e ?a ?b ?c ?d ?k ?f ?o ?x ?s] => destruct (others_val e c d a b _ _ Hlm Hps f o k x s) as ([corr s0] & E) end.
    rewrite E. cbn [obind]. destruct (Rlt_dec _ _).
    - match goal with |- context [rows (row_first _ _ _ _ ?f) ?s _] => destruct (rows_first il jl _ _ _ _ Hlm Hps f s) as (s2 & E2 & _) end.
      rewrite E2. cbn [obind]. apply IH; assumption.
    - cbn [obind]. apply IH; assumption. }
  destruct (G bl kb 0 (fun _ _ => 0) (fun _ => 0) HF HL Hk) as ([[l lg] pg] & E). rewrite E. cbn [obind]. eauto.
Qed.

(** ** A pair without gradient ends the program *)
Lemma row_two : forall lm ps il jl a first w s r, (exists s', row_diff lm ps il jl a first w s r = Val s') \/ row_diff lm ps il jl a first w s r = UB Aborted.
Proof.
  intros. unfold row_diff. destruct (_ =? _)%nat; [eauto|]. unfold g_at.
  destruct (_ <? _)%nat; destruct (_ <? _)%nat; repeat (match goal with |- context [of_option _ ?x] => destruct x; cbn [of_option obind] end); cbn [obind]; eauto.
Qed.
Lemma rows_two : forall f n s, (forall s r, (exists s', f s r = Val s') \/ f s r = UB Aborted) -> (exists s', rows f s n = Val s') \/ rows f s n = UB Aborted.
Proof.
  intros f n s H. unfold rows. induction n as [|n IH]; [left; exists s; reflexivity|]. rewrite seq_S, fold_left_app. cbn [fold_left].
  destruct IH as [(s' & E)|E]; rewrite E; cbn [obind Nat.add]; [apply H|right; reflexivity].
Qed.

Lemma rows_abort : forall f n s r, (r < n)%nat -> (forall s r, (exists s', f s r = Val s') \/ f s r = UB Aborted) ->
  (forall s, f s r = UB Aborted) -> rows f s n = UB Aborted.
Proof.
  intros f n s r Hr H2 H. unfold rows. induction n as [|n IH]; [lia|]. rewrite seq_S, fold_left_app. cbn [fold_left Nat.add].
  destruct (Nat.eq_dec r n) as [->|N].
  - destruct (rows_two f n s H2) as [(s' & E)|E]; unfold rows in E; rewrite E; cbn [obind]; [apply H|reflexivity].
  - rewrite IH by lia. reflexivity.
Qed.

Lemma others_abort : forall ent lm ps il jl first outs k corr s a r, (length outs <= k)%nat ->
  StronglySorted (fun a b => g_score ent il jl 0 b <= g_score ent il jl 0 a) outs -> In a outs -> BIG_NEG <= g_score ent il jl 0 a ->
  (r < length il)%nat -> nth r a 0%nat <> nth r first 0%nat -> (nth r a 0 < length jl)%nat -> lm (nth r il 0%nat) (nth (nth r a 0%nat) jl 0%nat) = None ->
  others ent lm ps il jl k first outs corr s = UB Aborted.
Proof.
  intros ent lm ps il jl first. induction outs as [|b outs IH]; intros k corr s a r Hk HS Ha Hsc Hr Hne Hc Hn; [destruct Ha|].
  destruct k as [|k]; [cbn in Hk; lia|]. cbn [others]. apply StronglySorted_inv in HS. destruct HS as (HS & HF).
  destruct (Rlt_dec (g_score ent il jl 0 b) BIG_NEG) as [B|B].
  - exfalso. destruct Ha as [->|Ha]; [lra|]. eapply Forall_forall in HF; [|exact Ha]. lra.
  - destruct Ha as [->|Ha].
    + rewrite (rows_abort _ _ _ r Hr); [reflexivity|intros; apply row_two|]. intros s'. unfold row_diff.
      destruct (Nat.eqb_spec (nth r a 0%nat) (nth r first 0%nat)); [congruence|]. unfold g_at at 1.
      destruct (Nat.ltb_spec (nth r a 0%nat) (length jl)); [|lia]. rewrite Hn. reflexivity.
    + destruct (rows_two (row_diff lm ps il jl b first (g_weight ent il jl b first)) (length il) s) as [(s' & E)|E]; [intros; apply row_two| |].
      * rewrite E. cbn [obind]. apply IH with (a := a) (r := r); auto. cbn in Hk. lia.
      * rewrite E. reflexivity.
Qed.

(** ** The motion terms *)
Section Motion.
Variable n : nat.
Variable f : R -> nat -> R * vec.
Variable v : nat -> vec.
Variable nT : nat.
Hypothesis HT : (2 <= nT)%nat.
Hypothesis Hv0 : forall i, v 0%nat i = 0.
Hypothesis Hf : forall k, (1 <= k < nT)%nat -> is_derive (fun t => fst (f t k)) 0 (dot n (snd (f 0 k)) (fun i => v k i - v (k - 1)%nat i)).

Theorem motion_gradient : is_derive (fun t => fst (motion_grad (f t) nT)) 0
  (rsum (fun j => dot n (snd (motion_grad (f 0) nT) j) (v (S j))) (seq 0 (nT - 1))).
Proof.
  unfold motion_grad. set (step := fun t (s : R * (nat -> vec)) k => (fst s + fst (f t k), fun j => if (j =? k - 1)%nat then fun d => snd s j d + snd (f t k) d
               else if (j =? k - 2)%nat then fun d => snd s j d - snd (f t k) d else snd s j)).
  set (ini := fun t => (fst (f t 1%nat), fun j => if (j =? 0)%nat then snd (f t 1%nat) else fun _ : nat => 0)).
  change (is_derive (fun t => fst (fold_left (step t) (seq 2 (nT - 2)) (ini t))) 0
    (rsum (fun j => dot n (snd (fold_left (step 0) (seq 2 (nT - 2)) (ini 0)) j) (v (S j))) (seq 0 (nT - 1)))).
  assert (G : forall m, (m + 2 <= nT)%nat -> is_derive (fun t => fst (fold_left (step t) (seq 2 m) (ini t))) 0
    (rsum (fun j => dot n (snd (fold_left (step 0) (seq 2 m) (ini 0)) j) (v (S j))) (seq 0 (S m))) /\
    forall j d, (S m <= j)%nat -> snd (fold_left (step 0) (seq 2 m) (ini 0)) j d = 0).
  { induction m as [|m IH]; intros Hm.
    - split.
      + cbn [seq fold_left fst snd ini rsum fold_right Nat.eqb]. evar_last; [apply Hf; lia|].
        match goal with |- @eq _ ?l ?r => change (@eq R l r) end. rewrite Rplus_0_r. apply dot_ext; [reflexivity|]. intros i _. cbn [Nat.sub]. rewrite Hv0. ring.
      + intros j d Hj. cbn [seq fold_left snd ini]. destruct (Nat.eqb_spec j 0); [lia|reflexivity].
    - destruct IH as (I1 & I2); [lia|]. set (s := fun t => fold_left (step t) (seq 2 m) (ini t)) in *.
      assert (E : forall t, fold_left (step t) (seq 2 (S m)) (ini t) = step t (s t) (2 + m)%nat).
      { intros t. rewrite seq_S, fold_left_app. reflexivity. }
      split.
      + apply (is_derive_ext (fun t => fst (s t) + fst (f t (2 + m)%nat))). { intros t. rewrite E. reflexivity. }
        evar_last; [apply der_plus; [exact I1|apply Hf; lia]|].
        match goal with |- @eq _ ?l ?r => change (@eq R l r) end. rewrite E.
        set (g := snd (f 0 (2 + m)%nat)).
        rewrite (rsum_ext _ (fun j => dot n (snd (step 0 (s 0) (2 + m)%nat) j) (v (S j)))
          (fun j => dot n (snd (s 0) j) (v (S j)) + ((if (S m =? j)%nat then dot n g (v (S j)) else 0) + (if (m =? j)%nat then - dot n g (v (S j)) else 0)))).
        2:{ intros j Hj. apply in_seq in Hj. cbn [step snd]. replace (2 + m - 1)%nat with (S m) by lia. replace (2 + m - 2)%nat with m by lia.
            rewrite (Nat.eqb_sym j (S m)), (Nat.eqb_sym j m). destruct (Nat.eqb_spec (S m) j).
            - destruct (Nat.eqb_spec m j); [lia|]. fold g. rewrite dot_add. ring.
            - destruct (Nat.eqb_spec m j); fold g; [|ring].
              rewrite (dot_ext n _ (v (S j)) (fun d => snd (s 0) j d + (-1) * g d) (v (S j))) by (intros; try reflexivity; ring). rewrite dot_add, dot_scale. ring. }
        rewrite rsum_plus, rsum_plus. rewrite !rsum_pick by lia.
        rewrite (seq_S (S m)), rsum_app. change (rsum ?f [(0 + S m)%nat]) with (f (S m) + 0). cbv beta.
        rewrite (dot_ext n (snd (s 0) (S m)) (v (S (S m))) (fun _ => 0) (v (S (S m)))) by (intros; try reflexivity; apply I2; lia). rewrite dot_0.
        replace (2 + m)%nat with (S (S m)) by lia. replace (S (S m) - 1)%nat with (S m) by lia.
        rewrite (dot_comm n g (fun i => v (S (S m)) i - v (S m) i)).
        rewrite (dot_ext n (fun i => v (S (S m)) i - v (S m) i) g (fun i => v (S (S m)) i + (-1) * v (S m) i) g) by (intros; try reflexivity; ring).
        rewrite dot_add, dot_scale, !(dot_comm n g). change (fold_left (step 0) (seq 2 m) (ini 0)) with (s 0). ring.
      + intros j d Hj. rewrite E. cbn [step snd]. destruct (Nat.eqb_spec j (2 + m - 1)); [lia|]. destruct (Nat.eqb_spec j (2 + m - 2)); [lia|]. apply I2. lia. }
  replace (nT - 1)%nat with (S (nT - 2)) by lia. apply G. lia.
Qed.
End Motion.

(** Prediction by adding the input: position on a line, or any process x + u. *)
Theorem motion_shift : forall n Sinv det (u : nat -> vec) (x : R -> nat -> vec) (v : nat -> vec) nT, (2 <= nT)%nat ->
  (forall i j, (i < n)%nat -> (j < n)%nat -> Sinv i j = Sinv j i) ->
  (forall i, v 0%nat i = 0) -> (forall k i, (i < n)%nat -> is_derive (fun t => x t k i) 0 (v k i)) ->
  let f t k := log_likelihood_grad n Sinv det (fun i => x t (k - 1)%nat i + u k i) (x t k) in
  is_derive (fun t => fst (motion_grad (f t) nT)) 0 (rsum (fun j => dot n (snd (motion_grad (f 0) nT) j) (v (S j))) (seq 0 (nT - 1))).
Proof.
  intros n Sinv det u x v nT HT HS H0 Hx f. apply motion_gradient; [exact HT|exact H0|].
  intros k Hk. unfold f.
  assert (K := grad_log n Sinv det (fun _ => 0) (fun t i => x t k i - (x t (k - 1)%nat i + u k i)) 0 (fun i => v k i - v (k - 1)%nat i) HS).
  unfold log_likelihood_grad in *. cbn [fst snd] in *.
  assert (E : forall t i, x t k i - (x t (k - 1)%nat i + u k i) - 0 = x t k i - (x t (k - 1)%nat i + u k i)) by (intros; ring).
  assert (M : forall t, maha_n n Sinv (fun i => x t k i - (x t (k - 1)%nat i + u k i) - 0) = maha_n n Sinv (fun i => x t k i - (x t (k - 1)%nat i + u k i))).
  { intros t. unfold maha_n. apply dot_ext; intros i _; [apply E|]. unfold mapp. apply dot_ext; [reflexivity|]. intros j _. apply E. }
  apply (is_derive_ext (fun t => log_gauss n det (maha_n n Sinv (fun i => x t k i - (x t (k - 1)%nat i + u k i) - 0)))). { intros t. rewrite M. reflexivity. }
  evar_last; [apply K|].
  - intros i Hi. apply der_minus; [apply Hx; exact Hi|]. evar_last; [apply der_plus; [apply Hx; exact Hi|apply der_cst]|].
    match goal with |- @eq _ ?l ?r => change (@eq R l r) end. ring.
  - apply dot_ext; [|reflexivity]. intros i _. f_equal. unfold mapp. apply dot_ext; [reflexivity|]. intros j _. apply E.
Qed.

(** ** The gradient of one pair *)
(** jacobian^T * n_error with n_error = Sx_inv_ * ( z - expected ). *)
Theorem pair_gradient : forall n D Sinv det z (h : R -> vec) (J : mx) (w : vec), (forall i j, (i < n)%nat -> (j < n)%nat -> Sinv i j = Sinv j i) ->
  (forall i, (i < n)%nat -> is_derive (fun t => h t i) 0 (dot D (J i) w)) ->
  is_derive (fun t => fst (eval_log n Sinv det (h t) z)) 0 (dot D (pair_grad n J (snd (eval_log n Sinv det (h 0) z))) w).
Proof.
  intros n D Sinv det z h J w HS Hh. unfold eval_log, pair_grad. cbn [fst snd].
  change (is_derive (fun t => log_gauss n det (maha_n n Sinv (fun i => z i - h t i))) 0
    (dot D (mapp n (tr J) (mapp n Sinv (fun i => z i - h 0 i))) w)). unfold log_gauss.
  evar_last; [apply der_shift; apply der_mult; [apply der_cst|apply (der_maha n Sinv (fun t i => z i - h t i) 0 (fun i => - dot D (J i) w) HS)]|].
  - intros i Hi. evar_last; [apply der_minus; [apply der_cst|apply Hh; exact Hi]|]. match goal with |- @eq _ ?l ?r => change (@eq R l r) end. ring.
  - match goal with |- @eq _ ?l ?r => change (@eq R l r) end.
    set (e := mapp n Sinv (fun i => z i - h 0 i)).
    rewrite (dot_comm n e), dot_opp, (dot_comm n _ e), dot_swap. unfold mapp at 1, tr.
    rewrite (dot_ext D (fun i => dot n (fun j => J j i) e) w (fun j => dot n e (fun i => J i j)) w) by (intros; try reflexivity; apply dot_comm).
    field.
Qed.
