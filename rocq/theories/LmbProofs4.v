(** The map update: existence probabilities, weight factor, birth candidates. *)
From Coq Require Import ZArith List Bool Arith QArith Qcanon Lia Permutation Sorted Relations.
From Verif Require Import Base ListUtil QcLra Loop PermanentSpec PermanentProofs EnumLemmas AssignSpec PartitionModel PartitionSpec PartitionProofs
  LexModel LexSpec LexProofs2 RfsModel RfsSpec RfsProofs RfsProofs2 RfsProofs3 RfsProofs4 LmbModel LmbSpec LmbEvents LmbProofs LmbProofs2 LmbProofs3.
Import ListNotations.
Local Open Scope Qc_scope.

Section Final.
Context {G : Type}.
Variable probDet : G -> Qc.
Variable correct : nat -> G -> option (G * Qc).
Variable clutter : nat -> Qc.
Variable thr : Qc.
Variables maxPE minPE expected : Qc.
Variable nZ : nat.
Variable kbest : nat -> nat -> (nat -> nat -> Qc) -> list (list nat).
Hypothesis Hthr : 0 <= thr.
Hypothesis Hclut : forall z, (z < nZ)%nat -> 0 < clutter z.
Hypothesis Hlik : forall z g g' l, correct z g = Some (g', l) -> 0 <= l.
Hypothesis Hdet : forall g, 0 <= probDet g <= 1.
Hypothesis Hk : kbest_contract kbest.
Notation pd_of := (LmbSpec.pd_of probDet).
Notation pair_weight := (LmbSpec.pair_weight probDet correct clutter thr).
Notation table := (LmbSpec.table probDet correct clutter thr).
Notation visible := (LmbSpec.visible probDet).
Notation detect := (LmbSpec.detect probDet).
Notation rest := (LmbEvents.rest probDet).
Notation missed_of := (LmbEvents.missed_of probDet).

Lemma clutter_ok : forall vs : list (view G), no_clutter correct clutter nZ vs = false.
Proof using Hclut.
  intros vs. unfold no_clutter. apply not_true_is_false. intros H. apply existsb_exists in H. destruct H as (z & Hz & H).
  apply in_seq in Hz. destruct (Qc_eq_dec (clutter z) 0) as [E|]; [|discriminate].
  assert (K := Hclut z ltac:(lia)). rewrite E in K. revert K. apply Qcle_not_lt, Qcle_refl.
Qed.

Lemma few_ext : forall k L L' pd pd' cl il jl, (forall i j, L i j = L' i j) -> (forall i, pd i = pd' i) ->
  few k L pd cl il jl -> few k L' pd' cl il jl.
Proof using.
  intros k L L' pd pd' cl il jl E1 E2 H hs N Hh. apply H; [exact N|]. intros h Hin. destruct (Hh h Hin) as [A B].
  split; [exact A|]. intros K. apply B. rewrite <- K. unfold hyp_weight. f_equal. f_equal.
  apply map_ext. intros m. rewrite E1, E2. reflexivity.
Qed.

Definition tracks_ok (ts : list (track G)) : Prop := forall t, In t ts -> fair t /\ pd_of t * tP t < 1.

Lemma associate_zero : forall (vs : list (view G)) a z, (forall i, (i < length vs)%nat -> mw a i z = 0) -> association_p vs a z = 0.
Proof using.
  intros vs a z H. unfold association_p. rewrite (fold_plus0 (fun i => mw a i z)). apply qsum_zero.
  intros i Hi. apply in_seq in Hi. apply H. lia.
Qed.
Lemma associate_nonneg : forall (vs : list (view G)) a z, (forall i, (i < length vs)%nat -> 0 <= mw a i z) -> 0 <= association_p vs a z.
Proof using.
  intros vs a z H. unfold association_p. rewrite (fold_plus0 (fun i => mw a i z)). apply qsum_map_nonneg.
  intros i Hi. apply in_seq in Hi. apply H. lia.
Qed.

Lemma births_ok : forall (vs : list (view G)) a,
  (forall z p, In (z, p) (births maxPE minPE nZ vs a) -> (z < nZ)%nat /\ minPE < p <= maxPE /\ p <= 1 - association_p vs a z) /\
  (forall z, (z < nZ)%nat -> association_p vs a z = 0 -> minPE < maxPE <= 1 -> In (z, maxPE) (births maxPE minPE nZ vs a)) /\
  NoDup (map fst (births maxPE minPE nZ vs a)).
Proof using.
  intros vs a. unfold births. split; [|split].
  - intros z p H. apply in_flat_map in H. destruct H as (z' & Hz & H). apply in_seq in Hz.
    destruct (Qcltb minPE _) eqn:E; [|destruct H]. destruct H as [H|[]]. injection H as <- <-. apply Qcltb_true in E.
    split; [lia|]. unfold qmin2 in *. destruct (Qcltb (1 - association_p vs a z') maxPE) eqn:E2.
    + apply Qcltb_true in E2. split; [split; [exact E|qclra]|apply Qcle_refl].
    + split; [split; [exact E|apply Qcle_refl]|]. apply Qcnot_lt_le. intros K. apply Qcltb_true in K. congruence.
  - intros z Hz Ha [H1 H2]. apply in_flat_map. exists z. split; [apply in_seq; lia|]. rewrite Ha.
    assert (E : qmin2 maxPE (1 - 0) = maxPE).
    { unfold qmin2. destruct (Qcltb (1 - 0) maxPE) eqn:E; [|reflexivity]. apply Qcltb_true in E. exfalso.
      revert E. apply Qcle_not_lt. qclra. }
    rewrite E. apply Qcltb_true in H1. rewrite H1. left. reflexivity.
  - assert (K : forall n s, NoDup (map fst (flat_map (fun z => let p := qmin2 maxPE (1 - association_p vs a z) in
                     if Qcltb minPE p then [(z, p)] else []) (seq s n))) /\
      forall z, In z (map fst (flat_map (fun z => let p := qmin2 maxPE (1 - association_p vs a z) in
                     if Qcltb minPE p then [(z, p)] else []) (seq s n))) -> (s <= z)%nat).
    { induction n as [|n IH]; intros s; cbn [seq flat_map]; [split; [constructor|intros z []]|].
      destruct (IH (S s)) as [I1 I2]. cbn zeta. destruct (Qcltb minPE _); cbn [app map].
      - cbn [fst]. split; [constructor; [intros K; apply I2 in K; lia|exact I1]|]. intros z [<-|K]; [lia|]. apply I2 in K. lia.
      - split; [exact I1|]. intros z K. apply I2 in K. lia. }
    apply K.
Qed.

Lemma update_unfold : forall cc ncc (ts : list (track G)), ts <> [] ->
  lmb_update probDet correct clutter thr maxPE minPE expected nZ kbest cc ncc ts =
    (let vs := in_view probDet 0 ts in
    if no_clutter correct clutter nZ vs then UB DivByZero
    else
      let* r := partition cc ncc (cg_new (sig (lmbL correct clutter thr vs)) (length vs) nZ 0%Z) in
      let* s := lmb_blocks correct clutter thr nZ kbest vs (fst r) (seq 0 (snd r)) (Acc 0%Qc (fun _ => 0%Qc) (fun _ _ => 0%Qc), ts) 1%Qc in
      Val (LmbOut (snd (fst s)) (births maxPE minPE nZ vs (fst (fst s))) (snd s))).
Proof using. intros cc ncc ts H. destruct ts; [congruence|reflexivity]. Qed.

Theorem lmb_ok : forall cc ncc ts, (0 < nZ)%nat -> tracks_ok ts ->
  components_of (support (table (visible ts))) 0 (length (visible ts)) nZ cc ncc ->
  manageable probDet correct clutter thr ts nZ \/ (forall t, In t ts -> pd_of t < 1) ->
  exists out, lmb_update probDet correct clutter thr maxPE minPE expected nZ kbest cc ncc ts = Val out /\
  length (lTracks out) = length ts /\
  (forall m t, nth_error ts m = Some t -> exists t', nth_error (lTracks out) m = Some t' /\ (fair t' /\ (qsum (map fst (tG t)) = 1 -> qsum (map fst (tG t')) = 1)) /\
     (pd_of t = 0 -> t' = t) /\
     (forall w g, In (w, g) (tG t') -> 0 < w -> (exists w0, In (w0, g) (tG t)) \/
        exists z g0 l w0, (z < nZ)%nat /\ In (w0, g0) (tG t) /\ correct z g0 = Some (g, l) /\ 0 < pair_weight t z) /\
     (manageable probDet correct clutter thr ts nZ -> posterior probDet correct clutter thr ts nZ (alive m) (tP t'))) /\
  0 < lFactor out /\
  (manageable probDet correct clutter thr ts nZ -> evidence probDet correct clutter thr ts nZ (lFactor out)) /\
  (ts <> [] -> (forall z p, In (z, p) (lBirths out) -> (z < nZ)%nat /\ minPE < p <= maxPE /\ p <= 1) /\
     NoDup (map fst (lBirths out)) /\
     (forall z, (z < nZ)%nat -> (forall t, In t ts -> pair_weight t z = 0) -> minPE < maxPE <= 1 -> In (z, maxPE) (lBirths out))).
Proof using Hthr Hclut Hlik Hdet Hk.
  intros cc ncc ts HZ Hgood Hcc Hcase.
  assert (Hdec : ts = [] \/ ts <> []) by (destruct ts; [left; reflexivity|right; discriminate]).
  destruct Hdec as [->|Hne].
  { eexists. split; [reflexivity|]. cbn [lTracks lFactor length]. split; [reflexivity|].
    split; [intros m t H; destruct m; discriminate|]. split; [qclra|]. split; [|congruence].
    intros _. apply evidence_iff. cbn [length seq asum]. clear. symmetry.
    induction (seq 0 nZ) as [|x l IH]; cbn [map]; rewrite ?qprod_nil, ?qprod_cons; [reflexivity|].
    rewrite IH. ring. }
  set (vs := in_view probDet 0 ts). set (L := lmbL correct clutter thr vs).
  assert (Lv : length vs = length (visible ts)) by apply len_vs.
  assert (LT : forall i z, L i z = table (visible ts) i z) by (intros; apply L_table).
  assert (PD : forall i, missed_pd vs i = detect (visible ts) i) by (intros; apply pd_detect).
  assert (HF0 : forall v, In v vs -> fine v) by (eapply vs_fine; eauto).
  assert (HL : forall i z, 0 <= L i z) by (intros; apply L_nonneg; exact Hthr).
  assert (Hq := q_pos vs HF0). assert (Hms := miss_nonneg vs HF0).
  assert (Hcc' : components_of (support L) 0 (length vs) nZ cc ncc).
  { rewrite Lv. eapply components_ext; [|exact Hcc]. intros i j. apply sig_support. }
  destruct (partition_ok (support L) 0%Z (length vs) nZ cc ncc Hcc' ltac:(lia)) as
    (g & np & b & flag & Epart & Hnp & _ & _ & HS & HG & HR & HC & HF & _ & HI & HCo).
  assert (Rr : forall p i, (p < np)%nat -> In i (fst (b p)) -> (i < length vs)%nat) by (eapply row_range; eauto).
  assert (Rc : forall p z, (p < np)%nat -> In z (snd (b p)) -> (z < nZ)%nat) by (eapply col_range; eauto).
  assert (Nr : forall p, (p < np)%nat -> NoDup (fst (b p))) by (eapply part_rows; eauto).
  assert (Nc : forall p, (p < np)%nat -> NoDup (snd (b p))) by (eapply part_cols; eauto).
  assert (NR : NoDup (flat_map (fun p => fst (b p)) (seq 0 np))).
  { eapply Permutation_NoDup; [apply Permutation_sym; exact HR|apply seq_NoDup]. }
  assert (Hdisj : forall p p' i, (p < np)%nat -> (p' < np)%nat -> In i (fst (b p)) -> In i (fst (b p')) -> p = p').
  { intros p p' i Hp Hp' A B. apply (@uniq (fun p => fst (b p)) (seq 0 np) p p' i); auto using seq_NoDup; apply in_seq; lia. }
  assert (Hown : forall i, (i < length vs)%nat -> exists p, (p < np)%nat /\ In i (fst (b p))).
  { intros i Hi. assert (K : In i (flat_map (fun p => fst (b p)) (seq 0 np))).
    { eapply Permutation_in; [apply Permutation_sym; exact HR|apply in_seq; lia]. }
    apply in_flat_map in K. destruct K as (p & Hp & K). apply in_seq in Hp. exists p. split; [lia|exact K]. }
  assert (Hcomp : forall p, (p < np)%nat -> flag p = true ->
    component (table (visible ts)) (length (visible ts)) nZ (fst (b p)) (snd (b p))).
  { intros p Hp Ef. split; [auto|]. split; [auto|]. split.
    - apply HF in Ef; [|exact Hp]. destruct Ef as (i & j & Hi & Hj & H0). exists i, j. split; [exact Hi|]. split; [exact Hj|].
      rewrite <- LT. revert H0. apply support_pos.
    - split; [intros [i|j] Hu; cbn in Hu |- *; [rewrite <- Lv; eapply Rr; eauto|eapply Rc; eauto]|]. intros u w Hu Hw. rewrite <- Lv in *.
      assert (X : inside (b p) w <-> connected (support L) 0 (length vs) nZ u w).
      { apply HCo; auto. }
      transitivity (inside (b p) w); [destruct w; reflexivity|]. rewrite X.
      split; apply connected_ext; intros i j; unfold support; rewrite LT; reflexivity. }
  assert (Hsm : manageable probDet correct clutter thr ts nZ -> forall p, (p < np)%nat -> smallb correct clutter thr vs (flag p) (fst (b p)) (snd (b p))).
  { intros Hm p Hp. unfold smallb. destruct (flag p) eqn:Ef; [|left; reflexivity]. right.
    destruct (Hm _ _ (Hcomp p Hp Ef)) as [K|K]; [left; exact K|right].
    eapply few_ext; [| |exact K]; intros; symmetry; [apply LT|apply PD]. }
  assert (Hpd1 : (forall t, In t ts -> pd_of t < 1) -> forall i, (i < length vs)%nat -> vPd (at_ vs i) < 1).
  { intros H i Hi. destruct (at_view probDet ts i Hi) as (A & _ & C & _). fold vs in A, C. rewrite C. apply H. eapply nth_error_In; exact A. }
  assert (Hstep : forall p st, (p < np)%nat ->
    (forall i, In i (fst (b p)) -> upe (fst st) i = 0 /\ forall z, mw (fst st) i z = 0) ->
    (forall i, In i (fst (b p)) -> nth_error (snd st) (vI (at_ vs i)) = Some (vT (at_ vs i))) ->
    exists st', lmb_block correct clutter thr nZ kbest vs (negb ((length (fst (b p)) + length (snd (b p)) <=? 8) || negb (flag p)))
       (flag p) (fst (b p)) (snd (b p)) st = Val st' /\
    stepped correct clutter thr nZ vs (smallb correct clutter thr vs (flag p) (fst (b p)) (snd (b p))) (fst (b p)) (snd (b p)) st st').
  { intros p st Hp Z0 T0. apply block_step; auto.
    - intros i j Hi Hj. apply (vI_inj probDet ts i j Hi Hj).
    - intros i. apply Rr. exact Hp.
    - intros i. apply Rc. exact Hp.
    - intros Ef. assert (Hs := proj1 (HF p Hp) Ef). destruct Hs as (i0 & j0 & Hi0 & Hj0 & H0).
      split; [intros K; rewrite K in Hi0; destruct Hi0|]. intros i Hi.
      assert (Hcn : connected (support L) 0 (length vs) nZ (Row i) (Col j0)).
      { apply (HCo p (Row i) (Col j0)); auto. cbn. eapply Rc; eauto. }
      destruct (touched_row _ _ _ _ _ _ Hcn ltac:(discriminate) i (or_introl eq_refl)) as (j' & Hj' & Hp').
      destruct (HI i j' (Rr p i Hp Hi) Hj' Hp') as (p' & Hp2 & _ & A & B).
      assert (p = p') by (eapply Hdisj; eauto). subst p'. exists j'. split; [exact B|]. revert Hp'. apply support_pos.
    - intros Ef. eapply dead_block; eauto.
    - destruct Hcase as [Hm|Hl]; [left; apply Hsm; assumption|right]. intros i Hi. apply Hpd1; [exact Hl|]. eapply Rr; eauto. }
  set (st0 := (Acc 0 (fun _ => 0) (fun _ _ => 0), ts)).
  destruct (blocks_loop probDet correct clutter thr nZ kbest ts b flag np g HS HG Hstep Hdisj Rr (seq 0 np) g st0 1
     (conj eq_refl (conj eq_refl eq_refl)) ltac:(intros p Hp; apply in_seq in Hp; lia) (seq_NoDup _ _))
     as (st' & f & Eb & B1 & B2 & B3 & B4 & B5 & B6).
  { intros p i Hp Hi. split; [reflexivity|]. split; [reflexivity|]. cbn [st0 snd].
    apply (at_track probDet ts). eapply Rr; [|exact Hi]. apply in_seq in Hp. lia. }
  exists (LmbOut (snd st') (births maxPE minPE nZ vs (fst st')) (1 * qprod (map f (seq 0 np)))).
  split.
  { rewrite update_unfold by exact Hne. fold vs. cbn zeta.
    rewrite clutter_ok. change (sig (lmbL correct clutter thr vs)) with (support L). rewrite Epart. cbn [obind fst snd].
    fold st0. fold vs in Eb. rewrite Eb. reflexivity. }
  cbn [lTracks lBirths lFactor]. split; [exact B5|].
  assert (Fac : forall pdf, asum L (fun r => 1 - pdf r) (fun _ => 1) (seq 0 (length vs)) (seq 0 nZ) =
    qprod (map (fun p => asum L (fun r => 1 - pdf r) (fun _ => 1) (fst (b p)) (snd (b p))) (seq 0 np))).
  { intros pdf. symmetry. assert (W := whole_product L pdf (fun _ => 1) HL (length vs) nZ b flag np HR HC HI).
    apply association_sum_iff in W. exact W. }
  set (D := asum (table ts) (rest ts) (fun _ => 1) (seq 0 (length ts)) (seq 0 nZ)).
  assert (Hrest : forall m, shown probDet 0 ts m = false -> (m < length ts)%nat -> rest ts m = 1).
  { intros m Hm Hl. destruct (hidden probDet correct clutter thr Hthr Hdet ts Hgood m Hl Hm) as (t & _ & _ & K & _). exact K. }
  assert (ED : D = asum L (q vs) (fun _ => 1) (seq 0 (length vs)) (seq 0 nZ)).
  { unfold D. apply (whole_part probDet correct clutter thr nZ Hthr Hdet ts Hgood); [exact Hrest|].
    intros i Hi. apply (rest_at probDet ts i Hi). }
  assert (H01 : 0 <= 1) by qclra.
  assert (D0 : 0 < D).
  { rewrite ED. destruct (asum_nonneg L (q vs) (fun _ => 1) HL (fun r => Qclt_le_weak _ _ (Hq r)) (fun _ => H01) (seq 0 (length vs)) (seq 0 nZ)) as [_ K].
    eapply Qclt_le_trans; [|exact K]. rewrite (ones (seq 0 nZ)), Qcmult_1_r. apply qprod_pos.
    intros x Hx. apply in_map_iff in Hx. destruct Hx as (r & <- & _). apply Hq. }
  assert (EB : D = qprod (map (fun p => asum L (q vs) (fun _ => 1) (fst (b p)) (snd (b p))) (seq 0 np))).
  { rewrite ED. apply (Fac (missed_pd vs)). }
  split; [|split; [|split]].
  - intros m t Hm. assert (Hlt : (m < length ts)%nat) by (apply nth_error_Some; congruence).
    destruct (shown probDet 0 ts m) eqn:Es.
    + destruct (shown_at probDet ts m Es) as (i & Hi & Ei). fold vs in Hi, Ei.
      destruct (Hown i Hi) as (p & Hp & Hip).
      destruct (B1 p i ltac:(apply in_seq; lia) Hip) as (t' & T1 & T2 & T4 & T3). fold vs in T1. rewrite Ei in T1.
      exists t'. split; [exact T1|].
      assert (Hti0 : vT (at_ vs i) = t).
      { assert (K := at_track probDet ts i Hi). fold vs in K. rewrite Ei, Hm in K. congruence. }
      split; [fold vs in T2; rewrite Hti0 in T2; exact T2|]. split.
      { intros E. unfold shown in Es. rewrite Nat.sub_0_r, Hm, E in Es. apply Qcltb_true in Es. exfalso. revert Es. apply Qcle_not_lt, Qcle_refl. }
      assert (Hti : vT (at_ vs i) = t).
      { assert (K := at_track probDet ts i Hi). fold vs in K. rewrite Ei, Hm in K. congruence. }
      split.
      { intros w g1 Hwg Hw. destruct (T4 w g1 Hwg Hw) as [K|(z & g2 & l & w0 & K1 & K2 & K3 & K4)].
        - left. fold vs in K. rewrite Hti in K. exact K.
        - right. fold vs in K2, K4. fold L in K4. rewrite Hti in K2. exists z, g2, l, w0. split; [exact K1|]. split; [exact K2|]. split; [exact K3|].
          rewrite LT in K4. unfold LmbSpec.table in K4. rewrite vis_nth in K4. fold vs in K4. apply Nat.ltb_lt in Hi. rewrite Hi, Hti in K4. exact K4. }
      intros Hman. apply (posterior_alive probDet correct clutter thr ts nZ m (tP t') D Hlt eq_refl (Qcpos_neq _ D0)).
      rewrite (whole_part probDet correct clutter thr nZ Hthr Hdet ts Hgood _ (but (q vs) i (miss vs i))).
      * assert (X := Fac (pdx vs i)). fold vs. fold L. assert (X2 := asum_pdx correct clutter thr vs i (seq 0 (length vs)) (seq 0 nZ)). fold L in X2. rewrite <- X2, X, EB.
        assert (Y : qprod (map (fun p => asum L (fun r => 1 - pdx vs i r) (fun _ => 1) (fst (b p)) (snd (b p))) (seq 0 np)) =
          qprod (map (fun p => asum L (q vs) (fun _ => 1) (fst (b p)) (snd (b p))) (seq 0 np)) * tP t').
        { apply (qprod_but _ _ p (tP t')); [apply seq_NoDup|apply in_seq; lia| |].
          - rewrite Qcmult_comm. transitivity (asum L (but (q vs) i (miss vs i)) (fun _ => 1) (fst (b p)) (snd (b p))); [apply asum_pdx|].
            symmetry. apply T3. apply Hsm; assumption.
          - intros a Ha Hne'. apply in_seq in Ha. apply asum_ext; try reflexivity. intros r Hr. unfold pdx, q.
            destruct (Nat.eqb_spec r i) as [->|]; [|reflexivity]. exfalso. apply Hne'. apply (Hdisj a p i); auto; lia. }
        rewrite Y. ring.
      * intros k Hsk Hlk. unfold but. destruct (Nat.eqb_spec k m) as [->|]; [congruence|]. apply Hrest; assumption.
      * intros k Hki. fold vs. unfold but. destruct (Nat.eqb_spec k i) as [->|Hki'].
        -- rewrite Ei, Nat.eqb_refl. rewrite <- Ei. apply (rest_at probDet ts i Hi).
        -- destruct (Nat.eqb_spec (vI (at_ vs k)) m) as [E|E].
           ++ exfalso. apply Hki'. apply (vI_inj probDet ts k i Hki Hi). fold vs. congruence.
           ++ apply (rest_at probDet ts k Hki).
    + exists t. split.
      { rewrite B4; [exact Hm|]. intros p i Hp Hip E. apply in_seq in Hp.
        assert (K := at_shown probDet ts i (Rr p i ltac:(lia) Hip)). fold vs in K, E. rewrite E in K. congruence. }
      split; [split; [apply Hgood; eapply nth_error_In; exact Hm|auto]|]. split; [reflexivity|]. split; [intros w g1 Hwg _; left; exists w; exact Hwg|].
      intros _. destruct (hidden probDet correct clutter thr Hthr Hdet ts Hgood m Hlt Es) as (t2 & E2 & _ & R1 & R2 & R3).
      assert (t2 = t) by congruence. subst t2.
      apply (posterior_alive probDet correct clutter thr ts nZ m (tP t) D Hlt eq_refl (Qcpos_neq _ D0)).
      rewrite asum_linear; auto using seq_NoDup.
      * rewrite R2. reflexivity.
      * apply in_seq. lia.
  - rewrite Qcmult_1_l. apply qprod_pos. intros x Hx. apply in_map_iff in Hx. destruct Hx as (p & <- & Hp). apply (B6 p Hp).
  - intros Hman. apply evidence_iff. fold D. rewrite EB, Qcmult_1_l. f_equal. apply map_ext_in. intros p Hp.
    apply (B6 p Hp). apply in_seq in Hp. apply Hsm; [exact Hman|lia].
  - intros _. assert (Mw : forall i z, (i < length vs)%nat -> (z < nZ)%nat -> 0 <= mw (fst st') i z /\ (L i z = 0 -> mw (fst st') i z = 0)).
    { intros i z Hi Hz. destruct (Hown i Hi) as (p & Hp & Hip). apply (B2 p i z); auto. apply in_seq. lia. }
    destruct (births_ok vs (fst st')) as (U1 & U2 & U3). split; [|split; [exact U3|]].
    + intros z p Hzp. destruct (U1 z p Hzp) as (A & B & C). split; [exact A|]. split; [exact B|].
      assert (K := associate_nonneg vs (fst st') z (fun i Hi => proj1 (Mw i z Hi A))). qclra.
    + intros z Hz Hp Hm. apply U2; [exact Hz| |exact Hm]. apply associate_zero. intros i Hi. apply Mw; auto.
      rewrite LT. unfold LmbSpec.table. rewrite vis_nth. fold vs. apply Nat.ltb_lt in Hi. rewrite Hi. apply Nat.ltb_lt in Hi.
      apply Hp. eapply nth_error_In. apply (at_track probDet ts i Hi).
Qed.
End Final.

Lemma good_fair : forall (G : Type) (t : track G), good t -> fair t.
Proof. intros G t (A & B & C). split; [exact A|]. split; [exact B|]. rewrite C. apply Qcle_refl. Qed.
Lemma good_all : forall (G : Type) (probDet : G -> Qc) ts, (forall t, In t ts -> good t /\ pd_of probDet t * tP t < 1) ->
  forall t, In t ts -> fair t /\ pd_of probDet t * tP t < 1.
Proof. intros G probDet ts H t Ht. destruct (H t Ht). split; [now apply good_fair|assumption]. Qed.

Theorem lmb_existence : forall (G : Type) probDet (correct : nat -> G -> option (G * Qc)) clutter thr maxPE minPE expected nZ kbest cc ncc ts,
  0 <= thr -> (forall z, (z < nZ)%nat -> 0 < clutter z) -> (forall z g g' l, correct z g = Some (g', l) -> 0 <= l) ->
  (forall g, 0 <= probDet g <= 1) -> kbest_contract kbest -> (0 < nZ)%nat ->
  (forall t, In t ts -> good t /\ pd_of probDet t * tP t < 1) ->
  components_of (support (table probDet correct clutter thr (visible probDet ts))) 0 (length (visible probDet ts)) nZ cc ncc ->
  manageable probDet correct clutter thr ts nZ \/ (forall t, In t ts -> pd_of probDet t < 1) ->
  exists out, lmb_update probDet correct clutter thr maxPE minPE expected nZ kbest cc ncc ts = Val out /\
  length (lTracks out) = length ts /\
  (forall m t, nth_error ts m = Some t -> exists t', nth_error (lTracks out) m = Some t' /\ good t' /\
     (pd_of probDet t = 0 -> t' = t) /\
     (manageable probDet correct clutter thr ts nZ -> posterior probDet correct clutter thr ts nZ (alive m) (tP t'))) /\
  0 < lFactor out /\
  (manageable probDet correct clutter thr ts nZ -> evidence probDet correct clutter thr ts nZ (lFactor out)).
Proof.
  intros. destruct (lmb_ok probDet correct clutter thr maxPE minPE expected nZ kbest H H0 H1 H2 H3 cc ncc ts H4 (good_all _ _ _ H5) H6 H7) as (out & A & B & C & D & E & _). exists out. split; [exact A|]. split; [exact B|]. split; [|auto].
  intros m t Hm. destruct (C m t Hm) as (t' & C1 & C2 & C3 & C4 & C5). exists t'. split; [exact C1|]. split; [|auto].
  destruct C2 as [(C6 & C7 & _) C8]. split; [exact C6|]. split; [exact C7|]. apply C8. apply (H5 t). eapply nth_error_In. exact Hm.
Qed.

Theorem lmb_mixture : forall (G : Type) probDet (correct : nat -> G -> option (G * Qc)) clutter thr maxPE minPE expected nZ kbest cc ncc ts,
  0 <= thr -> (forall z, (z < nZ)%nat -> 0 < clutter z) -> (forall z g g' l, correct z g = Some (g', l) -> 0 <= l) ->
  (forall g, 0 <= probDet g <= 1) -> kbest_contract kbest -> (0 < nZ)%nat ->
  (forall t, In t ts -> good t /\ pd_of probDet t * tP t < 1) ->
  components_of (support (table probDet correct clutter thr (visible probDet ts))) 0 (length (visible probDet ts)) nZ cc ncc ->
  manageable probDet correct clutter thr ts nZ \/ (forall t, In t ts -> pd_of probDet t < 1) ->
  exists out, lmb_update probDet correct clutter thr maxPE minPE expected nZ kbest cc ncc ts = Val out /\
  (forall m t, nth_error ts m = Some t -> exists t', nth_error (lTracks out) m = Some t' /\
     (forall w g, In (w, g) (tG t') -> 0 <= w) /\ qsum (map fst (tG t')) = 1 /\
     (forall w g, In (w, g) (tG t') -> 0 < w -> (exists w0, In (w0, g) (tG t)) \/
        exists z g0 l w0, (z < nZ)%nat /\ In (w0, g0) (tG t) /\ correct z g0 = Some (g, l) /\ 0 < pair_weight probDet correct clutter thr t z)).
Proof.
  intros. destruct (lmb_ok probDet correct clutter thr maxPE minPE expected nZ kbest H H0 H1 H2 H3 cc ncc ts H4 (good_all _ _ _ H5) H6 H7) as (out & A & _ & C & _).
  exists out. split; [exact A|]. intros m t Hm. destruct (C m t Hm) as (t' & C1 & ((_ & C2 & _) & C3) & _ & C4 & _). exists t'. split; [exact C1|]. split; [exact C2|].
  split; [|exact C4]. apply C3. apply (H5 t). eapply nth_error_In. exact Hm.
Qed.

Theorem lmb_births : forall (G : Type) probDet (correct : nat -> G -> option (G * Qc)) clutter thr maxPE minPE expected nZ kbest cc ncc ts,
  0 <= thr -> (forall z, (z < nZ)%nat -> 0 < clutter z) -> (forall z g g' l, correct z g = Some (g', l) -> 0 <= l) ->
  (forall g, 0 <= probDet g <= 1) -> kbest_contract kbest -> (0 < nZ)%nat ->
  (forall t, In t ts -> good t /\ pd_of probDet t * tP t < 1) ->
  components_of (support (table probDet correct clutter thr (visible probDet ts))) 0 (length (visible probDet ts)) nZ cc ncc ->
  manageable probDet correct clutter thr ts nZ \/ (forall t, In t ts -> pd_of probDet t < 1) ->
  ts <> [] ->
  exists out, lmb_update probDet correct clutter thr maxPE minPE expected nZ kbest cc ncc ts = Val out /\
  (forall z p, In (z, p) (lBirths out) -> (z < nZ)%nat /\ minPE < p <= maxPE /\ p <= 1) /\
  NoDup (map fst (lBirths out)) /\
  (forall z, (z < nZ)%nat -> (forall t, In t ts -> pair_weight probDet correct clutter thr t z = 0) -> minPE < maxPE <= 1 ->
     In (z, maxPE) (lBirths out)).
Proof.
  intros. destruct (lmb_ok probDet correct clutter thr maxPE minPE expected nZ kbest H H0 H1 H2 H3 cc ncc ts H4 (good_all _ _ _ H5) H6 H7) as (out & A & _ & _ & _ & _ & F). exists out. auto.
Qed.

(** Without a map every measurement is a candidate. *)
Theorem lmb_no_map : forall (G : Type) probDet (correct : nat -> G -> option (G * Qc)) clutter thr maxPE minPE expected nZ kbest cc ncc,
  exists out, lmb_update probDet correct clutter thr maxPE minPE expected nZ kbest cc ncc [] = Val out /\
  lTracks out = [] /\ lFactor out = 1 /\ map fst (lBirths out) = seq 0 nZ /\
  (forall z p, In (z, p) (lBirths out) ->
     p <= maxPE /\ p <= expected / QcN nZ /\ (p = maxPE \/ p = expected / QcN nZ)).
Proof.
  intros. cbn [lmb_update]. eexists. split; [reflexivity|]. cbn [lTracks lFactor lBirths]. split; [reflexivity|]. split; [reflexivity|].
  split; [rewrite map_map; apply map_id|].
  intros z p Hin. apply in_map_iff in Hin as (k & E & _). injection E as _ <-. unfold qmin2, Qcltb.
  destruct (Qclt_le_dec (expected / QcN nZ) maxPE) as [C|C].
  - split; [now apply Qclt_le_weak|]. split; [apply Qcle_refl|now right].
  - split; [apply Qcle_refl|]. split; [exact C|now left].
Qed.

(** Few tracks and measurements are always manageable. *)
Lemma connected_range : forall C ml nR nC u v, connected C ml nR nC u v -> u = v \/ (in_range nR nC u /\ in_range nR nC v).
Proof.
  intros C ml nR nC u v H. unfold connected in H. induction H as [x y Hl|x|x y H IH|x y z H1 IH1 H2 IH2].
  - right. destruct Hl as [i j Hi Hj _]. split; assumption.
  - left. reflexivity.
  - destruct IH as [->|[A B]]; auto.
  - destruct IH1 as [->|[A B]]; [exact IH2|]. destruct IH2 as [->|[D E]]; auto.
Qed.

Lemma component_range : forall L nM nZ il jl, component L nM nZ il jl ->
  (length il <= nM)%nat /\ (length jl <= nZ)%nat.
Proof.
  intros L nM nZ il jl (N1 & N2 & _ & K & _).
  split.
  - rewrite <- (seq_length nM 0). apply NoDup_incl_length; [exact N1|]. intros x Hx. apply in_seq. specialize (K (Row x) Hx). cbn in K. lia.
  - rewrite <- (seq_length nZ 0). apply NoDup_incl_length; [exact N2|]. intros x Hx. apply in_seq. specialize (K (Col x) Hx). cbn in K. lia.
Qed.

Lemma small_manageable : forall {G} probDet (correct : nat -> G -> option (G * Qc)) clutter thr ts nZ,
  (length ts + nZ <= 8)%nat -> manageable probDet correct clutter thr ts nZ.
Proof.
  intros G probDet correct clutter thr ts nZ H il jl Hc. left. apply component_range in Hc.
  assert (K : (length (visible probDet ts) <= length ts)%nat) by (unfold visible; clear; induction ts as [|t ts IH]; cbn [filter length]; [lia|]; destruct (Qcltb 0 (pd_of probDet t)); cbn [length]; lia).
  lia.
Qed.
