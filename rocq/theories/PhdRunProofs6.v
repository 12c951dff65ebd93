(** Expected numbers of landmarks in defined runs of the PHD filter. *)
From Coq Require Import ZArith QArith Qcanon List Bool Arith Lia Permutation.
From Verif Require RfsProofs PermanentProofs.
From Verif Require Import Base ListUtil QcLra Loop ParticleModel RbRunModel RbRunProofs
  PermanentSpec PhdModel PhdSpec RfsSpec WeighModel WeighSpec WeighProofs2 BirthModel BirthProofs PhdRunModel PhdRunSpec PhdRunProofs2 PhdRunProofs3 PhdRunProofs4.
Import ListNotations.
Local Open Scope nat_scope.

(** ** Births *)
Section Births.
Variable T : Type.
Variable near : nat -> T -> nat -> bool.
Variable corr : nat -> T -> nat -> T.
Variable inv : nat -> nat -> T.
Variables cntT chkT curT nZ L : nat.
(** Candidates with enough measurements. *)
Definition ripe (l : list (cand T)) : nat := length (filter (fun c => cntT <=? nsup T c) l).
Definition young (l : list (cand T)) : Prop := Forall (fun c => nsup T c < cntT) l.
Lemma ripe_young : forall l, young l -> ripe l = 0.
Proof.
  intros l H. unfold ripe. induction H as [|c l Hc H IH]; [reflexivity|]. cbn [filter]. destruct (Nat.leb_spec cntT (nsup T c)); [lia|exact IH].
Qed.
Lemma ripe_app : forall l m, ripe (l ++ m) = ripe l + ripe m.
Proof. intros. unfold ripe. rewrite filter_app, app_length. reflexivity. Qed.
Lemma ripe_cons : forall c l, ripe (c :: l) = (if cntT <=? nsup T c then 1 else 0) + ripe l.
Proof. intros c l. unfold ripe. cbn [filter]. destruct (cntT <=? nsup T c); reflexivity. Qed.
Lemma support_ripe : forall i z l l', support T near corr i z l = Some l' -> ripe l' <= S (ripe l).
Proof.
  intros i z. induction l as [|c l IH]; intros l' H; cbn [support] in H; [discriminate|]. destruct (near i (clm T c) z).
  - injection H as <-. rewrite !ripe_cons. cbn [nsup]. destruct (Nat.leb_spec cntT (S (nsup T c))), (Nat.leb_spec cntT (nsup T c)); lia.
  - destruct (support T near corr i z l) as [m|]; [|discriminate]. injection H as <-. rewrite !ripe_cons. specialize (IH m eq_refl). lia.
Qed.
Lemma use_ripe : forall i fov zs s u, use_all T near corr inv cntT curT i nZ fov zs s = Val u ->
  ripe (fst u) + length (snd u) <= ripe (fst s) + length (snd s) + length zs.
Proof.
  intros i fov. induction zs as [|z zs IH]; intros s u H; cbn [use_all] in H; [injection H as <-; cbn; lia|].
  destruct (use_measurement T near corr inv cntT curT i nZ fov z s) as [s1| |] eqn:E; try discriminate. cbn [obind] in H. apply IH in H.
  assert (Q : ripe (fst s1) + length (snd s1) <= S (ripe (fst s) + length (snd s))).
  { unfold use_measurement in E. destruct (z <? nZ); [|discriminate]. destruct (support T near corr i z (fst s)) as [l|] eqn:Es.
    - injection E as <-. cbn [fst snd]. apply support_ripe in Es. lia.
    - destruct ((cntT =? 1) || (fov <=? curT)); injection E as <-; cbn [fst snd]; rewrite ?app_length, ?ripe_app; cbn [length]; [lia|].
      rewrite ripe_cons. change (ripe []) with 0. destruct (cntT <=? _); lia. }
  cbn [length]. lia.
Qed.
Lemma scan_ripe : forall fov l v, scan T cntT chkT curT fov l = Val v -> young (fst v) /\ length (snd v) <= ripe l.
Proof.
  intros fov l v H. destruct (fov <=? curT) eqn:Ef.
  - assert (E : l = []).
    { revert v H. induction l as [|c l IH]; intros v H; [reflexivity|]. cbn [scan] in H. unfold leaves in H. rewrite Ef, orb_true_r in H.
      destruct l as [|d l]; [discriminate|]. destruct (scan T cntT chkT curT fov (d :: l)) as [w| |] eqn:E; try discriminate. specialize (IH w eq_refl). discriminate. }
    subst l. injection H as <-. split; [constructor|cbn; lia].
  - revert v H. induction l as [|c l IH]; intros v H; cbn [scan] in H; [injection H as <-; split; [constructor|cbn; lia]|].
    rewrite ripe_cons. unfold leaves, matures in H. rewrite Ef in H. cbn [checked nsup nchk] in H. rewrite !orb_false_r in H.
    destruct (Nat.leb_spec cntT (nsup T c)) as [Hc|Hc]; cbn [orb] in H.
    + destruct l as [|d l]; [discriminate|]. destruct (scan T cntT chkT curT fov (d :: l)) as [w| |] eqn:E; try discriminate. cbn [obind] in H. injection H as <-.
      destruct (IH w eq_refl) as [I1 I2]. cbn [fst snd app length]. split; [exact I1|lia].
    + destruct (chkT <? S (nchk T c)).
      * destruct l as [|d l]; [discriminate|]. destruct (scan T cntT chkT curT fov (d :: l)) as [w| |] eqn:E; try discriminate. cbn [obind] in H. injection H as <-.
        destruct (IH w eq_refl) as [I1 I2]. cbn [fst snd app]. split; [exact I1|lia].
      * destruct (scan T cntT chkT curT fov l) as [w| |] eqn:E; try discriminate. cbn [obind] in H. injection H as <-.
        destruct (IH w eq_refl) as [I1 I2]. cbn [fst snd]. split; [constructor; [exact Hc|exact I1]|lia].
Qed.
Definition fewl (s : slot T) : Prop := young (scands T s) /\ length (sunused T s) <= L /\ length (sadded T s) <= L.
Lemma births_few : forall res ss ss', addBirthGaussians T near corr inv cntT chkT curT res nZ ss = Val ss' -> Forall fewl ss ->
  length ss' = length ss /\ Forall fewl ss' /\ Forall (fun s => sunused T s = []) ss'.
Proof.
  intros res ss ss' H Hs. unfold addBirthGaussians in H.
  assert (A : length ss' = length ss /\ Forall fewl ss' /\ forall i s, i < length ss -> nth_error ss' i = Some s -> sunused T s = []).
  { apply (loop_val _ (fun k t => length t = length ss /\ Forall fewl t /\ forall i s, i < k -> nth_error t i = Some s -> sunused T s = []) _ _ _ H).
    - split; [reflexivity|]. split; [exact Hs|]. intros i s Hi. lia.
    - intros k t t' Hk (A & B & C) E. unfold birth_step in E. destruct (nth_error t k) as [s|] eqn:Es; [|discriminate]. rewrite Forall_forall in B.
      assert (Hsk := B s (nth_error_In _ _ Es)).
      destruct (if res && negb (sparent T s =? k) then _ else Val s) as [s1| |] eqn:E1; try discriminate. cbn [obind] in E.
      assert (G : fewl s1).
      { destruct (res && negb (sparent T s =? k)); [|injection E1 as <-; exact Hsk]. destruct (nth_error t (sparent T s)) as [p|] eqn:Ep; [|discriminate].
        injection E1 as <-. destruct (B p (nth_error_In _ _ Ep)) as (P1 & P2 & _). destruct Hsk as (_ & _ & Q3). unfold fewl. cbn. auto. }
      destruct (birth_one T near corr inv cntT chkT curT k nZ s1) as [s2| |] eqn:E2; try discriminate. cbn [obind] in E. injection E as <-.
      destruct G as (G1 & G2 & G3). unfold birth_one in E2.
      destruct (use_all T near corr inv cntT curT k nZ (sfov T s1) (rev (sunused T s1)) (scands T s1, [])) as [u| |] eqn:Eu; try discriminate. cbn [obind] in E2.
      destruct (scan T cntT chkT curT (sfov T s1) (fst u)) as [v| |] eqn:Ev; try discriminate. cbn [obind] in E2. injection E2 as <-.
      apply use_ripe in Eu. rewrite rev_length in Eu. cbn [fst snd length] in Eu. rewrite (ripe_young _ G1) in Eu. apply scan_ripe in Ev. destruct Ev as [V1 V2].
      split; [rewrite upd_length; exact A|]. split.
      + apply Forall_forall. intros x Hx. apply upd_in in Hx. destruct Hx as [->|Hx]; [|apply B; exact Hx]. unfold fewl. cbn [scands sunused sadded length]. split; [exact V1|]. split; [lia|].
        rewrite app_length. lia.
      + intros i x Hi Hx. destruct (Nat.eq_dec i k) as [->|Hne].
        * rewrite nth_error_upd_eq in Hx by lia. injection Hx as <-. reflexivity.
        * rewrite nth_error_upd_neq in Hx by congruence. apply (C i); [lia|exact Hx]. }
  destruct A as (A & B & C). split; [exact A|]. split; [exact B|]. apply Forall_forall. intros s Hin. apply In_nth_error in Hin as [i Hi].
  apply (C i s); [|exact Hi]. assert (Q := nth_error_lt _ _ _ _ Hi). lia.
Qed.
End Births.

Section Run.
Context {Pose M T : Type}.
Variable sn : hsensor Pose M T.
Variable cf : hconf.
Variable o : houtside T.
Hypothesis Hsn : hsensor_weak sn.
Hypothesis HW : (0 <= hBirthW cf)%Qc.
Hypothesis Hso : sort_contract (xSort o).
Hypothesis Hme : hmerge_sound (xMerge o).
Notation part := (particle Pose (list (T * Qc))).
Notation W := (hBirthW cf).

Lemma one_mass : forall K zs x mix w m, okm K mix -> phd_one sn cf o zs x mix w = Val m ->
  okm (K + QcN (length zs)) (nMap m) /\ length (nUnused m) <= length zs.
Proof.
  intros K zs x mix w m [M1 M2] H. destruct Hsn as (S1 & S2 & S5). unfold phd_one in H. cbn zeta in H.
  set (cor := fun lm z => match nth_error zs z with Some y => hCor sn x lm y | None => (0%Qc, 0%Qc, lm) end) in *.
  set (clut := fun z => match nth_error zs z with Some y => hClut sn y (length zs) | None => 0%Qc end) in *.
  assert (Hcor : forall lm z, (0 <= likelihood T cor lm z)%Qc).
  { intros lm z. unfold likelihood, cor. destruct (nth_error zs z) as [y|]; [apply S2|apply Qcle_refl]. }
  assert (Hcl0 : forall z, (0 <= clut z)%Qc).
  { intros z. unfold clut. destruct (nth_error zs z) as [y|]; [apply S5|apply Qcle_refl]. }
  destruct (update_mass T (hPd sn x) cor clut (hGate cf) (hBirthW cf) (xTiny o) (xExp o) (c_cluster (hSet cf)) (tables_new T) mix (length zs)
    (fun lm v Hi => conj (M1 lm v Hi) (conj (S1 x lm) (fun z _ => Hcor lm z))) (fun z _ => Hcl0 z)) as (r & Er & R1 & R2 & R3 & R4).
  rewrite Er in H. cbn [obind] in H.
  assert (Fin : forall m0, Permutation (rmix T r) m0 -> okm (K + QcN (length zs)) (hprune (hPrune cf) (xMerge o m0))).
  { intros m0 HP. assert (A : forall lm v, In (lm, v) m0 -> (0 <= v)%Qc) by (intros lm v Hi; apply (R1 lm); apply (Permutation_in _ (Permutation_sym HP)); exact Hi).
    destruct (Hme m0 A) as [B1 B2]. destruct (prune_mass (hPrune cf) (xMerge o m0) B1) as [C1 C2]. split; [exact C1|].
    rewrite B2, <- (mass_perm T _ _ HP) in C2. clear - C2 R2 M2. qclra. }
  destruct (c_cluster (hSet cf)).
  - injection H as <-. cbn. split; [apply Fin; apply Permutation_refl|exact R4].
  - destruct (importance _ _ _ _ _ _ _ _ _ _ _ _ _ _ _) as [[s v]| |] eqn:Es; try discriminate. cbn [obind fst snd] in H. injection H as <-. cbn [nMap nUnused].
    split; [|exact R4]. apply Fin. rewrite <- (prev_proj T (rmix T r) mix) at 1. apply Permutation_map.
    unfold importance in Es. destruct (eval_count _ _ =? 0)%Z; [injection Es as <- _; apply Permutation_refl|].
    destruct (points _ _ _) as [ps| |]; try discriminate. cbn [obind] in Es. destruct (RfsModel.rfs_likelihood _ _ _ _ _ _ _ _ _ _) as [lk| |]; try discriminate.
    cbn [obind] in Es. destruct (Qc_eq_dec _ _); [discriminate|]. injection Es as <- _. apply Hso.
Qed.

Definition light (K : Qc) (p : part) : Prop := forall mix, pdata p = Some mix -> okm K mix.
Definition lean (L : nat) (u : hslot T) : Prop := young (option T) (hCnt cf) (lCands u) /\ length (lUnused u) <= L.
Definition cinv (K : Qc) (L : nat) (s : hfilt Pose M T) : Prop := Forall (light K) (pset (rpf (hRb s))) /\ Forall (lean L) (hSlots s).

Lemma upd_light : forall K L zs (l : list part) ss l' ss', Forall (light K) l -> Forall (lean L) ss -> hupd_all sn cf o zs l ss = Val (l', ss') ->
  Forall (light (K + QcN (length zs))) l' /\ Forall (lean (length zs)) ss'.
Proof.
  intros K L zs. induction l as [|p l IH]; intros ss l' ss' Hl Hs H; cbn [hupd_all] in H; [injection H as <- <-; split; constructor|].
  destruct ss as [|s ss]; [discriminate|]. inversion Hl as [|? ? H1 H2]; subst. inversion Hs as [|? ? [H3 _] H4]; subst.
  destruct (pdata p) as [d|] eqn:Ed; [|discriminate]. cbn [of_option obind] in H.
  destruct (phd_one sn cf o zs (ppose p) d (pw p)) as [m| |] eqn:Em; try discriminate. cbn [obind] in H.
  destruct (hupd_all sn cf o zs l ss) as [[l1 s1]| |] eqn:E; try discriminate. cbn [obind fst snd] in H. injection H as <- <-.
  destruct (IH ss l1 s1 H2 H4 E) as [I1 I2]. destruct (one_mass K zs _ _ _ _ (H1 d Ed) Em) as [O1 O2].
  split; constructor; auto.
  - intros mix Hm. cbn in Hm. injection Hm as <-. exact O1.
  - split; [exact H3|exact O2].
Qed.
Lemma norm_light : forall K (l : list part), Forall (light K) l -> Forall (light K) (normalizeWeights l).
Proof.
  intros K l H. rewrite Forall_forall in *. intros q Hq. apply In_nth_error in Hq as [i Hi]. destruct (norm_same _ _ _ Hi) as (p & Hp & _ & _ & Hd).
  intros mix Hm. apply (H p (nth_error_In _ _ Hp)). congruence.
Qed.
Lemma finish_light : forall K c u (s s' : rbf Pose (list (T * Qc))), finish c u s = Val s' -> Forall (light K) (pset (rpf s)) -> Forall (light K) (pset (rpf s')).
Proof.
  intros K c u s s' H Hl. destruct (finish_cases _ _ _ _ H) as [(_ & _ & _ & _ & Er)|(_ & _ & _ & _ & l & Hm & ->)].
  - rewrite Forall_forall in *. intros q Hq. apply In_nth_error in Hq as [i Hi]. destruct (resample_src _ _ _ _ _ Er i q Hi) as (_ & j & p & Hp & _ & _ & Hd).
    intros mix Em. apply (Hl p (nth_error_In _ _ Hp)). congruence.
  - cbn [pset]. apply norm_light. destruct Hm as [->| ->]; [exact Hl|now apply norm_light].
Qed.
Lemma newborns_mass : forall L (b : list (option T)) nb, length b <= L -> newborns cf b = Val nb -> okm (QcN L * W) nb.
Proof.
  intros L b. revert L. induction b as [|x b IH]; intros L nb HL H; cbn [newborns] in H.
  - injection H as <-. split; [intros lm v []|]. change (mass T []) with 0%Qc. apply RfsProofs.qmul_nonneg; [apply QcN_nonneg|exact HW].
  - destruct x as [lm|]; [|discriminate]. cbn [of_option obind] in H. destruct (newborns cf b) as [r| |]; try discriminate. cbn [obind] in H. injection H as <-.
    destruct L as [|L]; [cbn in HL; lia|]. destruct (IH L r) as (A & B); [cbn in HL; lia|reflexivity|]. split.
    + intros l v [E|Hi]; [injection E as <- <-; exact HW|apply (A l v Hi)].
    + unfold mass in *. cbn [map snd]. rewrite RfsProofs.qsum_cons, QcN_S. replace ((QcN L + 1) * W)%Qc with (QcN L * W + W)%Qc by ring. clear - B. qclra.
Qed.
Lemma pred_light : forall K L move stat keep (l : list part) bs i l', Forall (light K) l -> Forall (fun b : list (option T) => length b <= L) bs ->
  hpred_all cf move stat keep i l bs = Val l' -> Forall (light (K + QcN L * W)) l'.
Proof.
  intros K L move stat keep. induction l as [|p l IH]; intros bs i l' Hl Hb H; cbn [hpred_all] in H; [injection H as <-; constructor|].
  destruct bs as [|b bs]; [discriminate|]. inversion Hl as [|? ? H1 H2]; subst. inversion Hb as [|? ? H3 H4]; subst.
  destruct (pdata p) as [d|] eqn:Ed; [|discriminate]. cbn [of_option obind] in H. destruct (newborns cf b) as [nb| |] eqn:En; try discriminate. cbn [obind] in H.
  destruct (hpred_all cf move stat keep (S i) l bs) as [r| |] eqn:E; try discriminate. cbn [obind] in H. injection H as <-.
  constructor; [|exact (IH bs (S i) r H2 H4 E)]. intros mix Hm. cbn in Hm. injection Hm as <-. apply still_mass; [apply H1; exact Ed|exact (newborns_mass L b nb H3 En)].
Qed.

Lemma do_count : forall g0 c K L s k s', cinv K L s -> hdo sn cf o g0 c s k = Val s' ->
  exists K' L', cinv K' L' s' /\ (K' + QcN L' * W <= K + QcN L * W + QcN (heard [k]) * (1 + W))%Qc.
Proof.
  intros g0 c K L s k s' [C1 C2] H.  assert (HLW : (0 <= QcN L * W)%Qc) by (apply RfsProofs.qmul_nonneg; [apply QcN_nonneg|exact HW]).
  destruct k as [check move stat|zs u|t]; cbn [hdo] in H.
  - unfold hpredict in H. cbn [heard]. rewrite QcN_0. destruct check.
    + destruct (hbirths sn cf g0 s) as [bs| |] eqn:Eb; try discriminate. cbn [obind] in H. unfold hbirths in Eb.
      destruct (births_few _ _ _ _ _ _ _ _ L _ _ _ Eb) as (B1 & B2 & B3).
      { apply Forall_forall. intros x Hx. apply zip_in in Hx as (a & b & Ha & _ & ->). rewrite Forall_forall in C2. destruct (C2 a Ha) as [D1 D2]. unfold fewl. cbn. split; [exact D1|]. split; [exact D2|lia]. }
      destruct (hpred_all _ _ _ _ _ _ _) as [l| |] eqn:E; try discriminate. cbn [obind] in H. injection H as <-.
      exists (K + QcN L * W)%Qc, 0. split.
      * split; cbn [hRb rpf pset hSlots].
        -- eapply pred_light; [exact C1| |exact E]. apply Forall_map. eapply Forall_impl; [|exact B2]. intros a (_ & _ & F). exact F.
        -- apply Forall_map, Forall_forall. intros b Hb. rewrite Forall_forall in B2, B3. destruct (B2 b Hb) as (D1 & _). unfold lean. cbn. rewrite (B3 b Hb). auto.
      * rewrite QcN_0. replace (K + QcN L * W + 0 * W)%Qc with (K + QcN L * W + 0 * (1 + W))%Qc by ring. apply Qcle_refl.
    + cbn [obind] in H. destruct (hpred_all _ _ _ _ _ _ _) as [l| |] eqn:E; try discriminate. cbn [obind] in H. injection H as <-.
      exists (K + QcN 0 * W)%Qc, L. split.
      * split; cbn [hRb rpf pset hSlots].
        -- eapply pred_light; [exact C1| |exact E]. apply Forall_map, Forall_forall. intros b Hb. apply zip_in in Hb as (a & p & _ & _ & ->). cbn. lia.
        -- apply Forall_map, Forall_forall. intros b Hb. apply zip_in in Hb as (a & p & Ha & _ & ->). rewrite Forall_forall in C2. destruct (C2 a Ha). unfold lean. cbn. auto.
      * rewrite QcN_0. replace (K + 0 * W + QcN L * W)%Qc with (K + QcN L * W + 0 * (1 + W))%Qc by ring. apply Qcle_refl.
  - unfold hupdate in H. destruct zs as [|z zs].
    + injection H as <-. exists K, L. split; [split; assumption|]. cbn [heard length Nat.add]. rewrite QcN_0. replace (0 * (1 + W))%Qc with 0%Qc by ring. rewrite Qcplus_0_r. apply Qcle_refl.
    + destruct (hupd_all sn cf o (z :: zs) (pset (rpf (hRb s))) (hSlots s)) as [[l ss]| |] eqn:E; try discriminate. cbn [obind fst snd] in H.
      destruct (finish c u _) as [b| |] eqn:Ef; try discriminate. cbn [obind] in H. injection H as <-.
      destruct (upd_light K L (z :: zs) _ _ _ _ C1 C2 E) as [D1 D2]. exists (K + QcN (length (z :: zs)))%Qc, (length (z :: zs)). split.
      * split; cbn [hRb hSlots]; [|exact D2]. exact (finish_light _ _ _ _ _ Ef D1).
      * cbn [heard]. rewrite Nat.add_0_r. set (q := QcN (length (z :: zs))) in *. replace (q * (1 + W))%Qc with (q + q * W)%Qc by ring. clear - HLW. qclra.
  - injection H as <-. exists K, L. split; [split; assumption|]. cbn [heard]. rewrite QcN_0. replace (0 * (1 + W))%Qc with 0%Qc by ring. rewrite Qcplus_0_r. apply Qcle_refl.
Qed.

Lemma run_count : forall g0 c ks K L s s', cinv K L s -> hrun sn cf o g0 c s ks = Val s' ->
  exists K' L', cinv K' L' s' /\ (K' + QcN L' * W <= K + QcN L * W + QcN (heard ks) * (1 + W))%Qc.
Proof.
  intros g0 c. induction ks as [|k ks IH]; intros K L s s' S0 H; cbn [hrun] in H.
  { injection H as <-. exists K, L. split; [exact S0|]. cbn [heard]. rewrite QcN_0. replace (0 * (1 + W))%Qc with 0%Qc by ring. rewrite Qcplus_0_r. apply Qcle_refl. }
  destruct (hdo sn cf o g0 c s k) as [s1| |] eqn:E; try discriminate. cbn [obind] in H.
  destruct (do_count _ _ _ _ _ _ _ S0 E) as (K1 & L1 & S1 & B1). destruct (IH K1 L1 s1 s' S1 H) as (K' & L' & S' & B'). exists K', L'. split; [exact S'|].
  rewrite heard_cons, QcN_add. replace ((QcN (heard [k]) + QcN (heard ks)) * (1 + W))%Qc with (QcN (heard [k]) * (1 + W) + QcN (heard ks) * (1 + W))%Qc by ring. clear - B1 B'. qclra.
Qed.

Theorem phd_count : forall g0 c n x0 ks s, hrun sn cf o g0 c (hf_new n x0) ks = Val s ->
  forall p mix, In p (pset (rpf (hRb s))) -> pdata p = Some mix -> (forall lm v, In (lm, v) mix -> (0 <= v)%Qc) /\ (mass T mix <= QcN (heard ks) * (1 + W))%Qc.
Proof.
  intros g0 c n x0 ks s H p mix Hp Ep. destruct (run_count g0 c ks 0%Qc 0 (hf_new n x0) s) as (K' & L' & [S1 _] & B); [|exact H|].
  - split; cbn.
    + apply Forall_forall. intros q Hq. apply in_map_iff in Hq as (q' & <- & _). intros m Hm. cbn in Hm. injection Hm as <-. split; [intros lm v []|apply Qcle_refl].
    + apply Forall_forall. intros u Hin. apply repeat_spec in Hin. subst. split; [constructor|cbn; lia].
  - rewrite Forall_forall in S1. destruct (S1 p Hp mix Ep) as [A1 A2]. split; [exact A1|].
    assert (A : (0 <= QcN L' * W)%Qc) by (apply RfsProofs.qmul_nonneg; [apply QcN_nonneg|exact HW]).
    rewrite QcN_0 in B. replace (0 + 0 * W)%Qc with 0%Qc in B by ring. clear - A A2 B. qclra.
Qed.
End Run.
