(** Where the landmarks of the PHD filter come from. *)
From Coq Require Import ZArith QArith Qcanon List Bool Arith Lia Permutation.
From Verif Require Import Base ListUtil QcLra Loop ParticleModel RbRunModel RbRunProofs
  PhdModel PhdSpec PhdProofs RfsSpec WeighModel WeighSpec WeighProofs2 BirthModel BirthProofs PhdRunModel PhdRunSpec PhdOriginSpec.
Import ListNotations.
Local Open Scope nat_scope.

(** ** Births *)
Section Births.
Variable T : Type.
Variable near : nat -> T -> nat -> bool.
Variable corr : nat -> T -> nat -> T.
Variable inv : nat -> nat -> T.
Variables cntT chkT curT nZ : nat.
Variable P : T -> Prop.
Hypothesis Hinv : forall i z, P (inv i z).
Hypothesis Hcorr : forall i lm z, P lm -> near i lm z = true -> P (corr i lm z).
Definition allc (l : list (cand T)) : Prop := Forall (fun c => P (clm T c)) l.
Lemma support_all : forall i z l l', support T near corr i z l = Some l' -> allc l -> allc l'.
Proof.
  intros i z. induction l as [|c l IH]; intros l' H Hl; cbn [support] in H; [discriminate|]. inversion Hl as [|? ? H1 H2]; subst. destruct (near i (clm T c) z) eqn:En.
  - injection H as <-. constructor; [apply Hcorr; assumption|exact H2].
  - destruct (support T near corr i z l) as [m|]; [|discriminate]. injection H as <-. constructor; [exact H1|apply (IH m eq_refl H2)].
Qed.
Lemma use_from : forall i fov zs s u, use_all T near corr inv cntT curT i nZ fov zs s = Val u -> allc (fst s) -> Forall P (snd s) -> allc (fst u) /\ Forall P (snd u).
Proof.
  intros i fov. induction zs as [|z zs IH]; intros s u H H1 H2; cbn [use_all] in H; [injection H as <-; auto|].
  destruct (use_measurement T near corr inv cntT curT i nZ fov z s) as [s1| |] eqn:E; try discriminate. cbn [obind] in H.
  assert (Q : allc (fst s1) /\ Forall P (snd s1)).
  { unfold use_measurement in E. destruct (z <? nZ); [|discriminate]. destruct (support T near corr i z (fst s)) as [l|] eqn:Es.
    - injection E as <-. cbn [fst snd]. split; [exact (support_all _ _ _ _ Es H1)|exact H2].
    - destruct ((cntT =? 1) || (fov <=? curT)); injection E as <-; cbn [fst snd]; split; auto; apply Forall_app; split; auto; constructor; auto; apply Hinv. }
  destruct Q. apply (IH s1); assumption.
Qed.
Lemma scan_from : forall fov l v, scan T cntT chkT curT fov l = Val v -> allc l -> allc (fst v) /\ Forall P (snd v).
Proof.
  intros fov. induction l as [|c l IH]; intros v H Hl; cbn [scan] in H; [injection H as <-; split; constructor|]. inversion Hl as [|? ? H1 H2]; subst.
  destruct (leaves T cntT chkT curT fov (checked T c)).
  - destruct l as [|d l]; [discriminate|]. destruct (scan T cntT chkT curT fov (d :: l)) as [w| |]; try discriminate. cbn [obind] in H. injection H as <-.
    destruct (IH w eq_refl H2) as [I1 I2]. cbn [fst snd]. split; [exact I1|]. apply Forall_app. split; [|exact I2]. destruct (matures T cntT curT fov (checked T c)); repeat constructor. exact H1.
  - destruct (scan T cntT chkT curT fov l) as [w| |]; try discriminate. cbn [obind] in H. injection H as <-.
    destruct (IH w eq_refl H2) as [I1 I2]. cbn [fst snd]. split; [constructor; [exact H1|exact I1]|exact I2].
Qed.
Definition goodsl (s : slot T) : Prop := allc (scands T s) /\ Forall P (sadded T s).
Lemma births_from : forall res ss ss', addBirthGaussians T near corr inv cntT chkT curT res nZ ss = Val ss' -> Forall goodsl ss -> Forall goodsl ss'.
Proof.
  intros res ss ss' H Hs. unfold addBirthGaussians in H. apply (loop_val _ (fun k t => Forall goodsl t) _ _ _ H); [exact Hs|].
  intros k t t' Hk B E. unfold birth_step in E. destruct (nth_error t k) as [s|] eqn:Es; [|discriminate]. rewrite Forall_forall in B.
  assert (Hsk := B s (nth_error_In _ _ Es)).
  destruct (if res && negb (sparent T s =? k) then _ else Val s) as [s1| |] eqn:E1; try discriminate. cbn [obind] in E.
  assert (G : goodsl s1).
  { destruct (res && negb (sparent T s =? k)); [|injection E1 as <-; exact Hsk]. destruct (nth_error t (sparent T s)) as [p|] eqn:Ep; [|discriminate].
    injection E1 as <-. destruct (B p (nth_error_In _ _ Ep)) as (P1 & _). destruct Hsk as (_ & Q3). split; assumption. }
  destruct (birth_one T near corr inv cntT chkT curT k nZ s1) as [s2| |] eqn:E2; try discriminate. cbn [obind] in E. injection E as <-.
  destruct G as (G1 & G3). unfold birth_one in E2.
  destruct (use_all T near corr inv cntT curT k nZ (sfov T s1) (rev (sunused T s1)) (scands T s1, [])) as [u| |] eqn:Eu; try discriminate. cbn [obind] in E2.
  destruct (scan T cntT chkT curT (sfov T s1) (fst u)) as [v| |] eqn:Ev; try discriminate. cbn [obind] in E2. injection E2 as <-.
  apply use_from in Eu; [|exact G1|constructor]. destruct Eu as [U1 U2]. apply scan_from in Ev; [|exact U1]. destruct Ev as [V1 V2].
  apply Forall_forall. intros x Hx. apply upd_in in Hx. destruct Hx as [->|Hx]; [|apply B; exact Hx]. split; cbn; [exact V1|]. apply Forall_app. split; assumption.
Qed.
End Births.

(** ** Map update *)
Lemma update_from : forall T probDet correct clutter gate birthW tiny expf cluster t0 (mix : list (T * Qc)) nZ r,
  updateMap T probDet correct clutter gate birthW tiny expf cluster t0 mix nZ = Val r -> forall lm w, In (lm, w) (rmix T r) ->
  (exists v, In (lm, v) mix) \/
  exists g v z, In (g, v) mix /\ z < nZ /\ (fst (fst (correct g z)) <> 0)%Qc /\ (snd (fst (correct g z)) <= gate)%Qc /\ lm = snd (correct g z).
Proof.
  intros T probDet correct clutter gate birthW tiny expf cluster t0 mix nZ r H lm w Hin. destruct mix as [|g0 mix0] eqn:Em.
  { unfold updateMap in H. cbn [length Nat.eqb] in H. injection H as <-. cbn in Hin. contradiction. }
  rewrite <- Em in *. assert (Hl : length mix <> 0) by (rewrite Em; cbn; lia).
  destruct (update_exact T probDet correct clutter gate birthW tiny expf mix g0 nZ t0 Hl cluster) as (t & mx & E & E1 & E2 & E3 & _).
  rewrite E in H. injection H as <-. cbn [rmix] in Hin. apply In_nth_error in Hin as [i Hi]. destruct (Nat.lt_ge_cases i (length mix)) as [Hlt|Hge].
  - rewrite (E2 i Hlt) in Hi. injection Hi as <- _. left. exists (snd (nth i mix g0)). rewrite <- surjective_pairing. apply nth_In. exact Hlt.
  - right. assert (Q : In (lm, w) (skipn (length mix) mx)).
    { apply (nth_error_In _ (i - length mix)). rewrite nth_error_skipn. replace (length mix + (i - length mix)) with i by lia. exact Hi. }
    rewrite E3 in Q. apply in_map_iff in Q as ([m z] & Emk & Hob). apply filter_In in Hob as [Hu Hob]. apply in_upto in Hu. destruct Hu as [[Hm Hz]|[_ Hz]]; [|lia].
    unfold mk in Emk. cbn [fst snd] in Emk. injection Emk as <- _. unfold ob in Hob. cbn [fst snd] in Hob. apply andb_true_iff in Hob as [Hg _].
    exists (fst (nth m mix g0)), (snd (nth m mix g0)), z. rewrite <- surjective_pairing. split; [apply nth_In; exact Hm|]. split; [exact Hz|].
    unfold gb in Hg. destruct (Qc_eq_dec _ 0); [discriminate|]. destruct (Qc_eq_dec _ 0) as [|Hne]; [discriminate|]. apply negb_true_iff, Qcltb_false in Hg.
    split; [exact Hne|]. split; [exact Hg|reflexivity].
Qed.

Section Run.
Context {Pose M T : Type}.
Variable sn : hsensor Pose M T.
Variable cf : hconf.
Variable o : houtside T.
Hypothesis Hso : sort_contract (xSort o).
Notation part := (particle Pose (list (T * Qc))).
Variable all : list (hcall Pose M T).
Notation from := (hfrom sn cf o all).

Lemma one_from : forall zs u x mix w m, In (HUpdate zs u) all -> (forall lm v, In (lm, v) mix -> from lm) -> phd_one sn cf o zs x mix w = Val m ->
  forall lm v, In (lm, v) (nMap m) -> from lm.
Proof.
  intros zs u x mix w m Hz Hm H. unfold phd_one in H. cbn zeta in H.
  set (cor := fun lm z => match nth_error zs z with Some y => hCor sn x lm y | None => (0%Qc, 0%Qc, lm) end) in *.
  destruct (updateMap _ _ _ _ _ _ _ _ _ _ _ _) as [r| |] eqn:Er; try discriminate. cbn [obind] in H.
  assert (R : forall lm v, In (lm, v) (rmix T r) -> from lm).
  { intros lm v Hi. destruct (update_from _ _ _ _ _ _ _ _ _ _ _ _ _ Er lm v Hi) as [[v0 H0]|(g & v0 & z & H0 & H1 & H2 & H3 & ->)]; [exact (Hm _ _ H0)|].
    unfold cor in *. destruct (nth_error zs z) as [y|] eqn:Ez; [|apply nth_error_None in Ez; lia].
    apply from_correct; try assumption; [exact (Hm _ _ H0)|]. exists zs, u. split; [exact Hz|exact (nth_error_In _ _ Ez)]. }
  assert (Fin : forall m0, Permutation (rmix T r) m0 -> forall lm v, In (lm, v) (hprune (hPrune cf) (xMerge o m0)) -> from lm).
  { intros m0 HP lm v Hi. apply filter_In in Hi as [Hi _]. apply (from_merge sn cf o all m0 lm v); [|exact Hi].
    intros g q Hg. apply (R g q). apply (Permutation_in _ (Permutation_sym HP)). exact Hg. }
  destruct (c_cluster (hSet cf)).
  - injection H as <-. cbn. apply Fin. apply Permutation_refl.
  - destruct (importance _ _ _ _ _ _ _ _ _ _ _ _ _ _ _) as [[s v]| |] eqn:Es; try discriminate. cbn [obind fst snd] in H. injection H as <-. cbn [nMap].
    apply Fin. rewrite <- (prev_proj T (rmix T r) mix) at 1. apply Permutation_map.
    unfold importance in Es. destruct (eval_count _ _ =? 0)%Z; [injection Es as <- _; apply Permutation_refl|].
    destruct (points _ _ _) as [ps| |]; try discriminate. cbn [obind] in Es. destruct (RfsModel.rfs_likelihood _ _ _ _ _ _ _ _ _ _) as [lk| |]; try discriminate.
    cbn [obind] in Es. destruct (Qc_eq_dec _ _); [discriminate|]. injection Es as <- _. apply Hso.
Qed.

Definition pfrom (p : part) : Prop := forall mix lm v, pdata p = Some mix -> In (lm, v) mix -> from lm.
Definition ofrom (b : option T) : Prop := match b with Some lm => from lm | None => True end.
Definition sfrom (u : hslot T) : Prop := allc (option T) ofrom (lCands u).
Definition oinv (s : hfilt Pose M T) : Prop := Forall pfrom (pset (rpf (hRb s))) /\ Forall sfrom (hSlots s) /\ Forall (received all) (hZ s).

Lemma upd_from : forall zs u (l : list part) ss l' ss', In (HUpdate zs u) all -> Forall pfrom l -> Forall sfrom ss -> hupd_all sn cf o zs l ss = Val (l', ss') ->
  Forall pfrom l' /\ Forall sfrom ss'.
Proof.
  intros zs u. induction l as [|p l IH]; intros ss l' ss' Hz Hl Hs H; cbn [hupd_all] in H; [injection H as <- <-; split; constructor|].
  destruct ss as [|s ss]; [discriminate|]. inversion Hl as [|? ? H1 H2]; subst. inversion Hs as [|? ? H3 H4]; subst.
  destruct (pdata p) as [d|] eqn:Ed; [|discriminate]. cbn [of_option obind] in H.
  destruct (phd_one sn cf o zs (ppose p) d (pw p)) as [m| |] eqn:Em; try discriminate. cbn [obind] in H.
  destruct (hupd_all sn cf o zs l ss) as [[l1 s1]| |] eqn:E; try discriminate. cbn [obind fst snd] in H. injection H as <- <-.
  destruct (IH ss l1 s1 Hz H2 H4 E) as [I1 I2]. split; constructor; auto.
  intros mix lm v Hm. cbn in Hm. injection Hm as <-. exact (one_from zs u _ _ _ _ Hz (fun lm v => H1 d lm v Ed) Em lm v).
Qed.
Lemma norm_from : forall (l : list part), Forall pfrom l -> Forall pfrom (normalizeWeights l).
Proof.
  intros l H. rewrite Forall_forall in *. intros q Hq. apply In_nth_error in Hq as [i Hi]. destruct (norm_same _ _ _ Hi) as (p & Hp & _ & _ & Hd).
  intros mix lm v Hm. apply (H p (nth_error_In _ _ Hp)). congruence.
Qed.
Lemma finish_from : forall c u (s s' : rbf Pose (list (T * Qc))), finish c u s = Val s' -> Forall pfrom (pset (rpf s)) -> Forall pfrom (pset (rpf s')).
Proof.
  intros c u s s' H Hl. destruct (finish_cases _ _ _ _ H) as [(_ & _ & _ & _ & Er)|(_ & _ & _ & _ & l & Hm & ->)].
  - rewrite Forall_forall in *. intros q Hq. apply In_nth_error in Hq as [i Hi]. destruct (resample_src _ _ _ _ _ Er i q Hi) as (_ & j & p & Hp & _ & _ & Hd).
    intros mix lm v Em. apply (Hl p (nth_error_In _ _ Hp)). congruence.
  - cbn [pset]. apply norm_from. destruct Hm as [->| ->]; [exact Hl|now apply norm_from].
Qed.
Lemma newborns_from : forall (b : list (option T)) nb, Forall ofrom b -> newborns cf b = Val nb -> forall lm v, In (lm, v) nb -> from lm.
Proof.
  induction b as [|x b IH]; intros nb HL H; cbn [newborns] in H; [injection H as <-; intros lm v []|]. inversion HL as [|? ? H1 H2]; subst.
  destruct x as [lm|]; [|discriminate]. cbn [of_option obind] in H. destruct (newborns cf b) as [r| |]; try discriminate. cbn [obind] in H. injection H as <-.
  intros l v [E|Hi]; [injection E as <- <-; exact H1|exact (IH r H2 eq_refl l v Hi)].
Qed.
Lemma pred_from : forall check move stat keep (l : list part) bs i l', In (HPredict check move stat) all -> Forall pfrom l -> Forall (Forall ofrom) bs ->
  hpred_all cf move stat keep i l bs = Val l' -> Forall pfrom l'.
Proof.
  intros check move stat keep. induction l as [|p l IH]; intros bs i l' Hk Hl Hb H; cbn [hpred_all] in H; [injection H as <-; constructor|].
  destruct bs as [|b bs]; [discriminate|]. inversion Hl as [|? ? H1 H2]; subst. inversion Hb as [|? ? H3 H4]; subst.
  destruct (pdata p) as [d|] eqn:Ed; [|discriminate]. cbn [of_option obind] in H. destruct (newborns cf b) as [nb| |] eqn:En; try discriminate. cbn [obind] in H.
  destruct (hpred_all cf move stat keep (S i) l bs) as [r| |] eqn:E; try discriminate. cbn [obind] in H. injection H as <-.
  constructor; [|exact (IH bs (S i) r Hk H2 H4 E)]. intros mix lm v Hm Hi. cbn in Hm. injection Hm as <-. apply in_map_iff in Hi as ([g w] & Eg & Hg). cbn in Eg. injection Eg as <- <-.
  apply (from_motion sn cf o all g check move stat); [|exact Hk]. apply in_app_iff in Hg as [Hg|Hg]; [exact (H1 d g w Ed Hg)|exact (newborns_from b nb H3 En g w Hg)].
Qed.

Lemma do_from : forall g0 c s k s', In k all -> oinv s -> hdo sn cf o g0 c s k = Val s' -> oinv s'.
Proof.
  intros g0 c s k s' Hk (C1 & C2 & C3) H. destruct k as [check move stat|zs u|t]; cbn [hdo] in H.
  - unfold hpredict in H.
    destruct (if check then hbirths sn cf g0 s else _) as [bs| |] eqn:Eb; try discriminate. cbn [obind] in H.
    assert (Z0 : Forall (goodsl (option T) ofrom) (zip as_slot (hSlots s) (pset (rpf (hRb s))))).
    { apply Forall_forall. intros x Hx. apply zip_in in Hx as (a & b & Ha & _ & ->). rewrite Forall_forall in C2. split; cbn; [exact (C2 a Ha)|constructor]. }
    assert (B : Forall (goodsl (option T) ofrom) bs).
    { destruct check; [|injection Eb as <-; exact Z0]. unfold hbirths in Eb. apply (births_from _ _ _ _ _ _ _ _ ofrom) in Eb; [exact Eb| | |exact Z0].
      - intros i z. destruct (nth_error (pset (rpf (hRb s))) i) as [p|]; [|exact I]. destruct (nth_error (hZ s) z) as [y|] eqn:Ez; [|exact I]. cbn.
        apply from_inverse. rewrite Forall_forall in C3. apply C3. exact (nth_error_In _ _ Ez).
      - intros i lm z Hl Hn. destruct (nth_error (pset (rpf (hRb s))) i) as [p|]; [|discriminate]. destruct lm as [lm|]; [|discriminate].
        destruct (nth_error (hZ s) z) as [y|] eqn:Ez; [|discriminate]. cbn in *. apply from_support; [exact Hl| |exact Hn]. rewrite Forall_forall in C3. apply C3. exact (nth_error_In _ _ Ez). }
    destruct (hpred_all _ _ _ _ _ _ _) as [l| |] eqn:E; try discriminate. cbn [obind] in H. injection H as <-. split; [|split]; cbn [hRb rpf pset hSlots hZ].
    + eapply pred_from; [exact Hk|exact C1| |exact E]. apply Forall_map. eapply Forall_impl; [|exact B]. intros a [_ F]. exact F.
    + apply Forall_map. eapply Forall_impl; [|exact B]. intros a [F _]. exact F.
    + exact C3.
  - unfold hupdate in H. destruct zs as [|z zs].
    + injection H as <-. split; [exact C1|]. split; [exact C2|constructor].
    + destruct (hupd_all sn cf o (z :: zs) (pset (rpf (hRb s))) (hSlots s)) as [[l ss]| |] eqn:E; try discriminate. cbn [obind fst snd] in H.
      destruct (finish c u _) as [b| |] eqn:Ef; try discriminate. cbn [obind] in H. injection H as <-.
      destruct (upd_from (z :: zs) u _ _ _ _ Hk C1 C2 E) as [D1 D2]. split; [|split]; cbn [hRb hSlots hZ].
      * exact (finish_from _ _ _ _ Ef D1).
      * exact D2.
      * apply Forall_forall. intros y Hy. exists (z :: zs), u. split; [exact Hk|exact Hy].
  - injection H as <-. split; [exact C1|]. split; assumption.
Qed.
Lemma run_from : forall g0 c ks s s', incl ks all -> oinv s -> hrun sn cf o g0 c s ks = Val s' -> oinv s'.
Proof.
  intros g0 c. induction ks as [|k ks IH]; intros s s' Hi S0 H; cbn [hrun] in H; [injection H as <-; exact S0|].
  destruct (hdo sn cf o g0 c s k) as [s1| |] eqn:E; try discriminate. cbn [obind] in H.
  apply (IH s1 s'); [intros x Hx; apply Hi; right; exact Hx| |exact H]. exact (do_from _ _ _ _ _ (Hi k (or_introl eq_refl)) S0 E).
Qed.
Theorem phd_from : forall g0 c n x0 s, hrun sn cf o g0 c (hf_new n x0) all = Val s ->
  forall p mix lm w, In p (pset (rpf (hRb s))) -> pdata p = Some mix -> In (lm, w) mix -> from lm.
Proof.
  intros g0 c n x0 s H p mix lm w Hp Ep Hi. destruct (run_from g0 c all (hf_new n x0) s) as [S1 _]; [apply incl_refl| |exact H|].
  - split; [|split]; cbn.
    + apply Forall_forall. intros q Hq. apply in_map_iff in Hq as (q' & <- & _). intros m l v Hm. cbn in Hm. injection Hm as <-. intros [].
    + apply Forall_forall. intros u Hin. apply repeat_spec in Hin. subst. constructor.
    + constructor.
  - rewrite Forall_forall in S1. exact (S1 p Hp mix lm w Ep Hi).
Qed.
End Run.

Lemma from_keeps : forall {Pose M T} (sn : hsensor Pose M T) cf o ks (P : T -> Prop),
  (forall x y, received ks y -> P (hInv sn x y)) ->
  (forall x lm y, P lm -> received ks y -> P (snd (hCor sn x lm y)) /\ P (hSup sn x lm y)) ->
  (forall lm check move stat, P lm -> In (HPredict check move stat) ks -> P (stat lm)) ->
  (forall mix, (forall g v, In (g, v) mix -> P g) -> forall g v, In (g, v) (xMerge o mix) -> P g) ->
  forall lm, hfrom sn cf o ks lm -> P lm.
Proof.
  intros Pose M T sn cf o ks P H1 H2 H3 H4. fix IH 2. intros lm H. destruct H as [x y Hy|x lm y Hl Hy _ _|x lm y Hl Hy _|lm check move stat Hl Hk|mix lm w Hm Hi].
  - apply H1. exact Hy.
  - apply H2; [apply IH; exact Hl|exact Hy].
  - apply H2; [apply IH; exact Hl|exact Hy].
  - apply (H3 lm check move stat); [apply IH; exact Hl|exact Hk].
  - refine (H4 mix _ lm w Hi). intros g v Hg. apply IH. exact (Hm g v Hg).
Qed.
Theorem phd_keeps : forall {Pose M T} (sn : hsensor Pose M T) cf o ks (P : T -> Prop), sort_contract (xSort o) ->
  (forall x y, received ks y -> P (hInv sn x y)) ->
  (forall x lm y, P lm -> received ks y -> P (snd (hCor sn x lm y)) /\ P (hSup sn x lm y)) ->
  (forall lm check move stat, P lm -> In (HPredict check move stat) ks -> P (stat lm)) ->
  (forall mix, (forall g v, In (g, v) mix -> P g) -> forall g v, In (g, v) (xMerge o mix) -> P g) ->
  forall g0 c n x0 s, hrun sn cf o g0 c (hf_new n x0) ks = Val s ->
  forall p mix lm w, In p (pset (rpf (hRb s))) -> pdata p = Some mix -> In (lm, w) mix -> P lm.
Proof.
  intros Pose M T sn cf o ks P Hso H1 H2 H3 H4 g0 c n x0 s H p mix lm w Hp Ep Hi.
  exact (from_keeps sn cf o ks P H1 H2 H3 H4 lm (phd_from sn cf o Hso ks g0 c n x0 s H p mix lm w Hp Ep Hi)).
Qed.
