(** FastSLAM: resampling decision, counters and candidates. *)
From Coq Require Import ZArith QArith Qcanon List Bool Arith Lia Permutation.
From Verif Require Import Base ListUtil Loop QcLra ParticleModel ParticleSpec ParticleProofs ParticleProofs3 FastRunModel FastRunSpec.
Import ListNotations.
Local Open Scope nat_scope.

Section FR.
Context {P D C : Type}.
Notation part := (particle P D).

Lemma resample_forced : forall (s : pf P D) n b u f, resample s n b u = Val (f, true) -> resample s n true u = Val (f, true).
Proof.
  intros s n b u f H. unfold resample in *. destruct b; [exact H|].
  destruct (enough s (normalizeWeights (pset s))) as [no| |]; try discriminate. cbn [obind] in *.
  destruct no; [discriminate|exact H].
Qed.
Lemma resample_refused : forall (s : pf P D) n b u f, resample s n b u = Val (f, false) ->
  b = false /\ f = PF (normalizeWeights (pset s)) (effT s) (effPct s) /\ enough s (normalizeWeights (pset s)) = Val true.
Proof.
  intros s n b u f H. unfold resample in H. destruct b; cbn [obind] in H.
  - destruct (do_resample (normalizeWeights (pset s)) n u); discriminate.
  - destruct (enough s (normalizeWeights (pset s))) as [no| |]; try discriminate. cbn [obind] in H. destruct no.
    + injection H as <-. auto.
    + destruct (do_resample (normalizeWeights (pset s)) n u); discriminate.
Qed.

Definition parents (l : list part) (cs : list (list C)) : Prop :=
  length l <= length cs /\ forall p, In p l -> pparent p < length cs.

(** What the candidate loop leaves in slot j. *)
Lemma inherit_exact : forall (l : list part) (cs : list (list C)), parents l cs ->
  exists cs', for_ (length l) (inherit l) cs = Val cs' /\ length cs' = length cs /\
  (forall j, length l <= j -> nth_error cs' j = nth_error cs j) /\
  forall j p, nth_error l j = Some p ->
    nth_error cs' j = (if pparent p <? j then nth_error cs' (pparent p) else nth_error cs (pparent p)).
Proof.
  intros l cs [Hl Hp].
  destruct (for_inv (fun k cs' => length cs' = length cs /\ (forall j, k <= j -> nth_error cs' j = nth_error cs j) /\
    forall j p, j < k -> nth_error l j = Some p ->
      nth_error cs' j = (if pparent p <? j then nth_error cs' (pparent p) else nth_error cs (pparent p)))
    (inherit l) (length l) cs) as (cs' & E & I1 & I2 & I3).
  - split; [reflexivity|]. split; [reflexivity|]. intros; lia.
  - intros k t Hk (H1 & H2 & H3). unfold inherit.
    destruct (nth_error l k) as [p|] eqn:Ep; [|apply nth_error_None in Ep; lia]. cbn [of_option obind].
    destruct (Nat.eqb_spec (pparent p) k) as [Ek|Ek].
    + exists t. split; [reflexivity|]. split; [exact H1|]. split; [intros j Hj; apply H2; lia|].
      intros j q Hj Hq. destruct (Nat.eq_dec j k) as [->|Hjk]; [|apply H3; [lia|exact Hq]].
      rewrite Ep in Hq. injection Hq as <-. rewrite Ek, Nat.ltb_irrefl. apply H2. lia.
    + assert (Hb : pparent p < length cs) by (apply Hp; eapply nth_error_In; exact Ep).
      destruct (nth_error t (pparent p)) as [c|] eqn:Ec; [|apply nth_error_None in Ec; lia]. cbn [of_option obind].
      destruct (Nat.ltb_spec k (length t)) as [Hkt|]; [|lia].
      exists (upd t k c). split; [reflexivity|]. split; [now rewrite upd_length|].
      split; [intros j Hj; rewrite nth_error_upd_neq by lia; apply H2; lia|].
      intros j q Hj Hq. destruct (Nat.eq_dec j k) as [->|Hjk].
      * rewrite Ep in Hq. injection Hq as <-. rewrite nth_error_upd_eq by lia.
        destruct (Nat.ltb_spec (pparent p) k) as [Hlt|Hge].
        -- rewrite nth_error_upd_neq by lia. now symmetry.
        -- rewrite <- Ec. apply H2. lia.
      * rewrite nth_error_upd_neq by lia. rewrite (H3 j q ltac:(lia) Hq).
        destruct (Nat.ltb_spec (pparent q) j); [|reflexivity]. now rewrite nth_error_upd_neq by lia.
  - exists cs'. split; [exact E|]. split; [exact I1|]. split; [exact I2|].
    intros j p Hj. apply I3; [apply nth_error_Some; congruence|exact Hj].
Qed.

(** Identifiers are slots: every slot gets the list of the slot it was copied from. *)
Lemma inherit_slots : forall (old new : list part) (cs : list (list C)) src sel,
  built_from old new src -> Permutation src sel -> (forall i p, nth_error old i = Some p -> pid p = i) ->
  (forall i, In i sel -> i < length new -> nth_error src i = Some i) ->
  length new <= length old -> length old <= length cs ->
  exists cs', for_ (length new) (inherit new) cs = Val cs' /\ length cs' = length cs /\
  forall j i, nth_error src j = Some i -> nth_error cs' j = nth_error cs i.
Proof.
  intros old new cs src sel [Hlen Hb] Hperm Hid Hself Hno Hoc.
  assert (Hpar : forall j q, nth_error new j = Some q -> nth_error src j = Some (pparent q) /\ pparent q < length old).
  { intros j q Hq. destruct (Hb j q Hq) as (i & p & Hi & Hp & _ & _ & _ & _ & He & _). rewrite He, (Hid i p Hp).
    split; [exact Hi|]. apply nth_error_Some. congruence. }
  destruct (inherit_exact new cs) as (cs' & E & H1 & H2 & H3).
  { split; [lia|]. intros p Hp. apply In_nth_error in Hp as [j Hj]. destruct (Hpar j p Hj). lia. }
  exists cs'. split; [exact E|]. split; [exact H1|]. intros j i Hi.
  assert (Hj : j < length new) by (rewrite Hlen; apply nth_error_Some; congruence).
  destruct (nth_error new j) as [q|] eqn:Eq; [|apply nth_error_None in Eq; lia].
  destruct (Hpar j q Eq) as [Hs _]. rewrite Hi in Hs. injection Hs as ->.
  rewrite (H3 j q Eq). destruct (Nat.ltb_spec (pparent q) j) as [Hlt|_]; [|reflexivity].
  assert (Hin : In (pparent q) sel) by (eapply Permutation_in; [exact Hperm|eapply nth_error_In; exact Hi]).
  assert (Hk : pparent q < length new) by lia. assert (Hs := Hself _ Hin Hk).
  destruct (nth_error new (pparent q)) as [q'|] eqn:Eq'; [|apply nth_error_None in Eq'; lia].
  destruct (Hpar _ q' Eq') as [Hs' _]. rewrite Hs in Hs'. injection Hs' as Hs'.
  rewrite (H3 _ q' Eq'), <- Hs', Nat.ltb_irrefl. reflexivity.
Qed.

Lemma resample_built : forall (s : pf P D) n b u f w, weights_of (pset s) w -> all_data (pset s) -> (0 <= u < 1)%Qc ->
  resample s n b u = Val (f, true) -> exists sel src,
  length (pset f) = kept n (length (pset s)) /\ Permutation src sel /\ built_from (pset s) (pset f) src /\
  (forall i, In i sel -> i < length (pset f) -> nth_error src i = Some i).
Proof.
  intros s n b u f w Hw Hd Hu H. apply resample_forced in H.
  destruct (c26_slots P D s n u w Hw Hd Hu) as (s' & sel & src & E & H1 & H2 & H3 & H4 & H5).
  rewrite H in E. injection E as <-. exists sel, src. rewrite H1. auto 6.
Qed.

Lemma try_true : forall c u (s : fsl P D C) f, try_resample c u s = Val (f, true) ->
  exists b, resample (fpf s) (nInit c) b u = Val (f, true).
Proof.
  intros c u s f H. unfold try_resample in H. destruct (nMax c <? Z.of_nat (length (pset (fpf s))))%Z; [eauto|].
  destruct (due c s); [eauto|discriminate].
Qed.

Lemma copied : forall c u (s s' : fsl P D C) w,
  (forall i p, nth_error (pset (fpf s)) i = Some p -> pid p = i) -> weights_of (pset (fpf s)) w -> all_data (pset (fpf s)) ->
  (0 <= u < 1)%Qc -> length (pset (fpf s)) <= length (fcand s) ->
  resampleWithMapCopy c u s = Val s' -> focc s' = Some true ->
  exists src, built_from (pset (fpf s)) (pset (fpf s')) src /\
  forall j i, nth_error src j = Some i -> nth_error (fcand s') j = nth_error (fcand s) i.
Proof.
  intros c u s s' w Hid Hw Hd Hu Hl H Ho. unfold resampleWithMapCopy in H.
  destruct (try_resample c u s) as [[f occ]| |] eqn:Et; try discriminate. cbn [obind] in H.
  destruct occ; [|injection H as <-; discriminate].
  destruct (try_true _ _ _ _ Et) as [b Eb].
  destruct (resample_built _ _ _ _ _ w Hw Hd Hu Eb) as (sel & src & H1 & H2 & H3 & H4).
  destruct (inherit_slots (pset (fpf s)) (pset f) (fcand s) src sel) as (cs & E & _ & H5); auto.
  { rewrite H1. apply kept_le. }
  rewrite E in H. cbn [obind] in H. injection H as <-. exists src. split; [exact H3|exact H5].
Qed.

Lemma too_many : forall c u (s : fsl P D C) w,
  (forall i p, nth_error (pset (fpf s)) i = Some p -> pid p = i) -> weights_of (pset (fpf s)) w -> all_data (pset (fpf s)) ->
  (0 <= u < 1)%Qc -> length (pset (fpf s)) <= length (fcand s) -> (nMax c < Z.of_nat (length (pset (fpf s))))%Z ->
  exists s', resampleWithMapCopy c u s = Val s' /\ focc s' = Some true.
Proof.
  intros c u s w Hid Hw Hd Hu Hl Hm. unfold resampleWithMapCopy, try_resample. destruct (Z.ltb_spec (nMax c) (Z.of_nat (length (pset (fpf s))))); [|lia].
  destruct (c26_slots P D (fpf s) (nInit c) u w Hw Hd Hu) as (f & sel & src & E & H1 & H2 & H3 & H4 & H5).
  rewrite E. cbn [obind].
  destruct (inherit_slots (pset (fpf s)) (pset f) (fcand s) src sel) as (cs & E' & _ & _); auto.
  { rewrite H1. exact H5. } { rewrite H1. apply kept_le. }
  rewrite E'. cbn [obind]. eexists. split; [reflexivity|reflexivity].
Qed.

(** No resampling yet: identifiers are slots. *)
Lemma step_all_ids : forall move stat l i l', step_all (Pose := P) (Data := D) move stat i l = Val l' -> map pid l' = map pid l.
Proof.
  intros move stat. induction l as [|p l IH]; intros i l' H; cbn [step_all] in H; [injection H as <-; reflexivity|].
  unfold step_part in H. destruct (pdata p) as [d|]; [|discriminate]. cbn [of_option obind] in H.
  destruct (step_all move stat (S i) l) as [r| |] eqn:E; try discriminate. cbn [obind] in H. injection H as <-.
  cbn. f_equal. eapply IH. exact E.
Qed.
Lemma step_all_length : forall move stat l i l', step_all (Pose := P) (Data := D) move stat i l = Val l' -> length l' = length l.
Proof. intros move stat l i l' H. apply step_all_ids in H. apply (f_equal (@length _)) in H. now rewrite !map_length in H. Qed.

Definition ids (l : list part) : Prop := map pid l = seq 0 (length l).
Lemma ids_nth : forall l, ids l <-> forall i p, nth_error l i = Some p -> pid p = i.
Proof.
  intros l. unfold ids. split.
  - intros G i p Hp. assert (E : nth_error (map pid l) i = Some (pid p)) by (rewrite nth_error_map, Hp; reflexivity).
    rewrite G in E. assert (Hl : i < length l) by (apply nth_error_Some; congruence).
    rewrite nth_error_nth' with (d := 0) in E by now rewrite seq_length. rewrite seq_nth in E by auto. injection E as <-. reflexivity.
  - intros G. apply nth_ext with (d := 0) (d' := 0); [now rewrite map_length, seq_length|].
    intros n Hn. rewrite map_length in Hn. rewrite seq_nth by exact Hn. cbn.
    destruct (nth_error l n) as [p|] eqn:Ep; [|apply nth_error_None in Ep; lia].
    erewrite nth_error_nth; [|rewrite nth_error_map, Ep; reflexivity]. now apply G.
Qed.
Lemma extends_ids : forall ps ps' : list part, extends ps ps' -> ids ps -> ids ps'.
Proof.
  intros ps ps' [Hl He] H. rewrite ids_nth in *. intros i q Hq. rewrite (He i q Hq).
  destruct (nth_error ps i) as [p|] eqn:Ep; [now apply H|reflexivity].
Qed.
Lemma norm_ids : forall l : list part, map pid (normalizeWeights l) = map pid l.
Proof. intros l. unfold normalizeWeights. rewrite map_map. apply map_ext. reflexivity. Qed.

Lemma grow_length : forall (cs : list (list C)) n, length (cs ++ repeat [] (n - length cs)) = Nat.max n (length cs).
Proof. intros. rewrite app_length, repeat_length. lia. Qed.

Lemma rw_cases : forall c u (s s' : fsl P D C), resampleWithMapCopy c u s = Val s' ->
  (focc s' = Some true /\ fupd s' = 0 /\ fmeas s' = 0 /\ exists b, resample (fpf s) (nInit c) b u = Val (fpf s', true)) \/
  (focc s' = Some false /\ fupd s' = fupd s /\ fmeas s' = fmeas s /\ fcand s' = fcand s /\
   (Z.of_nat (length (pset (fpf s))) <= nMax c)%Z /\
   exists f, (f = fpf s \/ f = PF (normalizeWeights (pset (fpf s))) (effT (fpf s)) (effPct (fpf s))) /\
   fpf s' = PF (normalizeWeights (pset f)) (effT (fpf s)) (effPct (fpf s))).
Proof.
  intros c u s s' H. unfold resampleWithMapCopy in H.
  destruct (try_resample c u s) as [[f occ]| |] eqn:Et; try discriminate. cbn [obind] in H. destruct occ.
  - left. destruct (for_ (length (pset f)) (inherit (pset f)) (fcand s)) as [cs| |]; try discriminate.
    cbn [obind] in H. injection H as <-. cbn. repeat split; auto. exact (try_true _ _ _ _ Et).
  - right. injection H as <-. cbn. unfold try_resample in Et.
    destruct (Z.ltb_spec (nMax c) (Z.of_nat (length (pset (fpf s))))) as [Hlt|Hge].
    { apply resample_refused in Et as [E _]. discriminate. }
    do 4 (split; [reflexivity|]). split; [exact Hge|]. exists f. destruct (due c s).
    + apply resample_refused in Et as (_ & -> & _). cbn. auto.
    + injection Et as <-. auto.
Qed.

Lemma inherit_length : forall (l : list part) (cs cs' : list (list C)) n k, for_from (inherit l) k n cs = Val cs' -> length cs' = length cs.
Proof.
  intros l cs cs' n. revert cs. induction n as [|n IH]; intros cs k H; cbn [for_from] in H; [injection H as <-; reflexivity|].
  destruct (inherit l k cs) as [t| |] eqn:E; try discriminate. cbn [obind] in H. rewrite (IH _ _ H).
  unfold inherit in E. destruct (nth_error l k) as [p|]; [|discriminate]. cbn [of_option obind] in E.
  destruct (pparent p =? k); [injection E as <-; reflexivity|].
  destruct (nth_error cs (pparent p)) as [q|]; [|discriminate]. cbn [of_option obind] in E.
  destruct (k <? length cs); [|discriminate]. injection E as <-. apply upd_length.
Qed.
Lemma rw_cands : forall c u (s s' : fsl P D C), resampleWithMapCopy c u s = Val s' -> length (fcand s') = length (fcand s).
Proof.
  intros c u s s' H. unfold resampleWithMapCopy in H.
  destruct (try_resample c u s) as [[f occ]| |] eqn:Et; try discriminate. cbn [obind] in H. destruct occ.
  - destruct (for_ (length (pset f)) (inherit (pset f)) (fcand s)) as [cs| |] eqn:E; try discriminate.
    cbn [obind] in H. injection H as <-. cbn. exact (inherit_length _ _ _ _ _ E).
  - injection H as <-. reflexivity.
Qed.

Lemma resample_length : forall (s : pf P D) n b u f, resample s n b u = Val (f, true) -> length (pset f) = kept n (length (pset s)).
Proof.
  intros s n b u f H. apply resample_forced in H. unfold resample in H. cbn [obind] in H.
  destruct (do_resample (normalizeWeights (pset s)) n u) as [l'| |] eqn:E; try discriminate. cbn [obind] in H. injection H as <-.
  unfold do_resample in E. rewrite norm_length, sample_count_kept in E.
  destruct (draw (map pw (normalizeWeights (pset s))) (kept n (length (pset s))) u) as [sel| |]; try discriminate. cbn [obind] in E.
  destruct (copy_loop _ _ _ _ _ _) as [l1| |] eqn:Ec; try discriminate. cbn [obind] in E. injection E as <-.
  cbn [pset]. rewrite map_length, firstn_length.
  assert (G : forall (sm : list nat) m fl pr nx (l l2 : list part), copy_loop m fl sm pr nx l = Val l2 -> length l2 = length l).
  { induction sm as [|a sm IH]; intros m fl pr nx l l2 H; cbn [copy_loop] in H; [injection H as <-; reflexivity|].
    destruct (nth_error l a) as [p|]; [|discriminate]. cbn [of_option obind] in H.
    destruct (_ && _) in H; [rewrite (IH _ _ _ _ _ _ H); apply upd_length|].
    destruct (if nx <? length l then _ else _) as [nx'| |] in H; try discriminate. cbn [obind] in H.
    destruct (copy p) as [q| |]; try discriminate. cbn [obind] in H.
    destruct (nx' <? length l); [|discriminate]. rewrite (IH _ _ _ _ _ _ H); apply upd_length. }
  rewrite (G _ _ _ _ _ _ _ Ec), norm_length. apply Nat.min_l, kept_le.
Qed.

(** Invariant of runs: enough candidate lists. *)
Definition ok (c : fcfg) (s : fsl P D C) : Prop := length (pset (fpf s)) <= length (fcand s).

Lemma call_cases : forall c (s s1 : fsl P D C) k, do_call c s k = Val s1 -> faithful c k -> ok c s ->
  (0 < maxHyp c) ->
  ok c s1 /\
  (ids (pset (fpf s)) -> (forall nz, ~ In (nz, true) (entry k s1)) -> ids (pset (fpf s1))).
Proof.
  intros c s s1 k H Hf Hok Hm. unfold ok in *. destruct k as [move stat|nz maps u|t]; cbn [do_call] in H; [| |injection H as <-; cbn; auto].
  - unfold predict in H. destruct (step_all move stat 0 (pset (fpf s))) as [l| |] eqn:E; try discriminate. cbn [obind] in H. injection H as <-.
    cbn. split; [now rewrite (step_all_length _ _ _ _ _ E)|]. intros Hi _. unfold ids in *.
    rewrite (step_all_ids _ _ _ _ _ E), (step_all_length _ _ _ _ _ E). exact Hi.
  - unfold update in H. destruct (Nat.eqb_spec nz 0) as [->|Hz].
    { injection H as <-. cbn [fpf fcand]. rewrite grow_length. split; [lia|auto]. }
    set (cs := fcand s ++ repeat [] (length (pset (fpf s)) * maxHyp c - length (fcand s))) in *.
    destruct (maps (focc s) (pset (fpf s)) cs) as [[ps cs']| |] eqn:Em; try discriminate. cbn [obind] in H.
    destruct (Hf _ _ _ _ _ Em) as (He & Hcl & Hc).
    assert (Hlc : length (pset (fpf s)) * maxHyp c <= length cs) by (unfold cs; rewrite grow_length; lia). specialize (Hc Hlc).
    assert (Hcd := rw_cands _ _ _ _ H). cbn [fcand] in Hcd.
    destruct (rw_cases _ _ _ _ H) as [(Ho & _ & _ & b & Eb)|(Ho & _ & _ & _ & _ & f & Hf' & Ef)]; cbn [fpf pset effT effPct] in *.
    + assert (Hk := resample_length _ _ _ _ _ Eb). cbn [pset] in Hk. assert (Hkl := kept_le (nInit c) (length ps)).
      split; [lia|]. intros _ Hn. exfalso. apply (Hn nz). cbn. rewrite Ho. left.
      destruct nz; [lia|reflexivity].
    + rewrite Ef. cbn [pset]. assert (Hfl : length (pset f) = length ps /\ map pid (pset f) = map pid ps).
      { destruct Hf' as [->| ->]; cbn [pset]; [auto|]. split; [apply norm_length|apply norm_ids]. }
      rewrite norm_length. destruct Hfl as [Hfl Hfi]. split; [lia|]. intros Hi _.
      assert (G := extends_ids _ _ He Hi). unfold ids in *. rewrite norm_ids, norm_length, Hfi, Hfl. exact G.
Qed.

Lemma new_ok : forall c n x0 d0, ok c (@fs_new P D C n x0 d0) /\ ids (pset (fpf (@fs_new P D C n x0 d0))).
Proof.
  intros. unfold ok, ids. cbn. rewrite !map_length, seq_length, repeat_length. split; [lia|].
  rewrite !map_map. cbn. apply map_id.
Qed.

Lemma logged_ids : forall c (s : fsl P D C) ks log s', logged c s ks log s' -> Forall (faithful c) ks -> 0 < maxHyp c -> ok c s ->
  ok c s' /\ (ids (pset (fpf s)) -> (forall nz, ~ In (nz, true) log) -> ids (pset (fpf s'))).
Proof.
  intros c s ks log s' H. induction H as [s|s k s1 ks log s' E H IH]; intros Hf Hm Hok; [auto|].
  inversion Hf; subst. destruct (call_cases _ _ _ _ E H2 Hok Hm) as [Ho1 Hi1].
  destruct (IH H3 Hm Ho1) as [Ho2 Hi2]. split; [exact Ho2|]. intros Hi Hn. apply Hi2.
  - apply Hi1; [exact Hi|]. intros nz Hin. apply (Hn nz). apply in_or_app. auto.
  - intros nz Hin. apply (Hn nz). apply in_or_app. auto.
Qed.

Theorem first_resampling : forall c n x0 d0 ks log (s s' : fsl P D C) nz maps u ps cs w,
  logged c (fs_new n x0 d0) ks log s -> Forall (faithful c) (ks ++ [Update nz maps u]) -> 0 < maxHyp c ->
  (forall z, ~ In (z, true) log) ->
  maps (focc s) (pset (fpf s)) (fcand s ++ repeat [] (length (pset (fpf s)) * maxHyp c - length (fcand s))) = Val (ps, cs) ->
  weights_of ps w -> all_data ps -> (0 <= u < 1)%Qc -> 0 < nz ->
  update c nz maps u s = Val s' -> focc s' = Some true ->
  exists src, built_from ps (pset (fpf s')) src /\
  forall j i, nth_error src j = Some i -> nth_error (fcand s') j = nth_error cs i.
Proof.
  intros c n x0 d0 ks log s s' nz maps u ps cs w Hl Hf Hm Hn Em Hw Hd Hu Hz H Ho.
  apply Forall_app in Hf as [Hf Hf1]. inversion Hf1 as [|? ? Hfm _]; subst.
  destruct (new_ok c n x0 d0) as [Hk Hi]. destruct (logged_ids _ _ _ _ _ Hl Hf Hm Hk) as [Hk' Hi'].
  specialize (Hi' Hi Hn). unfold update in H. destruct (Nat.eqb_spec nz 0); [lia|]. rewrite Em in H. cbn [obind] in H.
  destruct (Hfm _ _ _ _ _ Em) as (He & Hcl & Hc). unfold ok in Hk'. rewrite grow_length in Hc.
  apply copied with (w := w) in H; cbn [fpf pset fcand] in *; auto; [|apply Hc; lia].
  apply ids_nth. eapply extends_ids; eauto.
Qed.
End FR.
