(** FastSLAM: counters, decision, bounds on the number of particles, definedness of update. *)
From Coq Require Import ZArith QArith Qcanon List Bool Arith Lia Permutation.
From Verif Require Import Base ListUtil Loop QcLra ParticleModel ParticleSpec ParticleProofs ParticleProofs3 FastRunModel FastRunSpec FastRunProofs.
Import ListNotations.
Local Open Scope nat_scope.

Section FR.
Context {P D C : Type}.
Notation part := (particle P D).

Lemma call_count : forall c (s s1 : fsl P D C) k, do_call c s k = Val s1 ->
  fupd s1 = (if existsb snd (entry k s1) then 0 else fupd s) + updates_since (entry k s1) /\
  fmeas s1 = (if existsb snd (entry k s1) then 0 else fmeas s) + measurements_since (entry k s1).
Proof.
  intros c s s1 k H. destruct k as [move stat|nz maps u|t]; cbn [do_call] in H.
  - unfold predict in H. destruct (step_all move stat 0 (pset (fpf s))) as [l| |]; try discriminate.
    cbn [obind] in H. injection H as <-. cbn. lia.
  - unfold update in H. destruct (Nat.eqb_spec nz 0) as [->|Hz].
    + injection H as <-. cbn. lia.
    + destruct (maps _ _ _) as [[ps cs']| |]; try discriminate. cbn [obind] in H.
      assert (E : (0 <? nz) = true) by (apply Nat.ltb_lt; lia). unfold entry. rewrite E. cbn [existsb snd updates_since measurements_since andb].
      destruct (rw_cases _ _ _ _ H) as [(Ho & Hu & Hm & _)|(Ho & Hu & Hm & _)]; rewrite Ho, Hu, Hm; cbn; lia.
  - injection H as <-. cbn. lia.
Qed.

Lemma since_app : forall l r, existsb snd r = true -> updates_since (l ++ r) = updates_since r /\ measurements_since (l ++ r) = measurements_since r.
Proof.
  induction l as [|[z b] l IH]; intros r H; [auto|]. cbn [app updates_since measurements_since].
  rewrite existsb_app, H, orb_true_r. now apply IH.
Qed.
Lemma entry_app : forall (k : call P D C) s1 r, existsb snd r = false ->
  updates_since (entry k s1 ++ r) = updates_since (entry k s1) + updates_since r /\
  measurements_since (entry k s1 ++ r) = measurements_since (entry k s1) + measurements_since r.
Proof.
  intros k s1 r H. destruct k as [move stat|nz maps u|t]; [auto| |auto]. cbn [entry app updates_since measurements_since].
  rewrite H. cbn [existsb]. lia.
Qed.

Lemma count_from : forall c (s : fsl P D C) ks log s', logged c s ks log s' ->
  fupd s' = (if existsb snd log then 0 else fupd s) + updates_since log /\
  fmeas s' = (if existsb snd log then 0 else fmeas s) + measurements_since log.
Proof.
  intros c s ks log s' H. induction H as [s|s k s1 ks log s' E H [IH1 IH2]]; [cbn; lia|].
  destruct (call_count _ _ _ _ E) as [H1 H2]. rewrite existsb_app, IH1, IH2, H1, H2.
  destruct (existsb snd log) eqn:El.
  - destruct (since_app (entry k s1) log El) as [-> ->]. rewrite orb_true_r. lia.
  - destruct (entry_app k s1 log El) as [-> ->]. rewrite orb_false_r. destruct (existsb snd (entry k s1)); lia.
Qed.

Theorem counters : forall c n x0 d0 ks log (s : fsl P D C), logged c (fs_new n x0 d0) ks log s ->
  fupd s = updates_since log /\ fmeas s = measurements_since log.
Proof. intros c n x0 d0 ks log s H. destruct (count_from _ _ _ _ _ H) as [H1 H2]. cbn in H1, H2. destruct (existsb snd log); lia. Qed.

Lemma to_uint_id : forall z, (0 <= z < 2 ^ 32)%Z -> to_uint z = z.
Proof. intros z H. unfold to_uint. now apply Z.mod_small. Qed.

Lemma try_false : forall c u (s : fsl P D C) f, try_resample c u s = Val (f, false) ->
  (Z.of_nat (length (pset (fpf s))) <= nMax c)%Z /\
  (due c s = false \/ resample (fpf s) (nInit c) false u = Val (f, false)).
Proof.
  intros c u s f H. unfold try_resample in H. destruct (Z.ltb_spec (nMax c) (Z.of_nat (length (pset (fpf s))))).
  - apply resample_refused in H as [H _]. discriminate.
  - split; [assumption|]. destruct (due c s); auto.
Qed.

Theorem decision : forall c n x0 d0 ks log (s s' : fsl P D C) nz maps u ps cs w t pc,
  logged c (fs_new n x0 d0) ks log s -> 0 < nz ->
  maps (focc s) (pset (fpf s)) (fcand s ++ repeat [] (length (pset (fpf s)) * maxHyp c - length (fcand s))) = Val (ps, cs) ->
  weights_of ps w -> effT (fpf s) = Some (Some t) -> effPct (fpf s) = Some (Some pc) ->
  (0 <= minUpd c < 2 ^ 32)%Z -> (0 <= minMeas c < 2 ^ 32)%Z ->
  update c nz maps u s = Val s' ->
  let neff := (qsum w * qsum w / qsum (map (fun x => x * x) w))%Qc in
  (focc s' = Some true <->
    (nMax c < Z.of_nat (length ps))%Z \/
    (minUpd c <= Z.of_nat (1 + updates_since log))%Z /\ (minMeas c <= Z.of_nat (measurements_since log + nz))%Z /\
    ~ (t < neff /\ pc < neff / QcN (length w))%Qc).
Proof.
  intros c n x0 d0 ks log s s' nz maps u ps cs w t pc Hl Hz Em Hw Ht Hp Hu Hm H neff.
  destruct (counters _ _ _ _ _ _ _ Hl) as [C1 C2].
  unfold update in H. destruct (Nat.eqb_spec nz 0); [lia|]. rewrite Em in H. cbn [obind] in H.
  set (s1 := FL _ _ _ _ _) in H.
  destruct (check_ok P D (fpf s1) (nInit c) u w t pc Hw Ht Hp) as [K1 K2]. fold neff in K1, K2. change (sqsum w) with (qsum (map (fun x => (x * x)%Qc) w)) in *.
  assert (Hdue : due c s1 = true <-> (minUpd c <= Z.of_nat (1 + updates_since log))%Z /\ (minMeas c <= Z.of_nat (measurements_since log + nz))%Z).
  { unfold due. cbn [s1 fupd fmeas]. rewrite C1, C2, andb_true_iff, !Z.leb_le, !to_uint_id by assumption. reflexivity. }
  unfold resampleWithMapCopy in H. destruct (try_resample c u s1) as [[f occ]| |] eqn:Et; try discriminate. cbn [obind] in H.
  destruct occ.
  - destruct (for_ _ _ _) as [cs1| |] in H; try discriminate. cbn [obind] in H. injection H as <-. cbn [focc].
    split; [intros _|reflexivity]. unfold try_resample in Et. cbn [s1 fpf pset] in Et.
    destruct (Z.ltb_spec (nMax c) (Z.of_nat (length ps))) as [|Hge]; [auto|]. right.
    destruct (due c s1) eqn:Ed; [|discriminate]. destruct Hdue as [Hdue _]. destruct (Hdue eq_refl) as [D1 D2].
    split; [exact D1|]. split; [exact D2|]. intros Hn. specialize (K1 Hn). cbn [s1 fpf] in K1. rewrite K1 in Et. discriminate.
  - injection H as <-. cbn [focc]. split; [discriminate|]. intros Hc. exfalso.
    destruct (try_false _ _ _ _ Et) as [F1 F2]. cbn [s1 fpf pset] in F1.
    destruct Hc as [Hc|(D1 & D2 & Hn)]; [lia|].
    destruct F2 as [F2|F2]; [rewrite (proj2 Hdue (conj D1 D2)) in F2; discriminate|].
    specialize (K2 Hn). rewrite K2 in F2. apply resample_refused in F2 as [F2 _]. discriminate.
Qed.

(** Number of particles. *)
Lemma kept_bounds : forall n N, 0 < n -> n <= N -> kept n N = n.
Proof. intros n N H1 H2. unfold kept. destruct (Nat.eqb_spec n 0); lia. Qed.

Lemma call_bounds : forall c (s s1 : fsl P D C) k, do_call c s k = Val s1 -> faithful c k -> 0 < nInit c ->
  let I (s : fsl P D C) := nInit c <= length (pset (fpf s)) /\ (Z.of_nat (length (pset (fpf s))) <= Z.max (nMax c) (Z.of_nat (nInit c)))%Z in
  I s -> I s1.
Proof.
  intros c s s1 k H Hf Hn I [I1 I2]. unfold I. destruct k as [move stat|nz maps u|t]; cbn [do_call] in H.
  - unfold predict in H. destruct (step_all move stat 0 (pset (fpf s))) as [l| |] eqn:E; try discriminate.
    cbn [obind] in H. injection H as <-. cbn [fpf pset]. rewrite (step_all_length _ _ _ _ _ E). auto.
  - unfold update in H. destruct (Nat.eqb_spec nz 0) as [->|Hz]; [injection H as <-; auto|].
    destruct (maps _ _ _) as [[ps cs']| |] eqn:Em; try discriminate. cbn [obind] in H.
    destruct (Hf _ _ _ _ _ Em) as ((He & _) & _).
    destruct (rw_cases _ _ _ _ H) as [(_ & _ & _ & b & Eb)|(_ & _ & _ & _ & Hm & f & Hf' & Ef)]; cbn [fpf pset effT effPct] in *.
    + rewrite (resample_length _ _ _ _ _ Eb). cbn [pset]. rewrite kept_bounds by lia. lia.
    + rewrite Ef. cbn [pset]. rewrite norm_length.
      assert (length (pset f) = length ps) by (destruct Hf' as [->| ->]; cbn [pset]; [reflexivity|apply norm_length]). lia.
  - injection H as <-. cbn. auto.
Qed.

Theorem bounds : forall c n x0 d0 ks log (s : fsl P D C), logged c (fs_new n x0 d0) ks log s ->
  Forall (faithful c) ks -> nInit c = n -> 0 < n ->
  n <= length (pset (fpf s)) /\ (Z.of_nat (length (pset (fpf s))) <= Z.max (nMax c) (Z.of_nat n))%Z.
Proof.
  intros c n x0 d0 ks log s H Hf En Hn. subst n.
  assert (G : forall (s0 : fsl P D C) ks log s, logged c s0 ks log s -> Forall (faithful c) ks ->
    (nInit c <= length (pset (fpf s0)) /\ (Z.of_nat (length (pset (fpf s0))) <= Z.max (nMax c) (Z.of_nat (nInit c)))%Z) ->
    nInit c <= length (pset (fpf s)) /\ (Z.of_nat (length (pset (fpf s))) <= Z.max (nMax c) (Z.of_nat (nInit c)))%Z).
  { clear - Hn. intros s0 ks log s H. induction H as [s|s k s1 ks log s' E H IH]; intros Hf Hi; [exact Hi|].
    inversion Hf; subst. apply IH; [assumption|]. apply (call_bounds _ _ _ _ E); auto. }
  apply (G _ _ _ _ H Hf). cbn. rewrite !map_length, seq_length. lia.
Qed.

(** Identifiers never leave the candidate lists. *)
Lemma copy_loop_pids : forall (Q : nat -> Prop) (sm : list nat) m fl pr nx (l l2 : list part), copy_loop m fl sm pr nx l = Val l2 ->
  (forall p, In p l -> Q (pid p)) -> forall p, In p l2 -> Q (pid p).
Proof.
  intros Q. induction sm as [|a sm IH]; intros m fl pr nx l l2 H Hq; cbn [copy_loop] in H; [injection H as <-; exact Hq|].
  destruct (nth_error l a) as [p|] eqn:Ep; [|discriminate]. cbn [of_option obind] in H.
  assert (Hp : Q (pid p)) by (apply Hq; eapply nth_error_In; exact Ep).
  assert (U : forall i (q : part), pid q = pid p -> forall r, In r (upd l i q) -> Q (pid r)).
  { intros i q Eq r Hr. apply In_nth_error in Hr as [j Hj]. destruct (Nat.eq_dec i j) as [->|Hij].
    - assert (j < length l) by (rewrite <- (upd_length _ l j q); apply nth_error_Some; congruence).
      rewrite nth_error_upd_eq in Hj by assumption. injection Hj as <-. now rewrite Eq.
    - rewrite nth_error_upd_neq in Hj by auto. apply Hq. eapply nth_error_In. exact Hj. }
  destruct (_ && _) in H; [eapply IH; [exact H|]; now apply U|].
  destruct (if nx <? length l then _ else _) as [nx'| |] in H; try discriminate. cbn [obind] in H.
  unfold copy in H. destruct (pdata p) as [d|]; [|discriminate]. cbn [obind] in H.
  destruct (nx' <? length l); [|discriminate]. eapply IH; [exact H|]. now apply U.
Qed.
Lemma resample_pids : forall (Q : nat -> Prop) (s : pf P D) n b u f o, resample s n b u = Val (f, o) ->
  (forall p, In p (pset s) -> Q (pid p)) -> forall p, In p (pset f) -> Q (pid p).
Proof.
  intros Q s n b u f o H Hq.
  assert (Hn : forall p, In p (normalizeWeights (pset s)) -> Q (pid p)).
  { intros p Hp. unfold normalizeWeights in Hp. apply in_map_iff in Hp as (q & <- & Hq'). exact (Hq q Hq'). }
  destruct o.
  - apply resample_forced in H. unfold resample in H. cbn [obind] in H.
    destruct (do_resample (normalizeWeights (pset s)) n u) as [l'| |] eqn:E; try discriminate. cbn [obind] in H. injection H as <-.
    unfold do_resample in E. destruct (draw _ _ _) as [sel| |] in E; try discriminate. cbn [obind] in E.
    destruct (copy_loop _ _ _ _ _ _) as [l1| |] eqn:Ec; try discriminate. cbn [obind] in E. injection E as <-.
    intros p Hp. cbn [pset] in Hp. apply in_map_iff in Hp as (q & <- & Hq'). cbn.
    eapply copy_loop_pids; [exact Ec|exact Hn|]. rewrite <- (firstn_skipn (sample_count n (length (normalizeWeights (pset s)))) l1).
    apply in_or_app. left. exact Hq'.
  - apply resample_refused in H as (_ & -> & _). exact Hn.
Qed.

Definition inside (s : fsl P D C) : Prop := forall p, In p (pset (fpf s)) -> pid p < length (fcand s).

Lemma extends_inside : forall (ps ps' : list part) m, extends ps ps' -> (forall p, In p ps -> pid p < m) -> length ps' <= m ->
  forall p, In p ps' -> pid p < m.
Proof.
  intros ps ps' m [_ He] Hi Hl p Hp. apply In_nth_error in Hp as [i Hp]. rewrite (He i p Hp).
  destruct (nth_error ps i) as [q|] eqn:Eq; [apply Hi; eapply nth_error_In; exact Eq|].
  apply Nat.lt_le_trans with (length ps'); [apply nth_error_Some; congruence|exact Hl].
Qed.

Lemma call_inside : forall c (s s1 : fsl P D C) k, do_call c s k = Val s1 -> faithful c k -> inside s -> inside s1.
Proof.
  intros c s s1 k H Hf Hi. destruct k as [move stat|nz maps u|t]; cbn [do_call] in H.
  - unfold predict in H. destruct (step_all move stat 0 (pset (fpf s))) as [l| |] eqn:E; try discriminate.
    cbn [obind] in H. injection H as <-. unfold inside in *. cbn [fpf pset fcand]. intros p Hp.
    assert (Hm : In (pid p) (map pid (pset (fpf s)))) by (rewrite <- (step_all_ids _ _ _ _ _ E); now apply in_map).
    apply in_map_iff in Hm as (q & <- & Hq). now apply Hi.
  - unfold update in H. destruct (Nat.eqb_spec nz 0) as [->|Hz].
    { injection H as <-. unfold inside in *. cbn [fpf fcand]. intros p Hp. rewrite grow_length. specialize (Hi p Hp). lia. }
    destruct (maps _ _ _) as [[ps cs']| |] eqn:Em; try discriminate. cbn [obind] in H.
    destruct (Hf _ _ _ _ _ Em) as (He & Hcl & Hc). rewrite grow_length in Hcl, Hc. specialize (Hc (Nat.le_max_l _ _)).
    assert (Hcd := rw_cands _ _ _ _ H). cbn [fcand] in Hcd.
    assert (Hps : forall p, In p ps -> pid p < length cs').
    { apply (extends_inside _ _ _ He); [|exact Hc]. intros p Hp. specialize (Hi p Hp). lia. }
    unfold inside. rewrite Hcd.
    destruct (rw_cases _ _ _ _ H) as [(_ & _ & _ & b & Eb)|(_ & _ & _ & _ & _ & f & Hf' & Ef)]; cbn [fpf pset effT effPct] in *.
    + exact (resample_pids (fun i => i < length cs') _ _ _ _ _ _ Eb Hps).
    + rewrite Ef. cbn [pset]. intros p Hp.
      assert (Hin : In (pid p) (map pid ps)).
      { apply (in_map pid) in Hp. rewrite norm_ids in Hp. destruct Hf' as [->| ->]; cbn [pset] in Hp; [exact Hp|]. now rewrite norm_ids in Hp. }
      apply in_map_iff in Hin as (q & <- & Hq). now apply Hps.
  - injection H as <-. exact Hi.
Qed.

Lemma new_inside : forall n x0 d0, inside (@fs_new P D C n x0 d0).
Proof.
  intros n x0 d0 p Hp. cbn in *. rewrite repeat_length. apply in_map_iff in Hp as (q & <- & Hq).
  apply in_map_iff in Hq as (i & <- & Hi). apply in_seq in Hi. cbn. lia.
Qed.
Lemma logged_inside : forall c (s : fsl P D C) ks log s', logged c s ks log s' -> Forall (faithful c) ks -> inside s -> inside s'.
Proof.
  intros c s ks log s' H. induction H as [s|s k s1 ks log s' E H IH]; intros Hf Hi; [exact Hi|].
  inversion Hf; subst. apply IH; [assumption|]. eapply call_inside; eauto.
Qed.

Theorem defined : forall c n x0 d0 ks log (s : fsl P D C) nz maps u ps cs w t pc,
  logged c (fs_new n x0 d0) ks log s -> Forall (faithful c) (ks ++ [Update nz maps u]) ->
  maps (focc s) (pset (fpf s)) (fcand s ++ repeat [] (length (pset (fpf s)) * maxHyp c - length (fcand s))) = Val (ps, cs) ->
  weights_of ps w -> all_data ps -> (0 <= u < 1)%Qc -> effT (fpf s) = Some (Some t) -> effPct (fpf s) = Some (Some pc) ->
  exists s', update c nz maps u s = Val s'.
Proof.
  intros c n x0 d0 ks log s nz maps u ps cs w t pc Hl Hf Em Hw Hd Hu Ht Hp.
  apply Forall_app in Hf as [Hf Hf1]. inversion Hf1 as [|? ? Hfm _]; subst.
  assert (Hi := logged_inside _ _ _ _ _ Hl Hf (new_inside n x0 d0)).
  unfold update. destruct (nz =? 0); [eauto|]. rewrite Em. cbn [obind].
  destruct (Hfm _ _ _ _ _ Em) as (He & Hcl & Hc). rewrite grow_length in Hcl, Hc. specialize (Hc (Nat.le_max_l _ _)).
  assert (Hps : forall p, In p ps -> pid p < length cs).
  { apply (extends_inside _ _ _ He); [|exact Hc]. intros p Hp'. specialize (Hi p Hp'). lia. }
  set (s1 := FL _ _ _ _ _). unfold resampleWithMapCopy.
  assert (Hr : forall b, exists f o, resample (fpf s1) (nInit c) b u = Val (f, o)).
  { destruct (c26_slots P D (fpf s1) (nInit c) u w Hw Hd Hu) as (f & _ & _ & E & _).
    intros [|]; [eauto|]. destruct (check_ok P D (fpf s1) (nInit c) u w t pc Hw Ht Hp) as [K1 K2].
    set (a := (qsum w * qsum w / sqsum w)%Qc) in *.
    destruct (Qclt_le_dec t a) as [Ha|Ha]; [destruct (Qclt_le_dec pc (a / QcN (length w))) as [Hb|Hb]|].
    - rewrite K1 by auto. eauto.
    - rewrite K2; [eauto|]. intros [_ Hc']. exact (Qclt_not_le _ _ Hc' Hb).
    - rewrite K2; [eauto|]. intros [Hc' _]. exact (Qclt_not_le _ _ Hc' Ha). }
  assert (Ht' : exists f o, try_resample c u s1 = Val (f, o)).
  { unfold try_resample. destruct (_ <? _)%Z; [apply Hr|]. destruct (due c s1); [apply Hr|eauto]. }
  destruct Ht' as (f & o & E). rewrite E. cbn [obind]. destruct o; [|eauto].
  destruct (try_true _ _ _ _ E) as [b Eb].
  destruct (resample_built (fpf s1) _ _ _ _ w Hw Hd Hu Eb) as (sel & src & H1 & H2 & [H3a H3] & H4). cbn [s1 fpf pset] in H1, H3.
  destruct (inherit_exact (pset f) (fcand s1)) as (cs1 & E1 & _).
  { split; cbn [s1 fcand].
    - rewrite H1. assert (Hk := kept_le (nInit c) (length ps)). lia.
    - intros p Hp'. apply In_nth_error in Hp' as [j Hj]. destruct (H3 j p Hj) as (i & q & _ & Hq & _ & _ & _ & _ & He' & _).
      rewrite He'. apply Hps. eapply nth_error_In. exact Hq. }
  rewrite E1. cbn [obind]. eauto.
Qed.
End FR.
