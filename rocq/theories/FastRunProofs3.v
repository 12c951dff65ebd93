(** FastSLAM: trajectories, definedness of predict, weights when nothing is resampled. *)
From Coq Require Import ZArith QArith Qcanon List Bool Arith Lia Permutation.
From Verif Require Import Base ListUtil Loop QcLra ParticleModel ParticleSpec ParticleProofs ParticleProofs3 FastRunModel FastRunSpec FastRunProofs FastRunProofs2.
Import ListNotations.
Local Open Scope nat_scope.

Section FR.
Context {P D C : Type}.
Notation part := (particle P D).

(** Properties of pose, trajectory and data survive resampling. *)
Lemma copy_loop_state : forall (Q : P -> list P -> option D -> Prop) (sm : list nat) m fl pr nx (l l2 : list part), copy_loop m fl sm pr nx l = Val l2 ->
  (forall p, In p l -> Q (ppose p) (pprev p) (pdata p)) -> forall p, In p l2 -> Q (ppose p) (pprev p) (pdata p).
Proof.
  intros Q. induction sm as [|a sm IH]; intros m fl pr nx l l2 H Hq; cbn [copy_loop] in H; [injection H as <-; exact Hq|].
  destruct (nth_error l a) as [p|] eqn:Ep; [|discriminate]. cbn [of_option obind] in H.
  assert (Hp : Q (ppose p) (pprev p) (pdata p)) by (apply Hq; eapply nth_error_In; exact Ep).
  assert (U : forall i (q : part), ppose q = ppose p -> pprev q = pprev p -> pdata q = pdata p ->
    forall r, In r (upd l i q) -> Q (ppose r) (pprev r) (pdata r)).
  { intros i q E1 E2 E3 r Hr. apply In_nth_error in Hr as [j Hj]. destruct (Nat.eq_dec i j) as [->|Hij].
    - assert (j < length l) by (rewrite <- (upd_length _ l j q); apply nth_error_Some; congruence).
      rewrite nth_error_upd_eq in Hj by assumption. injection Hj as <-. now rewrite E1, E2, E3.
    - rewrite nth_error_upd_neq in Hj by auto. apply Hq. eapply nth_error_In. exact Hj. }
  destruct (_ && _) in H; [eapply IH; [exact H|]; now apply U|].
  destruct (if nx <? length l then _ else _) as [nx'| |] in H; try discriminate. cbn [obind] in H.
  unfold copy in H. destruct (pdata p) as [d|] eqn:Ed; [|discriminate]. cbn [obind] in H.
  destruct (nx' <? length l); [|discriminate]. eapply IH; [exact H|]. now apply U.
Qed.
Lemma norm_state : forall (Q : P -> list P -> option D -> Prop) (l : list part),
  (forall p, In p l -> Q (ppose p) (pprev p) (pdata p)) -> forall p, In p (normalizeWeights l) -> Q (ppose p) (pprev p) (pdata p).
Proof. intros Q l H p Hp. unfold normalizeWeights in Hp. apply in_map_iff in Hp as (q & <- & Hq). exact (H q Hq). Qed.
Lemma resample_state : forall (Q : P -> list P -> option D -> Prop) (s : pf P D) n b u f o, resample s n b u = Val (f, o) ->
  (forall p, In p (pset s) -> Q (ppose p) (pprev p) (pdata p)) -> forall p, In p (pset f) -> Q (ppose p) (pprev p) (pdata p).
Proof.
  intros Q s n b u f o H Hq. assert (Hn := norm_state Q _ Hq). destruct o.
  - apply resample_forced in H. unfold resample in H. cbn [obind] in H.
    destruct (do_resample (normalizeWeights (pset s)) n u) as [l'| |] eqn:E; try discriminate. cbn [obind] in H. injection H as <-.
    unfold do_resample in E. destruct (draw _ _ _) as [sel| |] in E; try discriminate. cbn [obind] in E.
    destruct (copy_loop _ _ _ _ _ _) as [l1| |] eqn:Ec; try discriminate. cbn [obind] in E. injection E as <-.
    intros p Hp. cbn [pset] in Hp. apply in_map_iff in Hp as (q & <- & Hq'). cbn.
    eapply copy_loop_state; [exact Ec|exact Hn|]. rewrite <- (firstn_skipn (sample_count n (length (normalizeWeights (pset s)))) l1).
    apply in_or_app. left. exact Hq'.
  - apply resample_refused in H as (_ & -> & _). exact Hn.
Qed.

Definition on_path (x0 : P) (ms : list (nat -> P -> P)) (s : fsl P D C) : Prop :=
  forall p, In p (pset (fpf s)) -> path x0 ms (ppose p :: pprev p) /\ pdata p <> None.

Lemma step_all_path : forall x0 ms move stat l i l', step_all (Pose := P) (Data := D) move stat i l = Val l' ->
  (forall p, In p l -> path x0 ms (ppose p :: pprev p) /\ pdata p <> None) ->
  forall p, In p l' -> path x0 (ms ++ [move]) (ppose p :: pprev p) /\ pdata p <> None.
Proof.
  intros x0 ms move stat. induction l as [|q l IH]; intros i l' H Hl p Hp; cbn [step_all] in H; [injection H as <-; destruct Hp|].
  unfold step_part in H. destruct (pdata q) as [d|] eqn:Ed; [|discriminate]. cbn [of_option obind] in H.
  destruct (step_all move stat (S i) l) as [r| |] eqn:E; try discriminate. cbn [obind] in H. injection H as <-.
  destruct Hp as [<-|Hp].
  - cbn. split; [|discriminate]. apply path_step. apply Hl. now left.
  - apply (IH _ _ E); [|exact Hp]. intros p' Hp'. apply Hl. now right.
Qed.

Lemma call_path : forall c x0 ms (s s1 : fsl P D C) k, do_call c s k = Val s1 -> keeps_paths k ->
  on_path x0 ms s -> on_path x0 (ms ++ motions [k]) s1.
Proof.
  intros c x0 ms s s1 k H Hk Hp. destruct k as [move stat|nz maps u|t]; cbn [do_call motions] in *.
  - unfold predict in H. destruct (step_all move stat 0 (pset (fpf s))) as [l| |] eqn:E; try discriminate.
    cbn [obind] in H. injection H as <-. unfold on_path. cbn [fpf pset]. exact (step_all_path _ _ _ _ _ _ _ E Hp).
  - rewrite app_nil_r. unfold update in H. destruct (nz =? 0); [injection H as <-; exact Hp|].
    destruct (maps _ _ _) as [[ps cs']| |] eqn:Em; try discriminate. cbn [obind] in H.
    assert (Hps : forall p, In p ps -> path x0 ms (ppose p :: pprev p) /\ pdata p <> None).
    { intros q Hq. destruct (Hk _ _ _ _ _ Em (fun p Hp' => proj2 (Hp p Hp')) q Hq) as (Hd & p & Hin & -> & ->).
      split; [exact (proj1 (Hp p Hin))|exact Hd]. }
    set (Q := fun (x : P) (l : list P) (d : option D) => path x0 ms (x :: l) /\ d <> None).
    unfold on_path. destruct (rw_cases _ _ _ _ H) as [(_ & _ & _ & b & Eb)|(_ & _ & _ & _ & _ & f & Hf' & Ef)]; cbn [fpf pset effT effPct] in *.
    + exact (resample_state Q _ _ _ _ _ _ Eb Hps).
    + rewrite Ef. cbn [pset]. apply (norm_state Q). destruct Hf' as [->| ->]; cbn [pset]; [exact Hps|]. exact (norm_state Q _ Hps).
  - rewrite app_nil_r. injection H as <-. exact Hp.
Qed.

Lemma new_path : forall n x0 d0, on_path x0 [] (@fs_new P D C n x0 d0).
Proof.
  intros n x0 d0 p Hp. cbn in Hp. apply in_map_iff in Hp as (q & <- & Hq). apply in_map_iff in Hq as (i & <- & _).
  cbn. split; [constructor|discriminate].
Qed.
Lemma motions_cons : forall (k : call P D C) ks, motions (k :: ks) = motions [k] ++ motions ks.
Proof. intros [move stat|nz maps u|t] ks; reflexivity. Qed.
Lemma logged_path : forall c x0 ms (s : fsl P D C) ks log s', logged c s ks log s' -> Forall keeps_paths ks -> on_path x0 ms s ->
  on_path x0 (ms ++ motions ks) s'.
Proof.
  intros c x0 ms s ks log s' H. revert ms. induction H as [s|s k s1 ks log s' E H IH]; intros ms Hf Hi.
  { cbn. now rewrite app_nil_r. }
  inversion Hf; subst. rewrite motions_cons, app_assoc. apply IH; [assumption|]. eapply call_path; eauto.
Qed.

Theorem trajectories : forall c n x0 d0 ks log (s : fsl P D C),
  logged c (fs_new n x0 d0) ks log s -> Forall keeps_paths ks ->
  (forall p, In p (pset (fpf s)) -> path x0 (motions ks) (ppose p :: pprev p)) /\
  forall move stat, exists s', predict move stat s = Val s'.
Proof.
  intros c n x0 d0 ks log s H Hf. assert (G := logged_path _ _ _ _ _ _ _ H Hf (new_path n x0 d0)). cbn [app] in G.
  split; [intros p Hp; exact (proj1 (G p Hp))|]. intros move stat. unfold predict.
  assert (A : forall l i, (forall p : part, In p l -> pdata p <> None) -> exists l', step_all move stat i l = Val l').
  { induction l as [|p l IH]; intros i Hl; cbn [step_all]; [eauto|]. unfold step_part.
    assert (Hp := Hl p (or_introl eq_refl)). destruct (pdata p) as [d|]; [|congruence]. cbn [of_option obind].
    destruct (IH (S i)) as [l' ->]; [intros q Hq; apply Hl; now right|]. cbn [obind]. eauto. }
  destruct (A (pset (fpf s)) 0) as [l' ->]; [intros p Hp; exact (proj2 (G p Hp))|]. cbn [obind]. eauto.
Qed.
Lemma path_length : forall (x0 : P) ms l, path x0 ms l -> length l = S (length ms).
Proof. intros x0 ms l H. induction H as [|ms x r move i H IH]; [reflexivity|]. rewrite app_length. cbn in *. lia. Qed.

(** Weights when the update does not resample. *)
Theorem not_resampled : forall c (s s' : fsl P D C) nz maps u ps cs w,
  0 < nz ->
  maps (focc s) (pset (fpf s)) (fcand s ++ repeat [] (length (pset (fpf s)) * maxHyp c - length (fcand s))) = Val (ps, cs) ->
  weights_of ps w -> update c nz maps u s = Val s' -> focc s' <> Some true ->
  fcand s' = cs /\ map pw (pset (fpf s')) = map (fun x => Some (x / qsum w)%Qc) w /\
  map (fun p => (pid p, pparent p, ppose p, pprev p, pdata p)) (pset (fpf s')) =
  map (fun p => (pid p, pparent p, ppose p, pprev p, pdata p)) ps.
Proof.
  intros c s s' nz maps u ps cs w Hz Em Hw H Ho. unfold update in H. destruct (Nat.eqb_spec nz 0); [lia|].
  rewrite Em in H. cbn [obind] in H.
  destruct (rw_cases _ _ _ _ H) as [(Ht & _)|(_ & _ & _ & Hc & _ & f & Hf' & Ef)]; [congruence|].
  cbn [fpf pset effT effPct fcand] in *. rewrite Ef. cbn [pset]. split; [exact Hc|].
  assert (S : forall l : list part, map (fun p => (pid p, pparent p, ppose p, pprev p, pdata p)) (normalizeWeights l) =
    map (fun p => (pid p, pparent p, ppose p, pprev p, pdata p)) l).
  { intros l. unfold normalizeWeights. rewrite map_map. apply map_ext. reflexivity. }
  assert (Hpos : qsum w <> 0%Qc) by (destruct Hw as (_ & _ & Hs); now apply Qcpos_neq).
  assert (W := norm_weights P D ps w Hw).
  destruct Hf' as [->| ->]; cbn [pset].
  - rewrite W, map_map. split; [reflexivity|apply S].
  - rewrite !S. split; [|reflexivity].
    assert (Hw' : weights_of (normalizeWeights ps) (map (fun x => x / qsum w)%Qc w)).
    { destruct Hw as (_ & Hn & Hs). split; [exact W|]. split.
      - intros x Hx. apply in_map_iff in Hx as (y & <- & Hy). specialize (Hn y Hy).
        assert (E := Qcdiv_mul y (qsum w) Hpos). destruct (Qclt_le_dec (y / qsum w) 0) as [Hl|Hl]; [|exact Hl].
        exfalso. set (z := (y / qsum w)%Qc) in *. clearbody z. clear - E Hl Hn Hs. qcnra.
      - rewrite qsum_scale. replace (qsum w / qsum w)%Qc with 1%Qc by (field; auto). reflexivity. }
    rewrite (norm_weights P D _ _ Hw'), !map_map. apply map_ext. intros x. f_equal. rewrite qsum_scale.
    replace (qsum w / qsum w)%Qc with 1%Qc by (field; auto). field. first [exact Hpos | split; first [exact Hpos | discriminate]].
Qed.
End FR.
