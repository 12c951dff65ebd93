From Coq Require Import List Arith Lia Permutation.
From Verif Require Import Base ListUtil PropagateModel.
Import ListNotations.

Section Proofs.
Variable Pose : Type.
Variable f : Pose -> Pose.
Variable maintain : bool.
Variable ps0 : list (Pose * list Pose).

Definition ghist (x : Pose) (h : list Pose) := if maintain then x :: h else h.

(** Iterations not yet finished; those past their first statement. *)
Definition open_its (l : list thread) : list nat := flat_map todo l.

Lemma flat_upd : forall (l : list thread) t a b, nth_error l t = Some a ->
  exists l1 l2, l = l1 ++ a :: l2 /\ upd l t b = l1 ++ b :: l2.
Proof. intros l t a b H. destruct (upd_split _ l t a b H) as (l1 & l2 & H1 & _ & H2). eauto. Qed.

Record inv (c : config Pose) : Prop := {
  v_nd : NoDup (open_its (ths c));
  v_len : length (parts c) = length ps0;
  v_b : forall i, In i (open_its (ths c)) -> i < length ps0;
  v_read : forall r i, In (TH (i :: r) Read) (ths c) -> nth_error (parts c) i = nth_error ps0 i;
  v_later : forall r i p, In (TH (i :: r) p) (ths c) -> p <> Read ->
     exists x h, nth_error ps0 i = Some (x, h) /\ nth_error (parts c) i = Some (x, ghist x h);
  v_tail : forall t i, In t (ths c) -> In i (tl (todo t)) -> nth_error (parts c) i = nth_error ps0 i;
  v_done : forall i, i < length ps0 -> ~ In i (open_its (ths c)) ->
     exists x h y h', nth_error ps0 i = Some (x, h) /\ In (y, h') ps0 /\ nth_error (parts c) i = Some (f y, ghist x h);
  v_km : (exists t, In t (ths c) /\ ph t <> Read) -> exists h, In (xkm c, h) ps0;
  v_k : (exists t, In t (ths c) /\ ph t = Write) -> exists y h, In (y, h) ps0 /\ xk c = f y
}.

Lemma in_open : forall l t i, In t l -> In i (todo t) -> In i (open_its l).
Proof. intros. apply in_flat_map. eauto. Qed.

Lemma open_app : forall l1 t l2, open_its (l1 ++ t :: l2) = open_its l1 ++ todo t ++ open_its l2.
Proof. intros. unfold open_its. now rewrite flat_map_app. Qed.

(** Another thread's iterations, and the rest of one's own, differ from the current one. *)
Lemma other_it : forall l1 l2 i r p t j, NoDup (open_its (l1 ++ TH (i :: r) p :: l2)) ->
  In t (l1 ++ l2) -> In j (todo t) -> j <> i.
Proof.
  intros l1 l2 i r p t j H Ht Hj ->. rewrite open_app in H. simpl in H.
  apply NoDup_remove_2 in H. apply H. apply in_app_or in Ht as [Ht|Ht]; rewrite !in_app_iff.
  - left. eapply in_open; eauto.
  - right. right. eapply in_open; eauto.
Qed.
Lemma own_it : forall l1 l2 i r p j, NoDup (open_its (l1 ++ TH (i :: r) p :: l2)) -> In j r -> j <> i.
Proof.
  intros l1 l2 i r p j H Hj ->. rewrite open_app in H. simpl in H.
  apply NoDup_remove_2 in H. apply H. rewrite !in_app_iff. auto.
Qed.

Lemma step_inv : forall t c c', inv c -> step f maintain t c = Some c' -> inv c'.
Proof.
  intros t c c' I Hs. unfold step in Hs.
  destruct (nth_error (ths c) t) as [[[|i r] [| |]]|] eqn:Et; try discriminate.
  - (* Read *)
    destruct (nth_error (parts c) i) as [[x h]|] eqn:Ei; [|discriminate]. injection Hs as <-.
    destruct (flat_upd _ t _ (TH (i :: r) Sample) Et) as (l1 & l2 & E1 & E2).
    destruct I as [Ind Ilen Ib Ir Il It Id Ikm Ik]. rewrite E1 in Ind, Ib, Ir, Il, It, Id, Ikm, Ik.
    assert (E0 : nth_error ps0 i = Some (x, h)).
    { rewrite <- Ei. symmetry. apply (Ir r i). apply in_or_app; right; now left. }
    assert (Eo : open_its (l1 ++ TH (i :: r) Sample :: l2) = open_its (l1 ++ TH (i :: r) Read :: l2)) by now rewrite !open_app.
    assert (Hkeep : forall j, j <> i -> nth_error (if maintain then upd (parts c) i (x, x :: h) else parts c) j = nth_error (parts c) j).
    { intros j Hj. destruct maintain; auto. apply nth_error_upd_neq. auto. }
    assert (Hi : nth_error (if maintain then upd (parts c) i (x, x :: h) else parts c) i = Some (x, ghist x h)).
    { unfold ghist. destruct maintain; auto. apply nth_error_upd_eq. apply nth_error_Some. congruence. }
    assert (Hold : forall t', In t' (l1 ++ TH (i :: r) Sample :: l2) -> t' = TH (i :: r) Sample \/ (In t' (l1 ++ l2) /\ In t' (l1 ++ TH (i :: r) Read :: l2))).
    { intros t' H. apply in_app_or in H as [H|[<-|H]]; auto; right; rewrite !in_app_iff; simpl; auto. }
    constructor; cbn [ths parts xkm xk]; rewrite ?E2, ?Eo; auto.
    + destruct maintain; auto. now rewrite upd_length.
    + intros r' i' H. apply Hold in H as [H|[Ha Hb]]; [discriminate|].
      rewrite Hkeep; [eapply Ir; eauto|]. eapply other_it; eauto. now left.
    + intros r' i' p H Hp. apply Hold in H as [H|[Ha Hb]].
      * injection H as -> -> ->. eauto.
      * rewrite Hkeep; [eapply Il; eauto|]. eapply other_it; eauto. now left.
    + intros t' j H Hj. apply Hold in H as [->|[Ha Hb]].
      * simpl in Hj. rewrite Hkeep by (eapply own_it; eauto). apply (It (TH (i :: r) Read)); auto. apply in_or_app. right. now left.
      * rewrite Hkeep; [eapply It; eauto|]. eapply other_it; eauto. destruct (todo t'); [destruct Hj|now right].
    + intros j Hj Hn. destruct (Id j Hj Hn) as (x' & h' & y & h'' & Ha & Hb & Hc). exists x', h', y, h''.
      split; [auto|]. split; [auto|]. rewrite Hkeep; auto. intros ->. apply Hn. rewrite open_app. apply in_or_app. right. now left.
    + intros _. exists h. now apply nth_error_In in E0.
    + intros (t' & H & Hp). apply Hold in H as [->|[Ha Hb]]; [discriminate|]. apply Ik. eauto.
  - (* Sample *)
    injection Hs as <-.
    destruct (flat_upd _ t _ (TH (i :: r) Write) Et) as (l1 & l2 & E1 & E2).
    destruct I as [Ind Ilen Ib Ir Il It Id Ikm Ik]. rewrite E1 in Ind, Ib, Ir, Il, It, Id, Ikm, Ik.
    assert (Eo : open_its (l1 ++ TH (i :: r) Write :: l2) = open_its (l1 ++ TH (i :: r) Sample :: l2)) by now rewrite !open_app.
    assert (Hold : forall t', In t' (l1 ++ TH (i :: r) Write :: l2) -> t' = TH (i :: r) Write \/ (In t' (l1 ++ l2) /\ In t' (l1 ++ TH (i :: r) Sample :: l2))).
    { intros t' H. apply in_app_or in H as [H|[<-|H]]; auto; right; rewrite !in_app_iff; simpl; auto. }
    assert (Hcur : In (TH (i :: r) Sample) (l1 ++ TH (i :: r) Sample :: l2)) by (apply in_or_app; right; now left).
    destruct Ikm as (h & Hh). { exists (TH (i :: r) Sample). split; [auto|discriminate]. }
    constructor; cbn [ths parts xkm xk]; rewrite ?E2, ?Eo; auto.
    + intros r' i' H. apply Hold in H as [H|[Ha Hb]]; [discriminate|]. eapply Ir; eauto.
    + intros r' i' p H Hp. apply Hold in H as [H|[Ha Hb]]; [|eapply Il; eauto].
      injection H as -> -> ->. eapply Il; eauto. discriminate.
    + intros t' j H Hj. apply Hold in H as [->|[Ha Hb]]; [|eapply It; eauto]. simpl in Hj. eapply (It _ j Hcur). auto.
    + intros _. eauto.
    + intros _. eauto.
  - (* Write *)
    destruct (nth_error (parts c) i) as [[x h]|] eqn:Ei; [|discriminate]. injection Hs as <-.
    destruct (flat_upd _ t _ (TH r Read) Et) as (l1 & l2 & E1 & E2).
    destruct I as [Ind Ilen Ib Ir Il It Id Ikm Ik]. rewrite E1 in Ind, Ib, Ir, Il, It, Id, Ikm, Ik.
    assert (Hcur : In (TH (i :: r) Write) (l1 ++ TH (i :: r) Write :: l2)) by (apply in_or_app; right; now left).
    destruct (Il r i Write Hcur) as (x0 & h0 & E0 & Ep); [discriminate|]. rewrite Ei in Ep. injection Ep as -> ->.
    destruct (Ik (ex_intro _ _ (conj Hcur eq_refl))) as (y & hy & Hy & Ey).
    assert (Hkeep : forall j v, j <> i -> nth_error (upd (parts c) i v) j = nth_error (parts c) j).
    { intros j v Hj. apply nth_error_upd_neq. auto. }
    assert (Hold : forall t', In t' (l1 ++ TH r Read :: l2) -> t' = TH r Read \/ (In t' (l1 ++ l2) /\ In t' (l1 ++ TH (i :: r) Write :: l2))).
    { intros t' H. apply in_app_or in H as [H|[<-|H]]; auto; right; rewrite !in_app_iff; simpl; auto. }
    assert (Hopen : forall j, In j (open_its (l1 ++ TH r Read :: l2)) -> In j (open_its (l1 ++ TH (i :: r) Write :: l2))).
    { intros j. rewrite !open_app, !in_app_iff. simpl. tauto. }
    constructor; cbn [ths parts xkm xk]; rewrite ?E2.
    + rewrite open_app in *. simpl in *. now apply NoDup_remove_1 in Ind.
    + now rewrite upd_length.
    + intros j Hj. auto.
    + intros r' i' H. apply Hold in H as [H|[Ha Hb]].
      * injection H as <-. rewrite Hkeep; [|eapply own_it; eauto; now left]. apply (It _ i' Hcur). now left.
      * rewrite Hkeep; [eapply Ir; eauto|]. eapply other_it; eauto. now left.
    + intros r' i' p H Hp. apply Hold in H as [H|[Ha Hb]]; [congruence|].
      rewrite Hkeep; [eapply Il; eauto|]. eapply other_it; eauto. now left.
    + intros t' j H Hj. apply Hold in H as [->|[Ha Hb]].
      * simpl in Hj. assert (Hjr : In j r) by (destruct r; [destruct Hj|now right]).
        rewrite Hkeep; [|eapply own_it; eauto]. apply (It _ j Hcur). auto.
      * rewrite Hkeep; [eapply It; eauto|]. eapply other_it; eauto. destruct (todo t'); [destruct Hj|now right].
    + intros j Hj Hn. destruct (Nat.eq_dec j i) as [->|Hne].
      * exists x0, h0, y, hy. split; [auto|]. split; [auto|]. rewrite Ey. apply nth_error_upd_eq. lia.
      * rewrite Hkeep by auto. apply Id; auto. rewrite open_app, !in_app_iff in *. simpl. intuition congruence.
    + intros (t' & H & Hp). apply Hold in H as [->|[Ha Hb]]; [now destruct Hp|]. apply Ikm. eauto.
    + intros (t' & H & Hp). apply Hold in H as [->|[Ha Hb]]; [discriminate|]. apply Ik. eauto.
Qed.

Lemma run_inv : forall sched c c', inv c -> run f maintain sched c = Some c' -> inv c'.
Proof.
  induction sched as [|t r IH]; intros c c' I H; simpl in H; [now injection H as <-|].
  destruct (step f maintain t c) as [c1|] eqn:E; [|discriminate]. apply (IH c1 c'); auto. eapply step_inv; eauto.
Qed.

Lemma open_start : forall chunks, open_its (map (fun l => TH l Read) chunks) = concat chunks.
Proof. induction chunks; simpl; auto. now f_equal. Qed.

Lemma start_inv : forall d chunks, Permutation (concat chunks) (seq 0 (length ps0)) -> inv (start d ps0 chunks).
Proof.
  intros d chunks Hp.
  assert (Hin : forall i, In i (concat chunks) <-> i < length ps0).
  { intros i. split; intros H.
    - apply (Permutation_in _ Hp) in H. apply in_seq in H. lia.
    - apply (Permutation_in _ (Permutation_sym Hp)). apply in_seq. lia. }
  constructor; cbn [start ths parts xkm xk]; auto.
  - rewrite open_start. eapply Permutation_NoDup; [apply Permutation_sym; exact Hp|apply seq_NoDup].
  - intros i Hi. rewrite open_start in Hi. now apply Hin.
  - intros r i p H Hp'. apply in_map_iff in H as (l & H & _). congruence.
  - intros i Hi Hn. exfalso. apply Hn. rewrite open_start. now apply Hin.
  - intros (t & H & Hp'). apply in_map_iff in H as (l & <- & _). now destruct Hp'.
  - intros (t & H & Hp'). apply in_map_iff in H as (l & <- & _). discriminate.
Qed.

(** Whatever the schedule: every pose is the propagation of some old pose and every
    trajectory is the right one. *)
Theorem any_schedule : forall d chunks sched c, Permutation (concat chunks) (seq 0 (length ps0)) ->
  run f maintain sched (start d ps0 chunks) = Some c -> finished c ->
  length (parts c) = length ps0 /\
  forall i x h, nth_error ps0 i = Some (x, h) ->
  exists y h', In (y, h') ps0 /\ nth_error (parts c) i = Some (f y, if maintain then x :: h else h).
Proof.
  intros d chunks sched c Hp Hr Hf. assert (I := run_inv _ _ _ (start_inv d chunks Hp) Hr). split; [apply (v_len _ I)|].
  intros i x h Hi. destruct (v_done _ I i) as (x' & h' & y & h'' & H1 & H2 & H3).
  - apply nth_error_Some. congruence.
  - intros Hc. apply in_flat_map in Hc as (t & Ht & Hc). rewrite (Hf t Ht) in Hc. destruct Hc.
  - rewrite Hi in H1. injection H1 as <- <-. exists y, h''. split; auto.
Qed.

(** Iterations that do not overlap. *)
Record sinv (c : config Pose) : Prop := {
  s_nd : NoDup (open_its (ths c));
  s_len : length (parts c) = length ps0;
  s_b : forall i, In i (open_its (ths c)) -> i < length ps0;
  s_ph : forall t, In t (ths c) -> ph t = Read;
  s_open : forall i, In i (open_its (ths c)) -> nth_error (parts c) i = nth_error ps0 i;
  s_done : forall i x h, nth_error ps0 i = Some (x, h) -> ~ In i (open_its (ths c)) ->
     nth_error (parts c) i = Some (f x, ghist x h)
}.

Lemma iter_sinv : forall t c c', sinv c -> run f maintain [t; t; t] c = Some c' -> sinv c'.
Proof.
  intros t c c' I Hr. simpl in Hr.
  destruct (step f maintain t c) as [c1|] eqn:S1; [|discriminate].
  destruct (step f maintain t c1) as [c2|] eqn:S2; [|discriminate].
  destruct (step f maintain t c2) as [c3|] eqn:S3; [|discriminate]. injection Hr as <-.
  unfold step in S1. destruct (nth_error (ths c) t) as [[[|i r] p]|] eqn:Et; try discriminate.
  - assert (Hp := s_ph _ I _ (nth_error_In _ _ Et)). simpl in Hp. subst p.
    destruct (nth_error (parts c) i) as [[x h]|] eqn:Ei; [|discriminate]. injection S1 as <-.
    destruct (upd_split _ _ t _ (TH (i :: r) Sample) Et) as (l1 & l2 & E1 & E3 & E2).
    assert (Htl : t < length (ths c)) by (apply nth_error_Some; congruence).
    unfold step in S2. cbn [ths parts xkm xk] in S2. rewrite nth_error_upd_eq in S2 by auto. injection S2 as <-.
    unfold step in S3. cbn [ths parts xkm xk] in S3. rewrite nth_error_upd_eq in S3 by (rewrite upd_length; auto).
    set (P1 := if maintain then upd (parts c) i (x, x :: h) else parts c) in *.
    assert (Hil : i < length (parts c)) by (apply nth_error_Some; congruence).
    assert (EP1 : nth_error P1 i = Some (x, ghist x h)).
    { unfold P1, ghist. destruct maintain; auto. now apply nth_error_upd_eq. }
    rewrite EP1 in S3. injection S3 as <-.
    assert (Hops : In i (open_its (ths c))). { rewrite E1, open_app. apply in_or_app. right. now left. }
    assert (E0 : nth_error ps0 i = Some (x, h)) by (rewrite <- (s_open _ I i Hops); auto).
    assert (Eth : upd (upd (upd (ths c) t (TH (i :: r) Sample)) t (TH (i :: r) Write)) t (TH r Read) = l1 ++ TH r Read :: l2).
    { rewrite E2. assert (Hup : forall (a b : thread), upd (l1 ++ a :: l2) t b = l1 ++ b :: l2).
      { intros a b. rewrite <- E3. clear. induction l1; simpl; congruence. }
      now rewrite !Hup. }
    destruct I as [Ind Ilen Ib Iph Io Id].
    assert (HlP : length P1 = length (parts c)) by (unfold P1; destruct maintain; [apply upd_length|auto]).
    assert (Hkeep : forall j v, j <> i -> nth_error (upd P1 i v) j = nth_error (parts c) j).
    { intros j v Hj. rewrite nth_error_upd_neq by auto. unfold P1. destruct maintain; auto. apply nth_error_upd_neq. auto. }
    rewrite E1 in Ind, Ib, Iph, Io, Id.
    constructor; cbn [ths parts xkm xk]; rewrite ?Eth.
    + rewrite open_app in *. simpl in *. now apply NoDup_remove_1 in Ind.
    + rewrite upd_length. lia.
    + intros j Hj. apply Ib. rewrite open_app, !in_app_iff in *. simpl. tauto.
    + intros t' Ht. apply in_app_or in Ht as [Ht|[<-|Ht]]; auto; apply Iph; apply in_or_app; simpl; auto.
    + intros j Hj. assert (Hne : j <> i).
      { intros ->. rewrite open_app in Ind, Hj. simpl in Ind, Hj. apply NoDup_remove_2 in Ind. rewrite !in_app_iff in *. tauto. }
      rewrite Hkeep by auto. apply Io. rewrite open_app, !in_app_iff in *. simpl. tauto.
    + intros j x' h' Hj Hn. destruct (Nat.eq_dec j i) as [->|Hne].
      * rewrite E0 in Hj. injection Hj as <- <-. apply nth_error_upd_eq. lia.
      * rewrite Hkeep by auto. apply Id; auto. rewrite open_app, !in_app_iff in *. simpl. intuition congruence.
Qed.

Lemma run_app : forall a b c, run f maintain (a ++ b) c = match run f maintain a c with Some c' => run f maintain b c' | None => None end.
Proof. induction a as [|t a IH]; intros b c; simpl; auto. destruct (step f maintain t c); auto. Qed.

Lemma serial_sinv : forall order c c', sinv c -> run f maintain (flat_map (fun t => [t; t; t]) order) c = Some c' -> sinv c'.
Proof.
  induction order as [|t r IH]; intros c c' I H; [simpl in H; now injection H as <-|].
  cbn [flat_map] in H. rewrite run_app in H. destruct (run f maintain [t; t; t] c) as [c1|] eqn:E; [|discriminate].
  apply (IH c1 c'); auto. eapply iter_sinv; eauto.
Qed.

Lemma start_sinv : forall d chunks, Permutation (concat chunks) (seq 0 (length ps0)) -> sinv (start d ps0 chunks).
Proof.
  intros d chunks Hp. destruct (start_inv d chunks Hp) as [A B C _ _ _ E _ _].
  assert (Hin : forall i, i < length ps0 -> In i (concat chunks)).
  { intros i Hi. apply (Permutation_in _ (Permutation_sym Hp)). apply in_seq. lia. }
  constructor; auto; cbn [start ths parts xkm xk].
  - intros t Ht. apply in_map_iff in Ht as (l & <- & _). reflexivity.
  - intros i x h Hi Hn. exfalso. apply Hn. rewrite open_start. apply Hin. apply nth_error_Some. congruence.
Qed.

Theorem serial_schedule : forall d chunks order c, Permutation (concat chunks) (seq 0 (length ps0)) ->
  run f maintain (flat_map (fun t => [t; t; t]) order) (start d ps0 chunks) = Some c -> finished c ->
  parts c = map (fun xh => (f (fst xh), if maintain then fst xh :: snd xh else snd xh)) ps0.
Proof.
  intros d chunks order c Hp Hr Hf. assert (I := serial_sinv _ _ _ (start_sinv d chunks Hp) Hr).
  apply list_ext. intros i. rewrite nth_error_map.
  destruct (nth_error ps0 i) as [[x h]|] eqn:E; simpl.
  - apply (s_done _ I i x h E). intros Hc. apply in_flat_map in Hc as (t & Ht & Hc). rewrite (Hf t Ht) in Hc. destruct Hc.
  - apply nth_error_None. apply nth_error_None in E. rewrite (s_len _ I). auto.
Qed.
End Proofs.
