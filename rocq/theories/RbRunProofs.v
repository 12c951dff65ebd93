(** Runs of the Rao-Blackwellised filters: histories and weights of the particles. *)
From Coq Require Import ZArith QArith Qcanon List Bool Arith Lia Permutation.
From Verif Require Import Base ListUtil QcLra ParticleModel ParticleSpec ParticleProofs ParticleProofs3 FastRunProofs FastRunProofs3 RbRunModel RbRunSpec.
Import ListNotations.
Local Open Scope nat_scope.

Section RR.
Context {P D : Type}.
Notation part := (particle P D).

Lemma each_nth : forall (f : nat -> part -> D -> part) l i0 l', each f i0 l = Val l' -> length l' = length l /\
  forall i q, nth_error l' i = Some q -> exists p d, nth_error l i = Some p /\ pdata p = Some d /\ q = f (i0 + i) p d.
Proof.
  intros f. induction l as [|p l IH]; intros i0 l' H; cbn [each] in H.
  { injection H as <-. split; [reflexivity|]. intros [|i] q Hq; discriminate. }
  destruct (pdata p) as [d|] eqn:Ed; [|discriminate]. cbn [of_option obind] in H.
  destruct (each f (S i0) l) as [r| |] eqn:Er; try discriminate. cbn [obind] in H. injection H as <-.
  destruct (IH _ _ Er) as [L N]. split; [cbn; lia|]. intros [|i] q Hq; cbn in Hq.
  - injection Hq as <-. exists p, d. rewrite Nat.add_0_r. auto.
  - destruct (N i q Hq) as (p' & d' & H1 & H2 & ->). exists p', d'. rewrite Nat.add_succ_r. auto.
Qed.
Lemma each_val : forall (f : nat -> part -> D -> part) l i0, all_data l -> exists l', each f i0 l = Val l'.
Proof.
  intros f. induction l as [|p l IH]; intros i0 H; cbn [each]; [eauto|].
  assert (Hp := H p (or_introl eq_refl)). destruct (pdata p) as [d|]; [|congruence]. cbn [of_option obind].
  destruct (IH (S i0)) as [l' ->]; [intros q Hq; apply H; now right|]. cbn [obind]. eauto.
Qed.

Lemma resample_src : forall (s : pf P D) n b u f, resample s n b u = Val (f, true) ->
  forall i q, nth_error (pset f) i = Some q -> pw q = Some 1%Qc /\
  exists j p, nth_error (pset s) j = Some p /\ ppose q = ppose p /\ pprev q = pprev p /\ pdata q = pdata p.
Proof.
  intros s n b u f H i q Hq. split.
  - apply resample_forced in H. unfold resample in H. cbn [obind] in H.
    destruct (do_resample (normalizeWeights (pset s)) n u) as [l'| |] eqn:E; try discriminate. cbn [obind] in H. injection H as <-.
    unfold do_resample in E. destruct (draw _ _ _) as [sel| |] in E; try discriminate. cbn [obind] in E.
    destruct (copy_loop _ _ _ _ _ _) as [l1| |]; try discriminate. cbn [obind] in E. injection E as <-.
    apply nth_error_In in Hq. cbn [pset] in Hq. apply in_map_iff in Hq as (q' & <- & _). reflexivity.
  - apply (resample_state (fun x l d => exists j p, nth_error (pset s) j = Some p /\ x = ppose p /\ l = pprev p /\ d = pdata p) s n b u f true H).
    + intros p Hp. apply In_nth_error in Hp as [j Hj]. exists j, p. auto.
    + eapply nth_error_In. exact Hq.
Qed.

(** Outcome of the resampling part. *)
Lemma finish_cases : forall c u (s s' : rbf P D), finish c u s = Val s' ->
  (rocc s' = Some true /\ rupd s' = 0 /\ rmeas s' = 0 /\ ripe c (rupd s) (rmeas s) = true /\ resample (rpf s) 0 false u = Val (rpf s', true)) \/
  (rocc s' = Some false /\ rupd s' = rupd s /\ rmeas s' = rmeas s /\
   (ripe c (rupd s) (rmeas s) = false \/ resample (rpf s) 0 false u = Val (PF (normalizeWeights (pset (rpf s))) (effT (rpf s)) (effPct (rpf s)), false)) /\
   exists l, (l = pset (rpf s) \/ l = normalizeWeights (pset (rpf s))) /\
   rpf s' = PF (normalizeWeights l) (effT (rpf s)) (effPct (rpf s))).
Proof.
  intros c u s s' H. unfold finish in H. destruct (ripe c (rupd s) (rmeas s)).
  - destruct (resample (rpf s) 0 false u) as [[f occ]| |] eqn:E; try discriminate. cbn [obind] in H. destruct occ.
    + left. injection H as <-. auto 6.
    + right. injection H as <-. assert (E' := E). apply resample_refused in E as (_ & -> & _). cbn in *.
      do 3 (split; [reflexivity|]). split; [now right|]. eauto.
  - cbn [obind] in H. right. injection H as <-. cbn. do 3 (split; [reflexivity|]). split; [now left|]. eexists. split; [left; reflexivity|reflexivity].
Qed.

Lemma norm_same : forall (l : list part) i q, nth_error (normalizeWeights l) i = Some q ->
  exists p, nth_error l i = Some p /\ ppose q = ppose p /\ pprev q = pprev p /\ pdata q = pdata p.
Proof.
  intros l i q H. unfold normalizeWeights in H. rewrite nth_error_map in H. destruct (nth_error l i) as [p|]; [|discriminate].
  cbn in H. injection H as <-. exists p. auto.
Qed.

(** Positive weights proportional to given numbers stay so. *)
Lemma norm_scale : forall (l : list part) (v : nat -> Qc) k, (0 < k)%Qc ->
  (forall i p, nth_error l i = Some p -> pw p = Some (k * v i)%Qc /\ (0 < v i)%Qc) ->
  exists k', (0 < k')%Qc /\ forall i p, nth_error (normalizeWeights l) i = Some p -> pw p = Some (k' * v i)%Qc.
Proof.
  intros l v k Hk H. destruct l as [|p0 l0] eqn:El.
  { exists 1%Qc. split; [now vm_compute|]. intros [|i] p Hp; discriminate. }
  rewrite <- El in *.
  set (w := map (fun p => match pw p with Some x => x | None => 0%Qc end) l).
  assert (Hw : weights_of l w).
  { split; [|split].
    - unfold w. rewrite map_map. apply map_ext_in. intros p Hp. apply In_nth_error in Hp as [i Hi]. destruct (H i p Hi) as [-> _]. reflexivity.
    - intros x Hx. unfold w in Hx. apply in_map_iff in Hx as (p & <- & Hp). apply In_nth_error in Hp as [i Hi]. destruct (H i p Hi) as [-> Hv].
      generalize (v i) Hv. intros y Hy. clear - Hk Hy. qcnra.
    - assert (G : forall l' : list part, (forall p, In p l' -> In p l) -> (0 <= qsum (map (fun p => match pw p with Some x => x | None => 0%Qc end) l'))%Qc).
      { intros l' Hl'. apply qsum_nonneg. intros x Hx. apply in_map_iff in Hx as (p & <- & Hp). apply Hl' in Hp. apply In_nth_error in Hp as [i Hi].
        destruct (H i p Hi) as [-> Hv]. generalize (v i) Hv. intros y Hy. clear - Hk Hy. qcnra. }
      unfold w. rewrite El. cbn [map qsum]. assert (H0 := H 0 p0). rewrite El in H0. destruct (H0 eq_refl) as [-> Hv].
      assert (G0 := G l0). specialize (G0 ltac:(intros p Hp; rewrite El; now right)).
      revert G0. generalize (qsum (map (fun p : part => match pw p with Some x => x | None => 0%Qc end) l0)). intros z Hz.
      revert Hv. generalize (v 0). intros y Hy. clear - Hk Hy Hz. qcnra. }
  assert (Hs : (0 < qsum w)%Qc) by (destruct Hw as (_ & _ & Hs); exact Hs).
  assert (Hi : (0 < / qsum w)%Qc).
  { assert (E := Qcmult_inv_l (qsum w) (Qcpos_neq _ Hs)). revert E. generalize (/ qsum w)%Qc. intros z E.
    destruct (Qclt_le_dec 0 z) as [|Hz]; [assumption|]. exfalso. revert E Hs. generalize (qsum w). intros y E Hy. clear - E Hy Hz. qcnra. }
  exists (k * / qsum w)%Qc. split.
  { revert Hi. generalize (/ qsum w)%Qc. intros z Hz. clear - Hk Hz. qcnra. }
  intros i p Hp. assert (N := norm_weights P D l w Hw). assert (E : nth_error (map pw (normalizeWeights l)) i = Some (pw p)).
  { rewrite nth_error_map, Hp. reflexivity. }
  rewrite N, !nth_error_map in E.
  assert (Ew : nth_error w i = option_map (fun p => match pw p with Some x => x | None => 0%Qc end) (nth_error l i)) by (unfold w; apply nth_error_map).
  rewrite Ew in E. destruct (nth_error l i) as [q|] eqn:Eq; [|discriminate].
  cbn in E. injection E as E. rewrite <- E. destruct (H i q Eq) as [-> _]. f_equal. unfold Qcdiv. ring.
Qed.

Section Inv.
Variables (c : rcfg) (n : nat) (x0 : P) (d0 : D).
Variable g : rcall P D -> nat -> P -> D -> Qc.
Notation hist := (history c n x0 d0 g).

(** Every slot holds a particle with a history. *)
Definition traced (h : list (rcall P D * bool)) (s : rbf P D) : Prop :=
  length (pset (rpf s)) = n /\
  forall i p, nth_error (pset (rpf s)) i = Some p -> exists d w, hist h i (ppose p, pprev p, d) w /\ pdata p = Some d.
(** The same with weights. *)
Definition weighted (h : list (rcall P D * bool)) (s : rbf P D) : Prop :=
  length (pset (rpf s)) = n /\ exists k v, (0 < k)%Qc /\
  forall i p, nth_error (pset (rpf s)) i = Some p ->
    (exists d, hist h i (ppose p, pprev p, d) (v i) /\ pdata p = Some d) /\ (0 < v i)%Qc /\ pw p = Some (k * v i)%Qc.

Lemma nth_lt : forall A (l : list A) i x, nth_error l i = Some x -> i < length l.
Proof. intros A l i x H. apply nth_error_Some. congruence. Qed.

Lemma stay' : forall h k j x tr d w st w', hist h j (x, tr, d) w -> st = live c k j x tr d -> w' = weigh g k j x d w ->
  hist (h ++ [(k, false)]) j st w'.
Proof. intros h k j x tr d w st w' H -> ->. now apply h_stay. Qed.
Lemma copy' : forall h k j i x tr d w st, hist h j (x, tr, d) w -> i < n -> st = live c k j x tr d -> hist (h ++ [(k, true)]) i st 1.
Proof. intros h k j i x tr d w st H Hi ->. eapply h_copy; eassumption. Qed.

Lemma call_traced : forall h s k s', traced h s -> rdo c s k = Val s' -> traced (h ++ [(k, resampled k s')]) s'.
Proof.
  intros h s k s' [L T] H. destruct k as [birth move stat|nz maps wts u|t]; cbn [rdo resampled] in *.
  - unfold rpredict in H. destruct (each _ 0 (pset (rpf s))) as [l| |] eqn:E; try discriminate. cbn [obind] in H. injection H as <-.
    destruct (each_nth _ _ _ _ E) as [L' N]. split; [cbn; congruence|]. cbn [rpf pset]. intros i q Hq.
    destruct (N i q Hq) as (p & d & H1 & H2 & ->). destruct (T i p H1) as (d' & w & H3 & H4). rewrite H2 in H4. injection H4 as <-.
    exists (stat (birth i (ppose p) d)), w. split; [|reflexivity]. cbn [step_part ppose pprev]. eapply stay'; [exact H3|reflexivity|reflexivity].
  - unfold rupdate in H. destruct (Nat.eqb_spec nz 0) as [->|Hz].
    { injection H as <-. cbn [Nat.ltb Nat.leb andb]. split; [exact L|]. cbn [rpf]. intros i p Hp. destruct (T i p Hp) as (d & w & H1 & H2).
      exists d, w. split; [|exact H2]. eapply stay'; [exact H1|reflexivity|reflexivity]. }
    destruct (each _ 0 (pset (rpf s))) as [l| |] eqn:E; try discriminate. cbn [obind] in H.
    destruct (each_nth _ _ _ _ E) as [L' N].
    assert (Ez : (0 <? nz) = true) by (apply Nat.ltb_lt; lia). assert (Ez' : (nz =? 0) = false) by now apply Nat.eqb_neq.
    assert (Tl : forall i q, nth_error l i = Some q -> exists x tr d w, hist h i (x, tr, d) w /\ ppose q = x /\ pprev q = tr /\ pdata q = Some (maps i x d)).
    { intros i q Hq. destruct (N i q Hq) as (p & d & H1 & H2 & ->). destruct (T i p H1) as (d' & w & H3 & H4). rewrite H2 in H4. injection H4 as <-.
      exists (ppose p), (pprev p), d, w. auto. }
    destruct (finish_cases _ _ _ _ H) as [(Ho & _ & _ & _ & Er)|(Ho & _ & _ & _ & m & Hm & Ef)]; cbn [rpf pset effT effPct] in *; rewrite Ez, Ho; cbn [andb].
    + split; [rewrite (resample_length _ _ _ _ _ Er); cbn; congruence|]. intros i q Hq.
      assert (Hi : i < n). { rewrite <- L, <- L'. apply nth_lt in Hq. rewrite (resample_length _ _ _ _ _ Er) in Hq. exact Hq. }
      destruct (resample_src _ _ _ _ _ Er i q Hq) as (_ & j & p & H1 & -> & -> & ->). cbn [pset] in H1.
      destruct (Tl j p H1) as (x & tr & d & w & H2 & -> & -> & ->). exists (maps j x d), 1%Qc. split; [|reflexivity].
      eapply copy'; [exact H2|exact Hi|]. unfold live. now rewrite Ez'.
    + unfold traced. rewrite Ef. cbn [pset]. assert (Lm : length m = n) by (destruct Hm as [->| ->]; [|rewrite norm_length]; congruence).
      split; [rewrite norm_length; exact Lm|]. intros i q Hq. destruct (norm_same _ _ _ Hq) as (q1 & Hq1 & -> & -> & ->).
      assert (exists p, nth_error l i = Some p /\ ppose q1 = ppose p /\ pprev q1 = pprev p /\ pdata q1 = pdata p) as (p & H1 & -> & -> & ->).
      { destruct Hm as [->| ->]; [eauto 6|]. exact (norm_same _ _ _ Hq1). }
      destruct (Tl i p H1) as (x & tr & d & w & H2 & -> & -> & ->). exists (maps i x d). eexists. split; [|reflexivity].
      eapply stay'; [exact H2| |reflexivity]. unfold live. now rewrite Ez'.
  - injection H as <-. split; [exact L|]. cbn [rpf setEffectiveParticleCountThreshold pset]. intros i p Hp. destruct (T i p Hp) as (d & w & H1 & H2).
    exists d, w. split; [|exact H2]. eapply stay'; [exact H1|reflexivity|reflexivity].
Qed.

Lemma call_weighted : forall h s k s', weighted h s -> multiplies g k -> rdo c s k = Val s' -> weighted (h ++ [(k, resampled k s')]) s'.
Proof.
  intros h s k s' (L & k0 & v & Hk & T) M H. destruct k as [birth move stat|nz maps wts u|t]; cbn [rdo resampled] in *.
  - unfold rpredict in H. destruct (each _ 0 (pset (rpf s))) as [l| |] eqn:E; try discriminate. cbn [obind] in H. injection H as <-.
    destruct (each_nth _ _ _ _ E) as [L' N]. split; [cbn; congruence|]. exists k0, v. split; [exact Hk|]. cbn [rpf pset]. intros i q Hq.
    destruct (N i q Hq) as (p & d & H1 & H2 & ->). destruct (T i p H1) as ((d' & H3 & H4) & H5 & H6). rewrite H2 in H4. injection H4 as <-.
    cbn [step_part ppose pprev pdata pw]. split; [|auto]. eexists. split; [|reflexivity]. eapply stay'; [exact H3|reflexivity|reflexivity].
  - unfold rupdate in H. destruct (Nat.eqb_spec nz 0) as [->|Hz].
    { injection H as <-. cbn [Nat.ltb Nat.leb andb]. split; [exact L|]. exists k0, v. split; [exact Hk|]. cbn [rpf]. intros i p Hp.
      destruct (T i p Hp) as ((d & H1 & H2) & H3). split; [|exact H3]. exists d. split; [|exact H2]. eapply stay'; [exact H1|reflexivity|reflexivity]. }
    destruct (each _ 0 (pset (rpf s))) as [l| |] eqn:E; try discriminate. cbn [obind] in H.
    destruct (each_nth _ _ _ _ E) as [L' N].
    assert (Ez : (0 <? nz) = true) by (apply Nat.ltb_lt; lia). assert (Ez' : (nz =? 0) = false) by now apply Nat.eqb_neq.
    set (kk := RUpdate nz maps wts u) in *.
    set (v' := fun i => match nth_error (pset (rpf s)) i with
                        | Some p => match pdata p with Some d => (g kk i (ppose p) d * v i)%Qc | None => 0%Qc end
                        | None => 0%Qc end).
    assert (Tl : forall i q, nth_error l i = Some q -> pw q = Some (k0 * v' i)%Qc /\ (0 < v' i)%Qc /\
      exists x tr d, hist h i (x, tr, d) (v i) /\ ppose q = x /\ pprev q = tr /\ pdata q = Some (maps i x d) /\ v' i = weigh g kk i x d (v i)).
    { intros i q Hq. destruct (N i q Hq) as (p & d & H1 & H2 & ->). destruct (T i p H1) as ((d' & H3 & H4) & H5 & H6). rewrite H2 in H4. injection H4 as <-.
      destruct (M i (ppose p) d) as [Mp Mw].
      assert (Ev : v' i = (g kk i (ppose p) d * v i)%Qc) by (unfold v'; rewrite H1, H2; reflexivity).
      cbn [upd_part pw ppose pprev pdata Nat.add]. rewrite H6, Mw, Ev. split; [f_equal; ring|]. split.
      { revert Mp H5. generalize (g kk i (ppose p) d) (v i). intros a b Ha Hb. clear - Ha Hb. qcnra. }
      exists (ppose p), (pprev p), d. do 4 (split; [first [exact H3|reflexivity]|]). unfold weigh, kk. now rewrite Ez'. }
    destruct (finish_cases _ _ _ _ H) as [(Ho & _ & _ & _ & Er)|(Ho & _ & _ & _ & m & Hm & Ef)]; cbn [rpf pset effT effPct] in *; rewrite Ez, Ho; cbn [andb].
    + split; [rewrite (resample_length _ _ _ _ _ Er); cbn; congruence|]. exists 1%Qc, (fun _ => 1%Qc). split; [now vm_compute|]. intros i q Hq.
      assert (Hi : i < n). { rewrite <- L, <- L'. apply nth_lt in Hq. rewrite (resample_length _ _ _ _ _ Er) in Hq. exact Hq. }
      destruct (resample_src _ _ _ _ _ Er i q Hq) as (-> & j & p & H1 & -> & -> & ->). cbn [pset] in H1.
      destruct (Tl j p H1) as (_ & _ & x & tr & d & H2 & -> & -> & -> & _). split; [|split; [now vm_compute|f_equal; ring]].
      exists (maps j x d). split; [|reflexivity]. eapply copy'; [exact H2|exact Hi|]. unfold live, kk. now rewrite Ez'.
    + unfold weighted. rewrite Ef. cbn [pset]. assert (Lm : length m = n) by (destruct Hm as [->| ->]; [|rewrite norm_length]; congruence).
      split; [rewrite norm_length; exact Lm|].
      assert (exists k1, (0 < k1)%Qc /\ forall i p, nth_error m i = Some p -> pw p = Some (k1 * v' i)%Qc /\ (0 < v' i)%Qc) as (k1 & Hk1 & Hm1).
      { destruct Hm as [->| ->].
        - exists k0. split; [exact Hk|]. intros i p Hp. destruct (Tl i p Hp) as (A & B & _). auto.
        - destruct (norm_scale l v' k0 Hk) as (k1 & A & B). { intros i p Hp. destruct (Tl i p Hp) as (A & B & _). auto. }
          exists k1. split; [exact A|]. intros i p Hp. split; [now apply B|]. destruct (norm_same _ _ _ Hp) as (p' & Hp' & _).
          destruct (Tl i p' Hp') as (_ & C & _). exact C. }
      destruct (norm_scale m v' k1 Hk1 Hm1) as (k2 & Hk2 & Hm2). exists k2, v'. split; [exact Hk2|]. intros i q Hq.
      assert (Hw := Hm2 i q Hq). destruct (norm_same _ _ _ Hq) as (q1 & Hq1 & -> & -> & ->).
      assert (exists p, nth_error l i = Some p /\ ppose q1 = ppose p /\ pprev q1 = pprev p /\ pdata q1 = pdata p) as (p & H1 & -> & -> & ->).
      { destruct Hm as [->| ->]; [eauto 6|]. exact (norm_same _ _ _ Hq1). }
      destruct (Tl i p H1) as (_ & B & x & tr & d & H2 & -> & -> & -> & Ev). split; [|auto]. exists (maps i x d). split; [|reflexivity].
      eapply stay'; [exact H2| |exact Ev]. unfold live, kk. now rewrite Ez'.
  - injection H as <-. split; [exact L|]. exists k0, v. split; [exact Hk|]. cbn [rpf setEffectiveParticleCountThreshold pset]. intros i p Hp.
    destruct (T i p Hp) as ((d & H1 & H2) & H3). split; [|exact H3]. exists d. split; [|exact H2]. eapply stay'; [exact H1|reflexivity|reflexivity].
Qed.

Lemma new_weighted : weighted [] (rb_new n x0 d0).
Proof.
  split; [cbn; now rewrite !map_length, seq_length|]. exists 1%Qc, (fun _ => 1%Qc). split; [now vm_compute|]. intros i p Hp.
  cbn in Hp. rewrite !nth_error_map in Hp. destruct (nth_error (seq 0 n) i) as [j|] eqn:Ej; [|discriminate].
  assert (Hi : i < n) by (apply nth_lt in Ej; now rewrite seq_length in Ej). cbn in Hp. injection Hp as <-. cbn [ppose pprev pdata pw setData].
  split; [exists d0; split; [now apply h_start|reflexivity]|]. split; [now vm_compute|].
  destruct (Qclt_le_dec 1 0) as [Hc|_]; [now vm_compute in Hc|]. f_equal.
Qed.
Lemma new_traced : traced [] (rb_new n x0 d0).
Proof.
  destruct new_weighted as (L & k & v & _ & T). split; [exact L|]. intros i p Hp. destruct (T i p Hp) as ((d & A & B) & _). eauto.
Qed.

Theorem all_traced : forall h s, rlogged c (rb_new n x0 d0) h s -> traced h s.
Proof.
  intros h s H. remember (rb_new n x0 d0) as s0 eqn:E. induction H as [s|s h s1 k s' H IH Hk]; [subst; exact new_traced|].
  eapply call_traced; [apply IH, E|exact Hk].
Qed.
Theorem all_weighted : forall h s, rlogged c (rb_new n x0 d0) h s -> (forall k b, In (k, b) h -> multiplies g k) -> weighted h s.
Proof.
  intros h s H. remember (rb_new n x0 d0) as s0 eqn:E. induction H as [s|s h s1 k s' H IH Hk]; intros Hm; [subst; exact new_weighted|].
  eapply call_weighted; [apply (IH E)| |exact Hk].
  - intros k' b Hin. apply (Hm k' b). apply in_or_app. now left.
  - eapply Hm. apply in_or_app. right. left. reflexivity.
Qed.
End Inv.
End RR.
