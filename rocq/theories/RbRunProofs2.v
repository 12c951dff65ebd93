(** Runs of the Rao-Blackwellised filters: counters, the decision to resample, definedness. *)
From Coq Require Import ZArith QArith Qcanon List Bool Arith Lia Permutation Sorting.Sorted.
From Verif Require Import Base ListUtil QcLra ParticleModel ParticleSpec ParticleProofs ParticleProofs3 FastRunProofs FastRunProofs3 RbRunModel RbRunSpec RbRunProofs.
Import ListNotations.
Local Open Scope nat_scope.

Section RR.
Context {P D : Type}.
Notation part := (particle P D).

Lemma since_snoc : forall (h : list (rcall P D * bool)) k b,
  upd_since (h ++ [(k, b)]) = (if b then 0 else upd_since h + match k with RUpdate _ _ _ _ => 1 | _ => 0 end) /\
  meas_since (h ++ [(k, b)]) = (if b then 0 else meas_since h + match k with RUpdate nz _ _ _ => nz | _ => 0 end).
Proof.
  induction h as [|[k' b'] h IH]; intros k b; cbn [app upd_since meas_since].
  - destruct b; cbn; destruct k; cbn; lia.
  - rewrite existsb_app. cbn [existsb snd]. destruct (IH k b) as [-> ->]. destruct b.
    + rewrite orb_true_r. auto.
    + rewrite !orb_false_r. destruct (existsb snd h); [auto|]. lia.
Qed.

Lemma call_count : forall c (s s' : rbf P D) k, rdo c s k = Val s' ->
  rupd s' = (if resampled k s' then 0 else rupd s + match k with RUpdate _ _ _ _ => 1 | _ => 0 end) /\
  rmeas s' = (if resampled k s' then 0 else rmeas s + match k with RUpdate nz _ _ _ => nz | _ => 0 end).
Proof.
  intros c s s' k H. destruct k as [birth move stat|nz maps wts u|t]; cbn [rdo resampled] in *.
  - unfold rpredict in H. destruct (each _ 0 (pset (rpf s))) as [l| |]; try discriminate. cbn [obind] in H. injection H as <-. cbn. lia.
  - unfold rupdate in H. destruct (Nat.eqb_spec nz 0) as [->|Hz]; [injection H as <-; cbn; lia|].
    destruct (each _ 0 (pset (rpf s))) as [l| |]; try discriminate. cbn [obind] in H.
    assert (Ez : (0 <? nz) = true) by (apply Nat.ltb_lt; lia). rewrite Ez.
    destruct (finish_cases _ _ _ _ H) as [(-> & -> & -> & _)|(-> & -> & -> & _)]; cbn; lia.
  - injection H as <-. cbn. lia.
Qed.

Theorem run_counters : forall c n x0 d0 h (s : rbf P D), rlogged c (rb_new n x0 d0) h s -> rupd s = upd_since h /\ rmeas s = meas_since h.
Proof.
  intros c n x0 d0 h s H. remember (rb_new n x0 d0) as s0 eqn:E. induction H as [s|s h s1 k s' H IH Hk]; [subst; split; reflexivity|].
  destruct (IH E) as [I1 I2]. destruct (call_count _ _ _ _ Hk) as [C1 C2]. destruct (since_snoc h k (resampled k s')) as [-> ->].
  rewrite C1, C2, I1, I2. auto.
Qed.

Lemma as_uint_id : forall z, (0 <= z < 2 ^ 32)%Z -> as_uint z = z.
Proof. intros z H. unfold as_uint. now apply Z.mod_small. Qed.

Theorem run_decision : forall c n x0 d0 h (s s' : rbf P D) nz maps wts u w t pc,
  rlogged c (rb_new n x0 d0) h s -> 0 < nz ->
  length w = length (pset (rpf s)) ->
  (forall i p d, nth_error (pset (rpf s)) i = Some p -> pdata p = Some d -> wts i (ppose p) d (pw p) = nth_error w i) ->
  (forall x, In x w -> 0 <= x)%Qc -> (0 < qsum w)%Qc ->
  effT (rpf s) = Some (Some t) -> effPct (rpf s) = Some (Some pc) ->
  (0 <= rminUpd c < 2 ^ 32)%Z -> (forall m, rminMeas c = Some m -> 0 <= m < 2 ^ 32)%Z ->
  rupdate c nz maps wts u s = Val s' ->
  let neff := (qsum w * qsum w / qsum (map (fun x => x * x) w))%Qc in
  (rocc s' = Some true <->
    (rminUpd c <= Z.of_nat (1 + upd_since h))%Z /\
    (forall m, rminMeas c = Some m -> (m <= Z.of_nat (meas_since h + nz))%Z) /\
    ~ (t < neff /\ pc < neff / QcN (length w))%Qc).
Proof.
  intros c n x0 d0 h s s' nz maps wts u w t pc Hl Hz Lw Hwt Hnn Hpos Ht Hp Hu Hm H neff.
  destruct (run_counters _ _ _ _ _ _ Hl) as [C1 C2].
  unfold rupdate in H. destruct (Nat.eqb_spec nz 0); [lia|].
  destruct (each _ 0 (pset (rpf s))) as [l| |] eqn:E; try discriminate. cbn [obind] in H.
  destruct (each_nth _ _ _ _ E) as [L' N].
  assert (Hw : weights_of l w).
  { split; [|auto]. apply nth_ext with (d := None) (d' := None); [rewrite !map_length; congruence|]. intros i Hi. rewrite map_length in Hi.
    destruct (nth_error l i) as [q|] eqn:Eq; [|apply nth_error_None in Eq; lia].
    destruct (N i q Eq) as (p & d & H1 & H2 & ->). assert (K := Hwt i p d H1 H2). cbn [Nat.add] in Eq.
    destruct (nth_error w i) as [x|] eqn:Ex; [|apply nth_error_None in Ex; lia].
    transitivity (Some x).
    - apply nth_error_nth. rewrite nth_error_map, Eq. cbn. now rewrite K.
    - symmetry. apply nth_error_nth. rewrite nth_error_map, Ex. reflexivity. }
  set (s1 := RB _ _ _ _) in H.
  destruct (check_ok P D (rpf s1) 0 u w t pc Hw Ht Hp) as [K1 K2]. fold neff in K1, K2. change (sqsum w) with (qsum (map (fun x => (x * x)%Qc) w)) in *.
  assert (Hdue : ripe c (rupd s1) (rmeas s1) = true <-> (rminUpd c <= Z.of_nat (1 + upd_since h))%Z /\ (forall m, rminMeas c = Some m -> (m <= Z.of_nat (meas_since h + nz))%Z)).
  { unfold ripe. cbn [s1 rupd rmeas]. rewrite C1, C2, andb_true_iff, Z.leb_le, as_uint_id by assumption.
    destruct (rminMeas c) as [m|].
    - rewrite Z.leb_le, as_uint_id by (apply Hm; reflexivity). split; intros [A B]; (split; [exact A|]); [intros m' [= <-]; exact B|now apply B].
    - split; intros [A B]; (split; [exact A|]); [discriminate|reflexivity]. }
  destruct (finish_cases _ _ _ _ H) as [(Ho & _ & _ & Hr & Er)|(Ho & _ & _ & Hr & _)].
  - split; [intros _|intros _; exact Ho]. destruct (proj1 Hdue Hr) as [D1 D2]. split; [exact D1|]. split; [exact D2|].
    intros Hn. rewrite (K1 Hn) in Er. discriminate.
  - rewrite Ho. split; [discriminate|]. intros (D1 & D2 & Hn). exfalso. destruct Hr as [Hr|Hr].
    + rewrite (proj2 Hdue (conj D1 D2)) in Hr. discriminate.
    + rewrite (K2 Hn) in Hr. apply resample_refused in Hr as [Hr _]. discriminate.
Qed.

(** ** Definedness *)
Definition fine (p : part) : Prop := forall q, pw p = Some q -> (0 <= q)%Qc.

Lemma nsum_none : forall l, fold_left nadd l None = None.
Proof. induction l as [|x l IH]; [reflexivity|exact IH]. Qed.
Lemma nsum_nan : forall l a, In None l -> fold_left nadd l a = None.
Proof.
  induction l as [|x l IH]; intros a H; [destruct H|]. cbn. destruct H as [->|H]; [|now apply IH].
  destruct a; apply nsum_none.
Qed.
Lemma weights_cases : forall l : list part, (forall p, In p l -> fine p) ->
  (exists w, weights_of l w) \/ map pw (normalizeWeights l) = repeat None (length l).
Proof.
  intros l H. assert (R : forall l' : list part, map (fun _ : part => @None Qc) l' = repeat None (length l')).
  { induction l' as [|a l' IH]; [reflexivity|]. cbn. now rewrite IH. }
  destruct (in_dec (fun a b : num => ltac:(decide equality; apply Qc_eq_dec)) None (map pw l)) as [Hn|Hn].
  - right. unfold normalizeWeights. unfold nsum. rewrite (nsum_nan _ _ Hn), map_map. rewrite <- R. apply map_ext. intros p. cbn. destruct (pw p); reflexivity.
  - set (w := map (fun p => match pw p with Some x => x | None => 0%Qc end) l).
    assert (Hm : map pw l = map (@Some Qc) w).
    { unfold w. rewrite map_map. apply map_ext_in. intros p Hp. destruct (pw p) eqn:E; [reflexivity|]. exfalso. apply Hn. rewrite <- E. now apply in_map. }
    assert (Hp : forall x, In x w -> (0 <= x)%Qc).
    { intros x Hx. unfold w in Hx. apply in_map_iff in Hx as (p & <- & Hp). specialize (H p Hp). unfold fine in H. destruct (pw p); [now apply H|apply Qcle_refl]. }
    destruct (Qclt_le_dec 0 (qsum w)) as [Hs|Hs]; [left; exists w; split; auto|].
    right. assert (Hz : qsum w = 0%Qc) by (apply Qcle_antisym; [exact Hs|now apply qsum_nonneg]).
    unfold normalizeWeights. rewrite Hm, nsum_some, Hz, map_map, <- R. apply map_ext. intros p. cbn. destruct (pw p); reflexivity.
Qed.

Lemma nan_resample : forall l n u, all_data l -> l <> [] -> map pw (normalizeWeights l) = repeat None (length l) ->
  exists l' : list part, do_resample (normalizeWeights l) n u = Val l'.
Proof.
  intros l n u Hd Hne Hmn. assert (Hpos : 0 < length l) by (destruct l; [congruence|simpl; lia]).
  set (sel := repeat 0%nat (kept n (length l))).
  assert (Hls : length sel = kept n (length l)) by apply repeat_length.
  destruct (copies_ok P D l sel Hd) as (l' & src & Hc & _).
  { rewrite Hls. apply kept_le. }
  { intros i Hi. apply repeat_spec in Hi. lia. }
  { unfold sel. induction (kept n (length l)) as [|m IH]; simpl; constructor; auto. apply Forall_forall. intros x Hx. apply repeat_spec in Hx. lia. }
  unfold do_resample. rewrite norm_length, sample_count_kept, Hmn.
  assert (Hdr : draw (repeat None (length l)) (kept n (length l)) u = Val sel).
  { destruct (length l) as [|m]; [lia|]. cbn [repeat draw]. apply sample_nan. }
  rewrite Hdr. cbn [obind]. rewrite norm_length, Hls in Hc. unfold sel in Hc |- *. rewrite Hc. cbn [obind]. eauto.
Qed.

Lemma resample_defined : forall (s : pf P D) u t pc, all_data (pset s) -> pset s <> [] -> (forall p, In p (pset s) -> fine p) ->
  (0 <= u < 1)%Qc -> effT s = Some t -> effPct s = Some pc ->
  exists f o, resample s 0 false u = Val (f, o) /\ effT f = effT s /\ effPct f = effPct s.
Proof.
  intros s u t pc Hd Hne Hf Hu Ht Hp. unfold resample.
  assert (En : exists b, enough s (normalizeWeights (pset s)) = Val b).
  { unfold enough. rewrite Ht, Hp. cbn [of_option obind]. destruct (ngt _ t); cbn; eauto. }
  destruct En as [b ->]. cbn [obind]. destruct b; [eexists _, _; split; [reflexivity|split; reflexivity]|].
  assert (Er : exists l', do_resample (normalizeWeights (pset s)) 0 u = Val l').
  { destruct (weights_cases (pset s) Hf) as [[w Hw]|Hn]; [|now apply nan_resample].
    destruct (do_resample_ok P D (pset s) 0 u w Hw Hd Hu) as (l' & sel & src & E & _). eauto. }
  destruct Er as [l' ->]. cbn [obind]. eexists _, _. split; [reflexivity|split; reflexivity].
Qed.

Definition sane (n : nat) (s : rbf P D) : Prop :=
  length (pset (rpf s)) = n /\ all_data (pset (rpf s)) /\ (forall p, In p (pset (rpf s)) -> fine p) /\
  effT (rpf s) <> None /\ effPct (rpf s) <> None.

Lemma norm_fine : forall l : list part, (forall p, In p l -> fine p) -> forall p, In p (normalizeWeights l) -> fine p.
Proof.
  intros l H p Hp q Hq. destruct (weights_cases l H) as [[w Hw]|Hn].
  - assert (E := norm_weights P D l w Hw). apply (in_map pw) in Hp. rewrite E in Hp. rewrite Hq in Hp.
    apply in_map_iff in Hp as (x & Ex & Hx). injection Ex as <-. apply in_map_iff in Hx as (y & <- & Hy).
    destruct Hw as (_ & Hnn & Hs). specialize (Hnn y Hy). assert (E2 := Qcdiv_mul y (qsum w) (Qcpos_neq _ Hs)).
    destruct (Qclt_le_dec (y / qsum w) 0) as [Hl|Hl]; [|exact Hl]. exfalso. set (z := (y / qsum w)%Qc) in *. clearbody z. clear - E2 Hl Hnn Hs. qcnra.
  - apply (in_map pw) in Hp. rewrite Hn in Hp. apply repeat_spec in Hp. congruence.
Qed.

Lemma call_sane : forall c n (s : rbf P D) k, 0 < n -> sane n s -> sound_call k -> exists s', rdo c s k = Val s' /\ sane n s'.
Proof.
  intros c n s k Hn (L & Hd & Hf & Ht & Hp) Hk. destruct k as [birth move stat|nz maps wts u|t]; cbn [rdo].
  - unfold rpredict. destruct (each_val (step_part (rkeep c) birth move stat) (pset (rpf s)) 0 Hd) as [l E]. rewrite E. cbn [obind].
    eexists. split; [reflexivity|]. destruct (each_nth _ _ _ _ E) as [L' N]. split; [cbn; congruence|]. cbn [rpf pset effT effPct].
    split; [|split; [|auto]].
    + intros q Hq. apply In_nth_error in Hq as [i Hi]. destruct (N i q Hi) as (p & d & _ & _ & ->). cbn. discriminate.
    + intros q Hq. apply In_nth_error in Hq as [i Hi]. destruct (N i q Hi) as (p & d & H1 & _ & ->). unfold fine. cbn. apply Hf. eapply nth_error_In. exact H1.
  - destruct Hk as [Hu Hw]. unfold rupdate. destruct (Nat.eqb_spec nz 0) as [->|Hz].
    { eexists. split; [reflexivity|]. unfold sane. cbn. auto. }
    destruct (each_val (upd_part maps wts) (pset (rpf s)) 0 Hd) as [l E]. rewrite E. cbn [obind]. destruct (each_nth _ _ _ _ E) as [L' N].
    assert (Hdl : all_data l). { intros q Hq. apply In_nth_error in Hq as [i Hi]. destruct (N i q Hi) as (p & d & _ & _ & ->). cbn. discriminate. }
    assert (Hfl : forall q, In q l -> fine q).
    { intros q Hq. apply In_nth_error in Hq as [i Hi]. destruct (N i q Hi) as (p & d & H1 & _ & ->). unfold fine. cbn [upd_part pw]. intros v Hv.
      eapply Hw; [|exact Hv]. apply Hf. eapply nth_error_In. exact H1. }
    unfold finish. cbn [rpf rupd rmeas].
    assert (Sn : forall l0 t0 p0 a b o, length l0 = n -> all_data l0 -> (forall q, In q l0 -> fine q) -> t0 <> None -> p0 <> None ->
      sane n (RB (PF (normalizeWeights l0) t0 p0) a b o)).
    { intros l0 t0 p0 a b o A1 A2 A3 A4 A5. unfold sane. cbn. split; [rewrite norm_length; exact A1|]. split; [now apply norm_data|]. split; [now apply norm_fine|auto]. }
    destruct (ripe c (S (rupd s)) (rmeas s + nz)); cbn [obind].
    + set (s1 := PF l (effT (rpf s)) (effPct (rpf s))).
      destruct (effT (rpf s)) as [t1|] eqn:Et; [|congruence]. destruct (effPct (rpf s)) as [p1|] eqn:Ep; [|congruence].
      destruct (resample_defined s1 u t1 p1) as (f & o & Er & Ef1 & Ef2); auto.
      { cbn. destruct l; [cbn in L'; lia|discriminate]. }
      rewrite Er. cbn [obind]. destruct o.
      * eexists. split; [reflexivity|]. split; [cbn [rpf]; rewrite (resample_length _ _ _ _ _ Er); cbn; congruence|]. cbn [rpf]. rewrite Ef1, Ef2. cbn.
        split; [|split; [|split; discriminate]].
        -- intros q Hq. apply In_nth_error in Hq as [i Hi]. destruct (resample_src _ _ _ _ _ Er i q Hi) as (_ & j & p & H1 & _ & _ & ->). apply Hdl. eapply nth_error_In. exact H1.
        -- intros q Hq. apply In_nth_error in Hq as [i Hi]. destruct (resample_src _ _ _ _ _ Er i q Hi) as (H1 & _). intros v Hv. rewrite H1 in Hv. injection Hv as <-. discriminate.
      * apply resample_refused in Er as (_ & -> & _). eexists. split; [reflexivity|]. cbn [pset effT effPct s1]. apply Sn; [rewrite norm_length; congruence|now apply norm_data|now apply norm_fine|discriminate|discriminate].
    + eexists. split; [reflexivity|]. cbn [pset effT effPct]. apply Sn; auto. congruence.
  - eexists. split; [reflexivity|]. unfold sane. cbn. split; [exact L|]. split; [exact Hd|]. split; [exact Hf|]. split; discriminate.
Qed.

Theorem run_defined : forall c n x0 d0 t ks, 0 < n -> Forall sound_call ks ->
  exists s : rbf P D, rrun c (rb_new n x0 d0) (RThreshold t :: ks) = Val s /\ length (pset (rpf s)) = n.
Proof.
  intros c n x0 d0 t ks Hn Hk. cbn [rrun rdo obind].
  set (s0 := RB _ _ _ _). assert (S0 : sane n s0).
  { unfold sane, s0. cbn. split; [now rewrite !map_length, seq_length|].
    split; [|split; [|split; discriminate]].
    - intros p Hp. apply in_map_iff in Hp as (q & <- & _). discriminate.
    - intros p Hp. apply in_map_iff in Hp as (q & <- & Hq). apply in_map_iff in Hq as (i & <- & _). intros v Hv. cbn in Hv. injection Hv as <-.
      destruct (Qclt_le_dec 1 0) as [Hc|_]; [now vm_compute in Hc|discriminate]. }
  clearbody s0. revert s0 S0. induction Hk as [|k ks Hk _ IH]; intros s S; [exists s; split; [reflexivity|apply S]|].
  cbn [rrun]. destruct (call_sane c n s k Hn S Hk) as (s' & -> & S'). cbn [obind]. exact (IH s' S').
Qed.
End RR.
