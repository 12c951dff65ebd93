(** C188, C189, C190 and C191: runs of the Rao-Blackwellised PHD, LMB and CB-MeMBer filters. *)
From Coq Require Import ZArith QArith Qcanon List Bool Arith Lia.
From Verif Require Import Base ListUtil QcLra ParticleModel ParticleSpec RbRunModel RbRunSpec RbRunProofs RbRunProofs2.
Import ListNotations.
Local Open Scope nat_scope.

(** ** A small world: poses and maps are numbers; slot i moves by i + 1, an update adds ten times
    the slot number plus the pose to the map and multiplies the weight by 1 + 3 i. *)
Definition ahead : rcall nat nat := RPredict (fun i x d => d + x) (fun i x => x + S i) (fun d => S d).
Definition factor (i : nat) : Qc := QcN (1 + 3 * i).
Definition look (nz : nat) : rcall nat nat :=
  RUpdate nz (fun i x d => d + 10 * i + x) (fun i _ _ w => nmul (Some (factor i)) w) (Q2Qc (1 # 2)).
Definition factors (k : rcall nat nat) (i : nat) (x d : nat) : Qc := factor i.
Definition show (s : rbf nat nat) := map (fun p => (ppose p, pprev p, pdata p, option_map this (pw p))) (pset (rpf s)).
Fixpoint with_log (c : rcfg) (s : rbf nat nat) (ks : list (rcall nat nat)) : list bool :=
  match ks with
  | [] => []
  | k :: r => match rdo c s k with Val s' => resampled k s' :: with_log c s' r | _ => [] end
  end.
Lemma run_rlogged : forall c s0 h s ks s', rlogged c s0 h s -> rrun (Pose := nat) (Data := nat) c s ks = Val s' ->
  rlogged c s0 (h ++ combine ks (with_log c s ks)) s'.
Proof.
  intros c s0 h s ks. revert h s. induction ks as [|k ks IH]; intros h s s' Hl H; cbn [rrun with_log] in *.
  - injection H as <-. cbn. now rewrite app_nil_r.
  - destruct (rdo c s k) as [s1| |] eqn:E; try discriminate. cbn [obind combine] in *.
    assert (Hs := rlogged_snoc c _ _ _ _ _ Hl E). specialize (IH _ _ _ Hs H). now rewrite <- app_assoc in IH.
Qed.
Definition calls : list (rcall nat nat) := [RThreshold (QcN 2); ahead; look 0; look 3; ahead].

(** C188: after any calls every particle is the result of a history of its own: at each call it
    does what the call prescribes for the slot it is in, and only a resampling moves it to another
    slot.  The number of particles stays. *)
Theorem C188_history : forall P D (c : rcfg) (n : nat) (x0 : P) (d0 : D) (g : rcall P D -> nat -> P -> D -> Qc) h s,
  rlogged c (rb_new n x0 d0) h s ->
  length (pset (rpf s)) = n /\
  forall i p, nth_error (pset (rpf s)) i = Some p ->
    exists d w, history c n x0 d0 g h i (ppose p, pprev p, d) w /\ pdata p = Some d.
Proof. exact @all_traced. Qed.
Print Assumptions C188_history.
Example C188_ex : with_log phd_cfg (rb_new 2 7 0) calls = [false; false; false; true; false] /\
  exists s, rlogged phd_cfg (rb_new 2 7 0) (combine calls [false; false; false; true; false]) s /\
  show s = [(10, [9; 7], Some 37, Some (this 1)); (11, [9; 7], Some 37, Some (this 1))].
Proof.
  assert (E : with_log phd_cfg (rb_new 2 7 0) calls = [false; false; false; true; false]) by (vm_compute; reflexivity).
  split; [exact E|]. rewrite <- E. eexists. split.
  - apply (run_rlogged phd_cfg (rb_new 2 7 0) [] (rb_new 2 7 0) calls); [constructor|]. vm_compute. reflexivity.
  - vm_compute. reflexivity.
Qed.

(** C189: if every update with measurements multiplies the weight of a particle by a positive
    factor, the weights are at all times proportional to the products of the factors since the
    last resampling, along the history of the particle. *)
Theorem C189_weights : forall P D (c : rcfg) (n : nat) (x0 : P) (d0 : D) (g : rcall P D -> nat -> P -> D -> Qc) h s,
  rlogged c (rb_new n x0 d0) h s -> (forall k b, In (k, b) h -> multiplies g k) ->
  length (pset (rpf s)) = n /\ exists k v, (0 < k)%Qc /\
  forall i p, nth_error (pset (rpf s)) i = Some p ->
    (exists d, history c n x0 d0 g h i (ppose p, pprev p, d) (v i) /\ pdata p = Some d) /\ (0 < v i)%Qc /\ pw p = Some (k * v i)%Qc.
Proof. exact @all_weighted. Qed.
Print Assumptions C189_weights.
Definition rare : rcfg := RC 5 None false.
Definition looks : list (rcall nat nat) := [ahead; look 1; look 0; look 2].
Example C189_ex : exists s, rlogged rare (rb_new 2 7 0) (combine looks [false; false; false; false]) s /\
  show s = [(8, [], Some 24, Some (1 # 17)%Q); (9, [], Some 46, Some (16 # 17)%Q)].
Proof.
  assert (E : with_log rare (rb_new 2 7 0) looks = [false; false; false; false]) by (vm_compute; reflexivity).
  rewrite <- E. eexists. split.
  - apply (run_rlogged rare (rb_new 2 7 0) [] (rb_new 2 7 0) looks); [constructor|]. vm_compute. reflexivity.
  - vm_compute. reflexivity.
Qed.
Example C189_factors : multiplies factors ahead /\ multiplies factors (look 2).
Proof.
  split; [exact I|]. intros i x d. split; [|reflexivity]. unfold factors, factor. rewrite <- QcN_0. apply QcN_lt. lia.
Qed.

(** C190: the counters are the updates and the measurements since the last resampling. *)
Theorem C190_counters_partial : forall P D c n (x0 : P) (d0 : D) h s, rlogged c (rb_new n x0 d0) h s -> rupd s = upd_since h /\ rmeas s = meas_since h.
Proof. exact @run_counters. Qed.
Print Assumptions C190_counters_partial.
(** An update with measurements resamples iff enough updates and measurements were made and the
    effective number of particles of the new weights w is low (missing: negative settings, see
    below). *)
Theorem C190_decision_partial : forall P D c n (x0 : P) (d0 : D) h (s s' : rbf P D) nz maps wts u w t pc,
  rlogged c (rb_new n x0 d0) h s -> 0 < nz ->
  length w = length (pset (rpf s)) ->
  (forall i p d, nth_error (pset (rpf s)) i = Some p -> pdata p = Some d -> wts i (ppose p) d (pw p) = nth_error w i) ->
  (forall x, In x w -> 0 <= x)%Qc -> (0 < qsum w)%Qc ->
  effT (rpf s) = Some (Some t) -> effPct (rpf s) = Some (Some pc) ->
  (0 <= rminUpd c < 2 ^ 32)%Z -> (forall m, rminMeas c = Some m -> 0 <= m < 2 ^ 32)%Z ->
  rupdate c nz maps wts u s = Val s' ->
  let neff := (qsum w * qsum w / qsum (map (fun x => x * x) w))%Qc in
  (rocc s' = Some true <->
    (rminUpd c <= Z.of_nat (1 + upd_since h))%Z /\
    (forall m, rminMeas c = Some m -> (m <= Z.of_nat (meas_since h + nz))%Z) /\
    ~ (t < neff /\ pc < neff / QcN (length w))%Qc).
Proof. exact @run_decision. Qed.
Print Assumptions C190_decision_partial.
(** Waiting for two updates and four measurements: the fourth update resamples. *)
Example C190_ex : with_log (RC 2 (Some 4%Z) true) (rb_new 2 7 0) [RThreshold (QcN 2); look 3; look 0; look 0; look 1; look 3; look 1; look 3] =
  [false; false; false; false; true; false; true; false].
Proof. vm_compute. reflexivity. Qed.
(** A minimum of -1 updates is always met, but the filter never resamples: weights 0 and 1. *)
Theorem C190_refuted : exists c s', rminUpd c = (-1)%Z /\ rminMeas c = None /\
  rrun c (rb_new 2 7 0) [RThreshold (QcN 2); RUpdate 1 (fun _ _ d => d) (fun i _ _ _ => Some (QcN i)) (Q2Qc (1 # 2))] = Val s' /\
  map pw (pset (rpf s')) = [Some 0; Some 1]%Qc /\ rocc s' = Some false.
Proof. exists (RC (-1) None false). eexists. do 2 (split; [reflexivity|]). split; [vm_compute; reflexivity|]. split; [|reflexivity]. vm_compute. repeat f_equal; apply Qc_is_canon; reflexivity. Qed.
Print Assumptions C190_refuted.

(** C191: with the threshold set first, draws in [0,1) and weights that are never negative (they
    may be NaN), no sequence of calls is undefined and the number of particles stays. *)
Theorem C191_defined_partial : forall P D c n (x0 : P) (d0 : D) t ks, 0 < n -> Forall sound_call ks ->
  exists s, rrun c (rb_new n x0 d0) (RThreshold t :: ks) = Val s /\ length (pset (rpf s)) = n.
Proof. exact @run_defined. Qed.
Print Assumptions C191_defined_partial.
Example C191_ex : Forall sound_call [ahead; look 3; look 0].
Proof.
  assert (H : forall nz, sound_call (look nz)).
  { intros nz. split; [split; [discriminate|reflexivity]|]. intros i _ _ v w Hv Hw. destruct v as [q|]; [|discriminate]. cbn in Hw. injection Hw as <-.
    assert (H0 : (0 <= factor i)%Qc) by (unfold factor; rewrite <- QcN_0; apply QcN_le; lia). specialize (Hv q eq_refl).
    revert H0 Hv. generalize (factor i). intros a Ha Hq. qcnra. }
  apply Forall_cons; [exact I|]. apply Forall_cons; [apply H|]. apply Forall_cons; [apply H|]. apply Forall_nil.
Qed.
(** Without setting it the first update reads a threshold that was never written. *)
Theorem C191_refuted : exists ks, Forall sound_call ks /\ rrun phd_cfg (rb_new 2 7 0) ks = UB Uninit.
Proof.
  exists [RUpdate 1 (fun _ _ d => d) (fun _ _ _ w => w) (Q2Qc (1 # 2))]. split; [|vm_compute; reflexivity].
  apply Forall_cons; [|apply Forall_nil]. split; [split; [discriminate|reflexivity]|]. intros _ _ _ v w Hv Hw. now apply Hv.
Qed.
Print Assumptions C191_refuted.
