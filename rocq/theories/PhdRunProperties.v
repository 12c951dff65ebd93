(** Runs of the PHD filter: C195, C196; positive likelihoods: C197. *)
From Coq Require Import ZArith QArith Qcanon List Bool Arith Lia.
From Verif Require Import Base QcLra ParticleModel RbRunModel PermanentSpec RfsModel RfsSpec RfsKbest RfsProofs6 PhdModel WeighModel WeighSpec WeighProofs WeighProofs3 BirthModel PhdRunModel PhdRunSpec PhdRunProofs4 PhdRunProofs5 PhdRunProofs6.
Import ListNotations.
Local Open Scope Qc_scope.

(** C195.  If the sensor never detects with certainty and clutter is possible everywhere, if one measurement is enough
    for a birth, and if no update without measurements comes between an update and the next predict that looks for births,
    then every run is defined: no division by zero, no access out of range, no iterator past the end.  At every point the
    filter holds n particles with positive weights, and the weights in their maps are not negative; the bound on their
    sum is C196.
    Missing: nothing for these runs; none of the conditions can be dropped (C195_count_refuted, C195_certain_refuted,
    C195_calm_refuted). *)
Theorem C195_run_partial : forall {Pose M T : Type} (sn : hsensor Pose M T) cf o, hsensor_sound sn -> hconf_sound cf -> houtside_sound o ->
  forall g0 c n x0 t ks, (0 < n)%nat -> hdraws_ok ks -> hcalm false ks ->
  exists s, hrun sn cf o g0 c (hf_new n x0) (HThreshold t :: ks) = Val s /\ length (pset (rpf (hRb s))) = n /\
  hall_maps (QcN (heard ks) * (1 + hBirthW cf)) s.
Proof. exact @phd_run. Qed.
Print Assumptions C195_run_partial.

(** C196.  At every point of a run the expected number of landmarks in the map of any particle, the sum of the weights, is at
    most the number of measurements received so far times one plus the birth weight, however often the filter resamples.
    For every run that does not end in undefined behaviour and every sensor with probabilities, likelihoods and clutter that
    are not negative, also for weights that are not numbers, whatever the thresholds for births: a candidate with enough
    measurements does not outlive the predict that follows, so that no more landmarks are born than measurements are left. *)
Theorem C196_landmarks : forall {Pose M T : Type} (sn : hsensor Pose M T) cf o, hsensor_weak sn -> 0 <= hBirthW cf -> sort_contract (xSort o) -> hmerge_sound (xMerge o) ->
  forall g0 c n x0 ks s, hrun sn cf o g0 c (hf_new n x0) ks = Val s ->
  forall p mix, In p (pset (rpf (hRb s))) -> pdata p = Some mix ->
  (forall lm v, In (lm, v) mix -> 0 <= v) /\ mass T mix <= QcN (heard ks) * (1 + hBirthW cf).
Proof. exact @phd_count. Qed.
Print Assumptions C196_landmarks.

(** Every defined run of the PHD filter is a run of the filter with maps of any kind, so that C188 to C191 hold for it. *)
Theorem C195_refines : forall {Pose M T : Type} (sn : hsensor Pose M T) cf o g0 c ks s s', hrun sn cf o g0 c s ks = Val s' ->
  exists rs, Forall2 (same_hcall sn cf o) ks rs /\ rrun c (hRb s) rs = Val (hRb s').
Proof. exact @run_refines. Qed.
Print Assumptions C195_refines.

(** C197.  If any assignment of the measurements to landmarks and clutter has positive weight, the likelihood of the
    measurement set is positive, however many assignments there are and although only the best of them are summed up.
    (The detection probability of a landmark that fits no measurement is taken as zero, C18.) *)
Theorem C197_positive : forall L pd cl lim kbest, (forall m z, 0 <= L m z) -> (forall m, 0 <= pd m <= 1) -> (forall z, 0 <= cl z) -> kbest_contract kbest ->
  forall cc ncc integral nM nZ, 0 < integral -> (nM + nZ <> 0)%nat -> PartitionSpec.components_of (RfsSpec.support L) 0 nM nZ cc ncc ->
  exists l s, rfs_likelihood L pd cl lim kbest cc ncc integral nM nZ = Val l /\ association_sum nM nZ L (swapped nZ L pd) cl s /\ (0 < s -> 0 < l).
Proof. exact rfs_positive. Qed.
Print Assumptions C197_positive.

(** It never vanishes if no landmark is detected with certainty and clutter is possible everywhere. *)
Theorem C197_alive : forall L pd cl lim kbest, (forall m z, 0 <= L m z) -> (forall m, 0 <= pd m <= 1) -> (forall z, 0 <= cl z) -> kbest_contract kbest ->
  forall cc ncc integral nM nZ, 0 < integral -> (nM + nZ <> 0)%nat -> PartitionSpec.components_of (RfsSpec.support L) 0 nM nZ cc ncc ->
  (forall m, (m < nM)%nat -> 0 < pd m < 1) -> (forall z, (z < nZ)%nat -> 0 < cl z) ->
  exists l, rfs_likelihood L pd cl lim kbest cc ncc integral nM nZ = Val l /\ 0 < l.
Proof. exact rfs_alive. Qed.
Print Assumptions C197_alive.

(** ** Examples *)
(** Poses, measurements and landmarks are numbers; a measurement fits the landmark of the same number. *)
Definition frac (a : Z) (b : positive) : Qc := Q2Qc (a # b).
Definition ex_sn (pd : Qc) : hsensor nat nat nat :=
  Hsensor (fun _ _ => (pd, false)) (fun x lm z => if Nat.eqb lm z then (frac 2 1, 0, lm) else (0, frac 50 1, lm)) (fun x lm z => if Nat.eqb lm z then (frac 2 1, 0) else (0, frac 50 1))
    (fun a b => if Nat.eqb a b then 1 else 0) (fun _ _ => 1) (fun _ => 1) (fun x z => z) (fun x lm z => Nat.eqb lm z) (fun x lm z => lm).
Definition ex_cf (cnt : nat) (cluster : bool) : hconf := Hconf (frac 9 1) (frac 1 4) (Settings 8 0 (frac 9 1) cluster) cnt 3 0 (frac 1 1000).
Definition ex_o : houtside nat := Houtside (frac 1 1000) (fun _ => 1) comps_ref kbest_ref (sort_ref nat) (fun m => m).
Definition ex_run (pd : Qc) (cnt : nat) (cluster : bool) (n : nat) (ks : list (hcall nat nat nat)) :=
  hrun (ex_sn pd) (ex_cf cnt cluster) ex_o false (RC 1 None true) (hf_new n 100%nat) (HThreshold 0 :: ks).
Definition go : hcall nat nat nat := HPredict true (fun i x => (x + 10 * (i + 1))%nat) (fun g => g).
Definition look (zs : list nat) : hcall nat nat nat := HUpdate zs (frac 1 3).
Definition shown (s : hfilt nat nat nat) : list (list (nat * Q) * option Q) :=
  map (fun p => (match pdata p with Some ts => map (fun g => (fst g, this (snd g))) ts | None => [] end, option_map this (pw p))) (pset (rpf (hRb s))).

Lemma ex_sn_sound : forall pd, 0 <= pd < 1 -> hsensor_sound (ex_sn pd).
Proof.
  intros pd H. split; [intros; exact H|]. split; [|split; [|split; [|split; intros; reflexivity]]].
  - intros x lm y. cbn. destruct (Nat.eqb lm y); discriminate.
  - intros x lm y. cbn. destruct (Nat.eqb lm y); discriminate.
  - intros a b. cbn. destruct (Nat.eqb a b); discriminate.
Qed.
Lemma ex_cf_sound : forall cl, hconf_sound (ex_cf 1 cl).
Proof. intros cl. split; [discriminate|reflexivity]. Qed.
Lemma ex_o_sound : houtside_sound ex_o.
Proof.
  split; [reflexivity|]. split; [intros x; reflexivity|]. split; [apply comps_ref_ok|]. split; [apply kbest_ref_ok|]. split; [apply sort_ref_ok|].
  intros mix H. split; [exact H|reflexivity].
Qed.
Lemma half_ok : 0 <= frac 1 2 < 1.
Proof. split; [discriminate|reflexivity]. Qed.
Lemma draws : forall ks, (forall k, In k ks -> match k with HUpdate _ u => u = frac 1 3 | _ => True end) -> @hdraws_ok nat nat nat ks.
Proof. intros ks H zs u Hi. specialize (H _ Hi). cbn in H. subst. split; [discriminate|reflexivity]. Qed.

(** Two particles, two landmarks, each corrected and missed; with both ways to weight the particles. *)
Example C195_ex : hsensor_sound (ex_sn (frac 1 2)) /\ (forall cl, hconf_sound (ex_cf 1 cl)) /\ houtside_sound ex_o /\
  hdraws_ok [look [1]; go; look [1; 2]; go]%nat /\ hcalm false [look [1]; go; look [1; 2]; go]%nat /\
  omap shown (ex_run (frac 1 2) 1 false 2 [look [1]; go; look [1; 2]; go]%nat) =
    Val [([(1%nat, 1 # 5); (1%nat, 1 # 8); (2%nat, 1 # 4)], Some (1 # 2)); ([(1%nat, 1 # 5); (1%nat, 1 # 8); (2%nat, 1 # 4)], Some (1 # 2))]%Q /\
  omap shown (ex_run (frac 1 2) 1 true 2 [look [1]; go; look [1; 2]; go]%nat) =
    Val [([(1%nat, 1 # 8); (1%nat, 1 # 5); (2%nat, 1 # 4)], Some (1 # 2)); ([(1%nat, 1 # 8); (1%nat, 1 # 5); (2%nat, 1 # 4)], Some (1 # 2))]%Q /\
  this (QcN (heard [look [1]; go; look [1; 2]; go]%nat) * (1 + hBirthW (ex_cf 1 false))) = (15 # 4)%Q.
Proof.
  split; [apply ex_sn_sound, half_ok|]. split; [apply ex_cf_sound|]. split; [apply ex_o_sound|]. split; [|split; [cbn; tauto|]].
  - apply draws. intros k [<-|[<-|[<-|[<-|[]]]]]; cbn; auto.
  - split; [|split]; vm_compute; reflexivity.
Qed.

(** With two measurements per birth a candidate that is seen again is the last of its list, and the loop goes on past the
    end. *)
Theorem C195_count_refuted : exists ks, hsensor_sound (ex_sn (frac 1 2)) /\ houtside_sound ex_o /\ hdraws_ok ks /\ hcalm false ks /\
  ex_run (frac 1 2) 2 false 2 ks = UB BadIterator.
Proof.
  exists [look [1]; go; look [1; 2]; go; look [2]; go]%nat. split; [apply ex_sn_sound, half_ok|]. split; [apply ex_o_sound|]. split; [|split; [cbn; tauto|vm_compute; reflexivity]].
  apply draws. intros k [<-|[<-|[<-|[<-|[<-|[<-|[]]]]]]]; cbn; auto.
Qed.
Print Assumptions C195_count_refuted.

(** After an update without measurements the births of the update before are read from an empty list. *)
Theorem C195_calm_refuted : exists ks, hsensor_sound (ex_sn (frac 1 2)) /\ hconf_sound (ex_cf 1 false) /\ houtside_sound ex_o /\ hdraws_ok ks /\
  ex_run (frac 1 2) 1 false 2 ks = UB OutOfBounds.
Proof.
  exists [look [1]; look []; go]%nat. split; [apply ex_sn_sound, half_ok|]. split; [apply ex_cf_sound|]. split; [apply ex_o_sound|]. split; [|vm_compute; reflexivity].
  apply draws. intros k [<-|[<-|[<-|[]]]]; cbn; auto.
Qed.
Print Assumptions C195_calm_refuted.

(** A sensor that detects with certainty and cannot tell landmarks apart: with two landmarks and one measurement every
    particle gets weight zero, and after the normalisation no weight is a number. *)
Definition all_sn (pd : Qc) : hsensor nat nat nat :=
  Hsensor (fun _ _ => (pd, false)) (fun x lm z => (frac 2 1, 0, lm)) (fun x lm z => (frac 2 1, 0)) (fun a b => 1) (fun _ _ => 1) (fun _ => 1) (fun x z => z)
    (fun x lm z => Nat.eqb lm z) (fun x lm z => lm).
Theorem C195_certain_refuted : exists ks, (forall x lm, fst (hPd (all_sn 1) x lm) = 1) /\ (forall y n, 0 < hClut (all_sn 1) y n) /\ hconf_sound (ex_cf 1 false) /\ houtside_sound ex_o /\
  hdraws_ok ks /\ hcalm false ks /\
  omap (fun s => map pw (pset (rpf (hRb s)))) (hrun (all_sn 1) (ex_cf 1 false) ex_o false (RC 5 None true) (hf_new 2 100%nat) (HThreshold 0 :: ks)) = Val [None; None].
Proof.
  exists [look [1; 2]; go; look [3]]%nat. split; [reflexivity|]. split; [reflexivity|]. split; [apply ex_cf_sound|]. split; [apply ex_o_sound|].
  split; [|split; [cbn; tauto|vm_compute; reflexivity]]. apply draws. intros k [<-|[<-|[<-|[]]]]; cbn; auto.
Qed.
Print Assumptions C195_certain_refuted.

(** C196.  Three measurements, bound 15/4, expected number of landmarks 23/40; and a run with a sensor that detects with
    certainty, without a threshold, in which weights of particles are lost: bound 15/4, expected number 1/2. *)
Lemma all_sn_weak : hsensor_weak (all_sn 1).
Proof. split; [intros; split; discriminate|]. split; intros; discriminate. Qed.
Definition masses (s : hfilt nat nat nat) : list Q := map (fun p => match pdata p with Some ts => this (mass nat ts) | None => 0%Q end) (pset (rpf (hRb s))).
Example C196_ex : hsensor_weak (all_sn 1) /\ 0 <= hBirthW (ex_cf 1 false) /\ sort_contract (xSort ex_o) /\ hmerge_sound (xMerge ex_o) /\
  omap masses (ex_run (frac 1 2) 1 false 2 [look [1]; go; look [1; 2]; go]%nat) = Val [23 # 40; 23 # 40]%Q /\
  omap masses (hrun (all_sn 1) (ex_cf 1 false) ex_o false (RC 5 None true) (hf_new 2 100%nat) [look [1; 2]; go; look [3]]%nat) = Val [1 # 2; 1 # 2]%Q.
Proof. split; [apply all_sn_weak|]. split; [discriminate|]. destruct ex_o_sound as (_ & _ & _ & _ & A & B). split; [exact A|]. split; [exact B|]. split; vm_compute; reflexivity. Qed.
(** Two measurements per birth: landmark 1 is a candidate after the second update and born after the third, 2 waits. *)
Example C196_count_ex : hsensor_weak (ex_sn (frac 1 2)) /\ 0 <= hBirthW (ex_cf 2 false) /\ sort_contract (xSort ex_o) /\ hmerge_sound (xMerge ex_o) /\
  omap shown (ex_run (frac 1 2) 2 false 1 [look [5]; go; look [5; 1]; go; look [5; 1; 2]; go]%nat) =
  Val [([(5%nat, 8 # 53); (5%nat, 1 # 10); (5%nat, 5 # 53); (5%nat, 1 # 16); (1%nat, 1 # 4)], Some (1 # 1))]%Q /\
  omap (fun s => map (fun u => map (fun c => (clm (option nat) c, nsup (option nat) c)) (lCands u)) (hSlots s)) (ex_run (frac 1 2) 2 false 1 [look [5]; go; look [5; 1]; go; look [5; 1; 2]; go]%nat) =
  Val [[(Some 2, 1)]]%nat.
Proof.
  split; [|split; [discriminate|]].
  - split; [intros x lm; split; discriminate|]. split; intros; cbn; try discriminate; destruct (Nat.eqb _ _); discriminate.
  - destruct ex_o_sound as (_ & _ & _ & _ & A & B). split; [exact A|]. split; [exact B|]. split; vm_compute; reflexivity.
Qed.

(** C197: a table with two landmarks and one measurement. *)
Example C197_ex : (forall m, (m < 2)%nat -> 0 < frac 1 2 < 1) /\ kbest_contract kbest_ref /\
  PartitionSpec.components_of (RfsSpec.support (fun _ _ => frac 2 1)) 0 2 1 (fst (comps_ref (RfsSpec.support (fun _ _ => frac 2 1)) 2 1)) (snd (comps_ref (RfsSpec.support (fun _ _ => frac 2 1)) 2 1)) /\
  omap this (rfs_likelihood (fun _ _ => frac 2 1) (fun _ => frac 1 2) (fun _ => 1) 8 kbest_ref (fst (comps_ref (RfsSpec.support (fun _ _ => frac 2 1)) 2 1))
    (snd (comps_ref (RfsSpec.support (fun _ _ => frac 2 1)) 2 1)) 1 2 1) = Val (9 # 4)%Q.
Proof. split; [intros m _; split; reflexivity|]. split; [apply kbest_ref_ok|]. split; [apply comps_ref_ok|vm_compute; reflexivity]. Qed.
