(** C25-C28, C58, C59: class ParticleFilter (include/ParticleFilter.hpp). *)
From Coq Require Import ZArith QArith Qcanon Qround List Bool Arith Lia Permutation.
From Verif Require Import Base QcLra ParticleModel ParticleSpec ParticleProofs3 PropagateModel PropagateProofs.
Import ListNotations.
Local Open Scope Qc_scope.

(** C25: for every draw u in (0,1), a forced resample returns true, keeps the requested number
    of particles, and particle i is the source of floor or ceiling of its expected number
    of slots (missing: the draw u = 0, for which this is false, see below). *)
Theorem C25_counts_partial : forall P D (s : pf P D) n u w,
  weights_of (pset s) w -> all_data (pset s) -> 0 < u < 1 ->
  exists s' src, resample s n true u = Val (s', true) /\
  length (pset s') = kept n (length (pset s)) /\ built_from (pset s) (pset s') src /\
  (forall i, (i < length (pset s))%nat ->
     (Qfloor (this (expected w (kept n (length (pset s))) i)) <= Z.of_nat (count_occ Nat.eq_dec src i)
     <= Qceiling (this (expected w (kept n (length (pset s))) i)))%Z).
Proof. exact c25_counts. Qed.
Print Assumptions C25_counts_partial.

(** For every draw in [0,1) the number of copies is within one of the expected number. *)
Theorem C25_within_one : forall P D (s : pf P D) n u w,
  weights_of (pset s) w -> all_data (pset s) -> 0 <= u < 1 ->
  exists s' src, resample s n true u = Val (s', true) /\
  length (pset s') = kept n (length (pset s)) /\ built_from (pset s) (pset s') src /\
  (forall i, (i < length (pset s))%nat ->
     expected w (kept n (length (pset s))) i - 1 <= QcN (count_occ Nat.eq_dec src i) <= expected w (kept n (length (pset s))) i + 1).
Proof. exact c25_within. Qed.
Print Assumptions C25_within_one.

(** No copy of a particle of weight zero, for u in (0,1). *)
Theorem C25_zero_weight_partial : forall P D (s : pf P D) n u w,
  weights_of (pset s) w -> all_data (pset s) -> 0 < u < 1 ->
  exists s' src, resample s n true u = Val (s', true) /\ built_from (pset s) (pset s') src /\
  (forall i, nth_error w i = Some 0 -> ~ In i src).
Proof. exact c25_zero. Qed.
Print Assumptions C25_zero_weight_partial.

(** When all weights are zero (they become NaN) every slot descends from particle 0. *)
Theorem C25_all_zero : forall P D (s : pf P D) n u, pset s <> [] -> all_data (pset s) ->
  (forall p, In p (pset s) -> pw p = Some 0) ->
  exists s', resample s n true u = Val (s', true) /\
  built_from (pset s) (pset s') (repeat 0%nat (kept n (length (pset s)))).
Proof. exact c25_all_zero. Qed.
Print Assumptions C25_all_zero.

(** Particles with poses 100, 101, ... and the given weights (shared by the examples). *)
Definition pf_ex (ws : list Qc) : pf nat nat :=
  PF (map (fun iw => PT (fst iw) (fst iw) (Some (snd iw)) (100 + fst iw)%nat [] (Some 7%nat))
          (combine (seq 0 (length ws)) ws)) (Some (Some (QcN 1))) (Some (Some (Q2Qc (1 # 4)))).
Definition poses {D} (r : outcome (pf nat D * bool)) : outcome (list nat * bool) :=
  omap (fun x => (map ppose (pset (fst x)), snd x)) r.

Example C25_ex : weights_of (pset (pf_ex [QcN 1; QcN 4; 0; QcN 2])) [QcN 1; QcN 4; 0; QcN 2] /\
  all_data (pset (pf_ex [QcN 1; QcN 4; 0; QcN 2])) /\ 0 < Q2Qc (1 # 2) < 1.
Proof.
  split; [split; [reflexivity|split]|split].
  - intros x Hx. simpl in Hx. repeat destruct Hx as [<-|Hx]; try (now vm_compute); destruct Hx.
  - now vm_compute.
  - intros p Hp. simpl in Hp. repeat destruct Hp as [<-|Hp]; try discriminate; destruct Hp.
  - split; now vm_compute.
Qed.
(** Expected numbers of copies 4/7, 16/7, 0, 8/7; the two copies of 101 go to slots 1 and 2,
    one of the points falls on 103, which keeps its slot. *)
Example C25_ex2 : poses (resample (pf_ex [QcN 1; QcN 4; 0; QcN 2]) 0 true (Q2Qc (1 # 2))) =
  Val ([100; 101; 101; 103]%nat, true).
Proof. vm_compute. reflexivity. Qed.
Example C25_all_zero_ex : poses (resample (pf_ex [0; 0; 0]) 2 true (Q2Qc (1 # 3))) = Val ([100; 100]%nat, true).
Proof. vm_compute. reflexivity. Qed.

(** drand48() may return 0: then a particle of weight zero survives. *)
Theorem C25_refuted : exists (s : pf nat nat) w u s' q,
  map pw (pset s) = map (@Some Qc) w /\ nth_error w 0 = Some 0 /\ 0 < qsum w /\ 0 <= u < 1 /\
  resample s 0 true u = Val (s', true) /\ nth_error (pset s') 0 = Some q /\
  option_map ppose (nth_error (pset s) 0) = Some (ppose q) /\ map ppose (pset s) = [100; 101]%nat.
Proof.
  exists (pf_ex [0; 1]), [0; 1], 0. eexists _, _. split; [reflexivity|]. split; [reflexivity|].
  split; [now vm_compute|]. split; [split; now vm_compute|]. split; [vm_compute; reflexivity|].
  split; [reflexivity|]. split; reflexivity.
Qed.
Print Assumptions C25_refuted.

(** C26: the new set is built from the selection made by the sampling points: as a
    multiset the sources are the selected indices, a selected index below the new
    count keeps its own slot, and every slot has weight one. *)
Theorem C26_slots : forall P D (s : pf P D) n u w,
  weights_of (pset s) w -> all_data (pset s) -> 0 <= u < 1 ->
  exists s' sel src, resample s n true u = Val (s', true) /\
  length (pset s') = kept n (length (pset s)) /\
  selection w (kept n (length (pset s))) u sel /\ Permutation src sel /\
  built_from (pset s) (pset s') src /\
  (forall i, In i sel -> (i < kept n (length (pset s)))%nat -> nth_error src i = Some i).
Proof. exact c26_slots. Qed.
Print Assumptions C26_slots.
Example C26_ex : poses (resample (pf_ex [QcN 1; QcN 1; QcN 1; QcN 5]) 3 true (Q2Qc (1 # 2))) =
  Val ([103; 101; 103]%nat, true).
Proof. vm_compute. reflexivity. Qed.

(** C27, identifiers that are slots: one addParticles on an empty filter, then
    copyParticle calls. *)
Theorem C27_fresh_partial : forall P D n (x0 : P) w calls (s : pf P D),
  copies (addParticles pf_empty n x0 w) calls = Val s ->
  (forall i p, nth_error (pset s) i = Some p -> pid p = i).
Proof. exact c27_fresh. Qed.
Print Assumptions C27_fresh_partial.
Example C27_fresh_ex : omap (fun s => map pid (pset s))
  (copies (PF (map (fun p => setData p (Some 1%nat)) (pset (addParticles (@pf_empty nat nat) 2 5%nat 1))) None None)
          [(1%nat, 2%nat, None); (0%nat, 1%nat, Some 1)]) = Val [0; 1; 2; 3; 4]%nat.
Proof. vm_compute. reflexivity. Qed.

(** If identifiers are slots before a resample, getParentId() names the slot
    whose state is carried (missing: identifiers are no longer slots afterwards). *)
Theorem C27_parent_partial : forall P D (s : pf P D) n u w,
  weights_of (pset s) w -> all_data (pset s) -> 0 <= u < 1 ->
  (forall i p, nth_error (pset s) i = Some p -> pid p = i) ->
  exists s', resample s n true u = Val (s', true) /\
  forall j q, nth_error (pset s') j = Some q -> exists p, nth_error (pset s) (pparent q) = Some p /\
    ppose q = ppose p /\ pprev q = pprev p /\ pdata q = pdata p.
Proof. exact c27_parent. Qed.
Print Assumptions C27_parent_partial.
Example C27_parent_ex : forall i p, nth_error (pset (pf_ex [QcN 1; QcN 4; 0; QcN 2])) i = Some p -> pid p = i.
Proof. intros [|[|[|[|[|i]]]]] p H; simpl in H; try discriminate; injection H as <-; reflexivity. Qed.

(** A second addParticles repeats identifiers. *)
Theorem C27_add_refuted : exists n m,
  map pid (pset (addParticles (addParticles (@pf_empty nat nat) n 0%nat 1) m 0%nat 1)) = [0; 1; 0]%nat.
Proof. exists 2%nat, 1%nat. vm_compute. reflexivity. Qed.
Print Assumptions C27_add_refuted.

(** One resample: two particles with the same identifier. *)
Theorem C27_ids_refuted : exists ws u, 0 < u < 1 /\
  omap (fun r => map pid (pset (fst r))) (resample (pf_ex ws) 0 true u) = Val [1; 1]%nat.
Proof. exists [0; 1], (Q2Qc (1 # 2)). split; [split; now vm_compute|]. vm_compute. reflexivity. Qed.
Print Assumptions C27_ids_refuted.

(** A second resample, after slots 0 and 1 have moved apart: slot 0 carries the state of
    slot 0, but its parent identifier names slot 1. *)
Theorem C27_parent_refuted : exists s1 s2, resample (pf_ex [0; 1]) 0 true (Q2Qc (1 # 2)) = Val (s1, true) /\
  resample (PF (map (fun ip => PT (pid (snd ip)) (pparent (snd ip)) (pw (snd ip)) (fst ip) (pprev (snd ip)) (pdata (snd ip)))
                    (combine [500; 501]%nat (pset s1))) (effT s1) (effPct s1)) 0 true (Q2Qc (1 # 2)) = Val (s2, true) /\
  map ppose (pset s2) = [500; 501]%nat /\ map pparent (pset s2) = [1; 1]%nat.
Proof. eexists _, _. split; [vm_compute; reflexivity|]. split; [vm_compute; reflexivity|]. split; reflexivity. Qed.
Print Assumptions C27_parent_refuted.

(** C28, every schedule: each particle ends with the propagation of the old pose of
    some particle, and with its own trajectory extended by its own old pose
    (missing: that it is its own old pose, which is false, see below). *)
Theorem C28_any_schedule_partial : forall Pose (f : Pose -> Pose) maintain ps0 d chunks sched c,
  Permutation (concat chunks) (seq 0 (length ps0)) ->
  run f maintain sched (start d ps0 chunks) = Some c -> finished c ->
  length (parts c) = length ps0 /\
  forall i x h, nth_error ps0 i = Some (x, h) ->
  exists y h', In (y, h') ps0 /\ nth_error (parts c) i = Some (f y, if maintain then x :: h else h).
Proof. exact any_schedule. Qed.
Print Assumptions C28_any_schedule_partial.

(** Iterations that do not overlap in time (one thread in particular), in any order
    and distribution: the sequential result. *)
Theorem C28_serial_partial : forall Pose (f : Pose -> Pose) maintain ps0 d chunks order c,
  Permutation (concat chunks) (seq 0 (length ps0)) ->
  run f maintain (flat_map (fun t => [t; t; t]) order) (start d ps0 chunks) = Some c -> finished c ->
  parts c = map (fun xh => (f (fst xh), if maintain then fst xh :: snd xh else snd xh)) ps0.
Proof. exact serial_schedule. Qed.
Print Assumptions C28_serial_partial.
Example C28_ex : Permutation (concat [[0; 2]; [1]]%nat) (seq 0 3) /\
  option_map parts (run (fun x => x + 1)%nat true (flat_map (fun t => [t; t; t]) [0; 1; 0]%nat)
    (start 0%nat [(10, []); (20, [19]); (30, [])]%nat [[0; 2]; [1]]%nat)) =
  Some [(11, [10]); (21, [20; 19]); (31, [30])]%nat.
Proof. split; [|vm_compute; reflexivity]. simpl. constructor. apply perm_swap. Qed.

(** Two threads: particle 0 receives the propagation of the pose of particle 1. *)
Theorem C28_refuted : exists chunks sched c, Permutation (concat chunks) (seq 0 2) /\
  run (fun x => x + 1)%nat false sched (start 0%nat [(10, []); (20, [])]%nat chunks) = Some c /\ finished c /\
  map fst (parts c) = [21; 21]%nat.
Proof.
  exists [[0]; [1]]%nat, [0; 1; 0; 0; 1; 1]%nat. eexists. split; [simpl; auto|]. split; [vm_compute; reflexivity|].
  split; [|reflexivity]. intros t Ht. simpl in Ht. repeat destruct Ht as [<-|Ht]; try reflexivity; destruct Ht.
Qed.
Print Assumptions C28_refuted.

(** C58: with both thresholds set, resample() without force is refused exactly when the
    effective number of particles is above both, leaving only normalised weights;
    otherwise it does what a forced resample does. *)
Theorem C58_decision_partial : forall P D (s : pf P D) n u w t pc, weights_of (pset s) w ->
  effT s = Some (Some t) -> effPct s = Some (Some pc) ->
  let neff := qsum w * qsum w / qsum (map (fun x => x * x) w) in
  (t < neff /\ pc < neff / QcN (length w) ->
     resample s n false u = Val (PF (normalizeWeights (pset s)) (effT s) (effPct s), false)) /\
  (~ (t < neff /\ pc < neff / QcN (length w)) -> resample s n false u = resample s n true u).
Proof. exact check_ok. Qed.
Print Assumptions C58_decision_partial.
Example C58_ex : poses (resample (pf_ex [QcN 1; QcN 1; QcN 1; QcN 5]) 0 false (Q2Qc (1 # 2))) = Val ([100; 101; 102; 103]%nat, false) /\
  poses (resample (setEffectiveParticleCountThreshold (pf_ex [QcN 1; QcN 1; QcN 1; QcN 5]) (QcN 3)) 0 false (Q2Qc (1 # 2))) =
  Val ([100; 103; 102; 103]%nat, true).
Proof. split; vm_compute; reflexivity. Qed.

(** A filter made by ParticleFilter(n) whose threshold has not been set, n equally
    weighted particles: resample() reads an uninitialised variable. *)
Theorem C58_default_refuted : forall P D n (x0 : P) (d : D) k u, (0 < n)%nat ->
  let s := pf_new (Data := D) n x0 in
  resample (PF (map (fun p => setData p (Some d)) (pset s)) (effT s) (effPct s)) k false u = UB Uninit.
Proof. exact default_uninit. Qed.
Print Assumptions C58_default_refuted.

(** C59, particles that all carry data: resampling is defined (missing: without data, see below). *)
Theorem C59_with_data_partial : forall P D (s : pf P D) n u w,
  weights_of (pset s) w -> all_data (pset s) -> 0 <= u < 1 ->
  exists s' src, resample s n true u = Val (s', true) /\ built_from (pset s) (pset s') src /\ all_data (pset s').
Proof. exact c59_data. Qed.
Print Assumptions C59_with_data_partial.

(** Particles as addParticles makes them carry no data; the first copy made by a
    resample dereferences the null pointer. *)
Theorem C59_refuted : exists s : pf nat nat, s = addParticles pf_empty 2 5%nat 1 /\ resample (PF (map (fun x => setWeight (fst x) (Some (snd x))) (combine (pset s) [0; 1])) None None)
    0 true (Q2Qc (1 # 2)) = UB NullDeref.
Proof. eexists. split; [reflexivity|]. vm_compute. reflexivity. Qed.
Print Assumptions C59_refuted.
