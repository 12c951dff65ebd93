(** C183, C184, C185 and C186: resampling in FastSLAM. *)
From Coq Require Import ZArith QArith Qcanon List Bool Arith Lia.
From Verif Require MurtyModel MurtyPick FastModel FastProperties.
From Verif Require Import Base ListUtil Loop QcLra ParticleModel ParticleSpec FastRunModel FastRunSpec FastRunProofs FastRunProofs2 FastRunProofs3 FastRunProofs4 FastRunWorld.
Import ListNotations.
Local Open Scope nat_scope.

(** C183, first resampling: every particle has the candidates of the particle it continues
    (missing: later resamplings, see C183_refuted). *)
Theorem C183_first_partial : forall P D C c n x0 d0 ks log (s s' : fsl P D C) nz maps u ps cs w,
  logged c (fs_new n x0 d0) ks log s -> Forall (faithful c) (ks ++ [Update nz maps u]) -> 0 < maxHyp c ->
  (forall z, ~ In (z, true) log) ->
  maps (focc s) (pset (fpf s)) (fcand s ++ repeat [] (length (pset (fpf s)) * maxHyp c - length (fcand s))) = Val (ps, cs) ->
  weights_of ps w -> all_data ps -> (0 <= u < 1)%Qc -> 0 < nz ->
  update c nz maps u s = Val s' -> focc s' = Some true ->
  exists src, built_from ps (pset (fpf s')) src /\
  forall j i, nth_error src j = Some i -> nth_error (fcand s') j = nth_error cs i.
Proof. intros P D C. exact first_resampling. Qed.
Print Assumptions C183_first_partial.
Example C183_first_ex : omap view (run (cfg_new 2) start2 first_calls) = Val ([Some 11; Some 11], [[11]; [11]], Some true) /\
  omap (fun s => map pid (pset (fpf s))) (run (cfg_new 2) start2 first_calls) = Val [1; 1] /\
  log_of (cfg_new 2) start2 (firstn 2 first_calls) = [] /\ Forall (faithful (cfg_new 2)) first_calls.
Proof. split; [vm_compute; reflexivity|]. split; [vm_compute; reflexivity|]. split; [vm_compute; reflexivity|].
  apply Forall_cons; [exact I|]. apply Forall_cons; [exact I|]. apply Forall_cons; [apply given_faithful|]. apply Forall_nil. Qed.

(** Any resampling: what the loop leaves in every slot.  A parent identifier below the slot names a
    slot already overwritten. *)
Theorem C183_exact_partial : forall P D C (l : list (particle P D)) (cs : list (list C)),
  length l <= length cs -> (forall p, In p l -> pparent p < length cs) ->
  exists cs', for_ (length l) (inherit l) cs = Val cs' /\ length cs' = length cs /\
  (forall j, length l <= j -> nth_error cs' j = nth_error cs j) /\
  forall j p, nth_error l j = Some p ->
    nth_error cs' j = (if pparent p <? j then nth_error cs' (pparent p) else nth_error cs (pparent p)).
Proof. intros P D C l cs H1 H2. exact (inherit_exact l cs (conj H1 H2)). Qed.
Print Assumptions C183_exact_partial.
Example C183_exact_ex : for_ 3 (inherit (map (fun i => PT 0 i (Some (QcN 1)) 0 [] (Some 0)) [2; 0; 1])) [[0]; [1]; [2]] =
  Val [[2]; [2]; [2]].
Proof. vm_compute. reflexivity. Qed.

(** C183 is false at the second resampling: both particles continue the particle with map 20, whose
    candidates were [20]; they get the candidates [21] of the particle that was dropped. *)
Theorem C183_refuted : exists ks s s', Forall (faithful (cfg_new 2)) (ks ++ [Update 1 (given [(QcN 1, 20, [20]); (QcN 0, 21, [21])]) half]) /\
  run (cfg_new 2) (fs_new 2 7 0) ks = Val s /\
  update (cfg_new 2) 1 (given [(QcN 1, 20, [20]); (QcN 0, 21, [21])]) half s = Val s' /\
  map pdata (pset (fpf s')) = [Some 20; Some 20] /\ fcand s' = [[21]; [21]].
Proof.
  exists first_calls. eexists. eexists. split.
  { apply Forall_cons; [exact I|]. apply Forall_cons; [exact I|]. do 2 (apply Forall_cons; [apply given_faithful|]). apply Forall_nil. }
  split; [vm_compute; reflexivity|]. split; [vm_compute; reflexivity|]. split; vm_compute; reflexivity.
Qed.
Print Assumptions C183_refuted.

(** C184: the counters are the updates (with or without measurements) and the measurements since the
    last resampling. *)
Theorem C184_counters_partial : forall P D C c n x0 d0 ks log (s : fsl P D C),
  logged c (fs_new n x0 d0) ks log s -> fupd s = updates_since log /\ fmeas s = measurements_since log.
Proof. intros P D C. exact counters. Qed.
Print Assumptions C184_counters_partial.

(** An update with measurements resamples exactly when there are too many particles, or the
    configured numbers of updates and measurements are reached and the effective number of particles
    is not above both thresholds (missing: negative configured numbers, see C184_refuted). *)
Theorem C184_decision_partial : forall P D C c n x0 d0 ks log (s s' : fsl P D C) nz maps u ps cs w t pc,
  logged c (fs_new n x0 d0) ks log s -> 0 < nz ->
  maps (focc s) (pset (fpf s)) (fcand s ++ repeat [] (length (pset (fpf s)) * maxHyp c - length (fcand s))) = Val (ps, cs) ->
  weights_of ps w -> effT (fpf s) = Some (Some t) -> effPct (fpf s) = Some (Some pc) ->
  (0 <= minUpd c < 2 ^ 32)%Z -> (0 <= minMeas c < 2 ^ 32)%Z ->
  update c nz maps u s = Val s' ->
  let neff := (qsum w * qsum w / qsum (map (fun x => x * x) w))%Qc in
  (focc s' = Some true <->
    (nMax c < Z.of_nat (length ps))%Z \/
    (minUpd c <= Z.of_nat (1 + updates_since log))%Z /\ (minMeas c <= Z.of_nat (measurements_since log + nz))%Z /\
    ~ (t < neff /\ pc < neff / QcN (length w))%Qc).
Proof. intros P D C. exact decision. Qed.
Print Assumptions C184_decision_partial.
Definition uneven : mapupd nat nat nat := given [(QcN 0, 10, [10]); (QcN 1, 11, [11])].
Example C184_ex : let c := FC 2 6 3 4 1 in
  log_of c start2 [SetThreshold (QcN 2); Update 1 uneven half; Update 0 uneven half; Update 2 uneven half; Update 1 uneven half; Update 5 uneven half] =
    [(1, false); (0, false); (2, false); (1, true); (5, false)] /\
  omap (fun s => (fupd s, fmeas s)) (run c start2 [SetThreshold (QcN 2); Update 1 uneven half; Update 0 uneven half; Update 2 uneven half]) = Val (3, 3).
Proof. split; vm_compute; reflexivity. Qed.

(** C184 is false for a negative number: minUpdatesBeforeResample_ = -1 is always reached, but one
    particle with all the weight is not resampled. *)
Theorem C184_refuted : exists ks, let c := FC 2 6 (-1) 0 1 in Forall (faithful c) ks /\
  log_of c start2 ks = repeat (3, false) 5 /\
  omap (fun s => map pw (pset (fpf s))) (run c start2 ks) = Val [Some (QcN 0); Some (QcN 1)].
Proof.
  exists (SetThreshold (QcN 2) :: repeat (Update 3 uneven half) 5). split.
  - apply Forall_cons; [exact I|]. cbn [repeat]. repeat (apply Forall_cons; [apply given_faithful|]). apply Forall_nil.
  - split; vm_compute; reflexivity.
Qed.
Print Assumptions C184_refuted.

(** C185: there are never fewer particles than at the start, and after every call at most the
    configured maximum (or the initial number, if that is larger). *)
Theorem C185_bounds : forall P D C c n x0 d0 ks log (s : fsl P D C),
  logged c (fs_new n x0 d0) ks log s -> Forall (faithful c) ks -> nInit c = n -> 0 < n ->
  n <= length (pset (fpf s)) /\ (Z.of_nat (length (pset (fpf s))) <= Z.max (nMax c) (Z.of_nat n))%Z.
Proof. intros P D C. exact bounds. Qed.
Print Assumptions C185_bounds.
Example C185_ex : let c := FC 2 3 1 9 2 in
  map (fun k => omap (fun s => length (pset (fpf s))) (run c start2 (SetThreshold (QcN 2) :: repeat (Update 1 one_more half) k))) [0; 1; 2; 3] =
    [Val 2; Val 3; Val 2; Val 3] /\
  (forall u, faithful c (Update 1 one_more u)).
Proof. split; [vm_compute; reflexivity|]. intros u. apply one_more_faithful. Qed.

(** C186: once the threshold is set, the part of update after the map updates is defined in every
    state of every run: copying candidates stays inside the lists. *)
Theorem C186_defined : forall P D C c n x0 d0 ks log (s : fsl P D C) nz maps u ps cs w t pc,
  logged c (fs_new n x0 d0) ks log s -> Forall (faithful c) (ks ++ [Update nz maps u]) ->
  maps (focc s) (pset (fpf s)) (fcand s ++ repeat [] (length (pset (fpf s)) * maxHyp c - length (fcand s))) = Val (ps, cs) ->
  weights_of ps w -> all_data ps -> (0 <= u < 1)%Qc -> effT (fpf s) = Some (Some t) -> effPct (fpf s) = Some (Some pc) ->
  exists s', update c nz maps u s = Val s'.
Proof. intros P D C. exact defined. Qed.
Print Assumptions C186_defined.
Example C186_ex : omap (fun s => (map pid (pset (fpf s)), length (fcand s)))
  (run (FC 2 3 1 9 2) start2 (SetThreshold (QcN 2) :: repeat (Update 1 one_more half) 2 ++ [Update 1 (given [(QcN 0, 1, []); (QcN 1, 2, [3])]) half])) = Val ([0; 2], 6).
Proof. vm_compute. reflexivity. Qed.

(** C187: every particle carries one pose per predict after the initial one, each made from the one
    before by that call's motion, through all updates, splits and resamplings; predict is defined. *)
Theorem C187_trajectories : forall P D C c n x0 d0 ks log (s : fsl P D C),
  logged c (fs_new n x0 d0) ks log s -> Forall keeps_paths ks ->
  (forall p, In p (pset (fpf s)) -> path x0 (motions ks) (ppose p :: pprev p)) /\
  forall move stat, exists s', predict move stat s = Val s'.
Proof. intros P D C. exact trajectories. Qed.
Print Assumptions C187_trajectories.
Theorem C187_length : forall P (x0 : P) ms l, path x0 ms l -> length l = S (length ms).
Proof. intros P. exact path_length. Qed.
Print Assumptions C187_length.
Example C187_ex : let ks := first_calls ++ [Predict (fun i x => 10 * x + i) (fun d => d); Update 1 one_more half; Predict (fun i x => x + 100) (fun d => d)] in
  omap (fun s => map (fun p => ppose p :: pprev p) (pset (fpf s))) (run (FC 2 9 1 1 2) start2 ks) = Val [[180; 80; 8; 7]; [180; 80; 8; 7]] /\
  Forall keeps_paths ks.
Proof.
  split; [vm_compute; reflexivity|]. repeat (apply Forall_cons; [first [exact I|apply given_keeps|apply one_more_keeps]|]). apply Forall_nil.
Qed.

(** C184: an update that does not resample leaves particles and candidates as the map updates left
    them, with normalised weights. *)
Theorem C184_otherwise_partial : forall P D C c (s s' : fsl P D C) nz maps u ps cs w,
  0 < nz ->
  maps (focc s) (pset (fpf s)) (fcand s ++ repeat [] (length (pset (fpf s)) * maxHyp c - length (fcand s))) = Val (ps, cs) ->
  weights_of ps w -> update c nz maps u s = Val s' -> focc s' <> Some true ->
  fcand s' = cs /\ map pw (pset (fpf s')) = map (fun x => Some (x / qsum w)%Qc) w /\
  map (fun p => (pid p, pparent p, ppose p, pprev p, pdata p)) (pset (fpf s')) =
  map (fun p => (pid p, pparent p, ppose p, pprev p, pdata p)) ps.
Proof. intros P D C. exact not_resampled. Qed.
Print Assumptions C184_otherwise_partial.
Example C184_otherwise_ex : omap (fun s => (map pw (pset (fpf s)), fcand s, focc s))
  (update (FC 2 6 3 4 1) 1 (given [(QcN 1, 10, [10]); (QcN 3, 11, [11])]) half start2) =
  Val ([Some (Q2Qc (1 # 4)); Some (Q2Qc (3 # 4))], [[10]; [11]], Some false).
Proof. vm_compute. reflexivity. Qed.

(** The map updates modelled in FastModel make at most maxNDataAssocHypotheses_ particles of
    one, so the first two clauses of faithful hold of them. *)
Theorem C185_map_updates : forall (T : Type) (pdet : T -> Qc * bool) (logl : T -> option (nat -> Z)) (correct : nat -> T -> option T)
  (inv : nat -> T) (near : T -> nat -> bool) (corr : T -> nat -> T) (expo : Z -> Qc) (prn : list (Qc * T) -> list (Qc * T))
  (pick : list MurtyModel.node -> option (MurtyModel.node * list MurtyModel.node)) (big : Z) (nZ : nat) (pfa : Qc) (lim maxDiff : Z)
  (maxN : nat) (prior lock : Qc) (cntT chkT curT pruneT : nat) (res : bool) (s s' : @FastModel.fast T),
  0 < maxN ->
  FastModel.update_maps pdet logl correct inv near corr expo prn pick big nZ pfa lim maxDiff maxN prior lock cntT chkT curT pruneT res s = Val s' ->
  length (FastModel.fparts s) <= length (FastModel.fparts s') <= length (FastModel.fparts s) * maxN /\
  length (FastModel.fcands s') = Nat.max (length (FastModel.fparts s) * maxN) (length (FastModel.fcands s)).
Proof. exact @update_counts. Qed.
Print Assumptions C185_map_updates.
Example C185_map_ex : omap (fun s => (length (FastModel.fparts s), length (FastModel.fcands s)))
  (FastModel.update_maps FastProperties.w_pdet (FastProperties.w_logl 0 (-2)) (fun z t => Some t) (fun z => 100 + z) (fun _ _ => false) (fun t _ => t)
    (fun x => if (x =? 0)%Z then 1%Qc else Q2Qc (1 # 8)) (fun m => m) MurtyPick.pick_max 1000 2 (Q2Qc (1 # 10)) (-10) 5 3
    (Q2Qc (1 # 2)) (Q2Qc (50 # 1)) 1 10 0 100 false (FastProperties.w_state [[]] [0; 1])) = Val (2, 3).
Proof. vm_compute. reflexivity. Qed.
