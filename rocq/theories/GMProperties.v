(** C04-C08: properties of GaussianMixture.  Statements only; proofs in
    GMProofs, GMProofs2, GMProofs3.

    [sorter_ok srt] is the contract of std::sort; [mdist2] is the squared
    Mahalanobis distance, arbitrary; [good h g F] says that the mixture g is
    well formed in memory h while everybody else owns the landmarks F. *)
From Coq Require Import QArith ZArith List Bool Arith Lia Permutation Sorting.Sorted.
From Verif Require Import Base ListUtil GMModel GMSpec GMProofs GMProofs2 GMProofs3.
Import ListNotations.
Local Open Scope Q_scope.

(** Example data: one-dimensional landmarks, the distance of RandomVec for one
    dimension. *)
Definition L1 (x v : Q) : lmk := Lmk (fun _ => x) (fun _ _ => v) 7.
Definition md1 (a b : lmk) : Q := (lx b 0%nat - lx a 0%nat) * (lx b 0%nat - lx a 0%nat) / lS a 0%nat 0%nat.

(** ** C04 *)

(** getGaussianCount() is the number of live components after every history. *)
Theorem C04_count : forall mdist2 srt os w i g, sorter_ok srt ->
  along mdist2 srt legal world0 os -> run mdist2 srt world0 os = Val w ->
  nth_error (wo w) i = Some (Some g) -> getGaussianCount g = live_count g.
Proof. exact (fun m s os w i g H => run_count m s H os w i g). Qed.
Print Assumptions C04_count.

Definition hist1 : list op :=
  [ONewGM; ONewLmk (L1 0 1); ONewLmk (L1 (1 # 10) 1); ONewLmk (L1 5 1);
   OAdd 0 0 (3 # 10) false; OAdd 0 1 (1 # 10) true; OAdd 0 2 (6 # 10) false;
   OMerge 0 1 1; ORemove 0 2; OAdd 0 1 (2 # 10) true; OUpdate 0 3 (L1 9 2) (-1);
   OSetW 0 3 (4 # 10); OMul 0 2; ONewGM; OCopyTo 0 1; OPrune 0 (1 # 10); OCopyGM 0; ONorm 0;
   OSort 0; OAddGM 1 0 (1 # 2); ODelGM 2].

Example C04_count_ex :
  along md1 isort legal world0 hist1 /\
  (exists w g, run md1 isort world0 hist1 = Val w /\ nth_error (wo w) 1 = Some (Some g) /\
     getGaussianCount g = 4%Z /\ length (gl g) = 6%nat).
Proof.
  split.
  - cbn [along hist1 legal]. repeat (split; [try exact I|intros w' H; vm_compute in H; inversion H; subst; clear H]).
    all: try exact I.
    all: simpl; auto.
  - eexists _, _. split; [vm_compute; reflexivity|]. split; [vm_compute; reflexivity|]. vm_compute. auto.
Qed.

(** Every empty slot has zero weight and previous weight, for every history in
    which setWeight is applied to live components only. *)
Theorem C04_holes_zero_partial : forall mdist2 srt os w i g, sorter_ok srt ->
  along mdist2 srt setw_live world0 os -> run mdist2 srt world0 os = Val w ->
  nth_error (wo w) i = Some (Some g) -> holes_zero g.
Proof. exact (fun m s os w i g H => run_hz0 m s H os w i g). Qed.
Print Assumptions C04_holes_zero_partial.

Example C04_holes_zero_ex : along md1 isort setw_live world0 hist1.
Proof.
  cbn [along hist1 setw_live]. repeat (split; [try exact I|intros w' H; vm_compute in H; inversion H; subst; clear H]).
  all: try exact I.
  intros g s Hg Hs. vm_compute in Hg. inversion Hg; subst. vm_compute in Hs. inversion Hs; subst. discriminate.
Qed.

(** Missing in general: setWeight does not look at the landmark pointer. *)
Theorem C04_holes_zero_refuted : exists os w g s,
  along md1 isort legal world0 os /\ run md1 isort world0 os = Val w /\
  nth_error (wo w) 0 = Some (Some g) /\ In s (gl g) /\ sp s = None /\ ~ sw s == 0.
Proof.
  exists [ONewGM; ONewLmk (L1 0 1); OAdd 0 0 1 false; ORemove 0 0; OSetW 0 0 5].
  eexists _, _, _. split; [|split; [vm_compute; reflexivity|split; [vm_compute; reflexivity|]]].
  - cbn [along legal]. repeat (split; [try exact I|intros w' H; vm_compute in H; inversion H; subst; clear H]).
    all: try exact I. simpl; auto.
  - simpl. split; [left; reflexivity|]. split; [reflexivity|]. discriminate.
Qed.
Print Assumptions C04_holes_zero_refuted.

(** Exactly which operations are defined in a well-formed state: in
    particular updateGaussian with index = size is not. *)
Theorem C04_defined_iff : forall mdist2 srt os w o, sorter_ok srt ->
  along mdist2 srt legal world0 os -> run mdist2 srt world0 os = Val w -> legal w o ->
  ((exists w', step mdist2 srt w o = Val w') <-> safe w o).
Proof.
  exact (fun m s os w o H Ha Hr Hl => step_safe_iff m s H w o (run_wf m s H os world0 w wf0 Ha Hr) Hl).
Qed.
Print Assumptions C04_defined_iff.

Example C04_defined_ex : exists w,
  run md1 isort world0 hist1 = Val w /\
  (exists w', step md1 isort w (OUpdate 1 5 (L1 1 1) (-1)) = Val w') /\
  step md1 isort w (OUpdate 1 6 (L1 1 1) (-1)) = UB OutOfBounds /\
  (exists w', step md1 isort w (OUpdate 1 7 (L1 1 1) (-1)) = Val w').
Proof.
  eexists. split; [vm_compute; reflexivity|]. split; [eexists; vm_compute; reflexivity|].
  split; [vm_compute; reflexivity|]. eexists; vm_compute; reflexivity.
Qed.

(** ** C05 *)

Theorem C05_prune_exact : forall srt h g F t, sorter_ok srt -> good h g F ->
  exists h' g' k, prune srt h g t = Val (h', g', k) /\ good h' g' F /\
    Permutation (view h' g') (filter (fun v => Qle_bool t (vw v)) (view h g)) /\
    StronglySorted (fun a b => vw b <= vw a) (view h' g') /\
    k = length (filter (fun v => Qltb (vw v) t) (view h g)) /\
    (0 < t -> holes_zero g ->
       no_holes g' /\ getGaussianCount g' = Z.of_nat (length (view h' g'))).
Proof. exact prune_exact. Qed.
Print Assumptions C05_prune_exact.

Definition heap5 : heap := [Some (L1 1 1); Some (L1 2 1); Some (L1 3 1); Some (L1 4 1); Some (L1 5 1); None].
Definition gm5 : gm :=
  GM 4 [Slot (Some 0%nat) (1 # 5) 0; Slot None 0 0; Slot (Some 1%nat) (1 # 10) 0;
        Slot (Some 3%nat) (7 # 10) 0; Slot (Some 2%nat) (1 # 5) (1 # 9)] true.

Lemma gm5_good : good (firstn 5 heap5) gm5 [4%nat].
Proof.
  apply good_ex.
  - vm_compute. repeat (constructor; [simpl; intuition lia|]). constructor.
  - reflexivity.
  - intros p Hp. vm_compute in Hp.
    repeat (destruct Hp as [<-|Hp]; [eexists; vm_compute; reflexivity|]). destruct Hp.
  - intros p Hp. simpl in Hp. vm_compute. lia.
Qed.

Example C05_prune_ex : sorter_ok isort /\ good (firstn 5 heap5) gm5 [4%nat] /\ holes_zero gm5 /\
  (exists h' g', prune isort (firstn 5 heap5) gm5 (1 # 5) = Val (h', g', 2%nat) /\
     map vw (view h' g') = [7 # 10; 1 # 5; 1 # 5]) /\
  (exists h' g', prune isort (firstn 5 heap5) gm5 0 = Val (h', g', 0%nat)) /\
  (exists h' g', prune isort (firstn 5 heap5) gm5 2 = Val (h', g', 5%nat)).
Proof.
  split; [exact isort_ok|]. split; [exact gm5_good|]. split.
  { intros s Hs Hn. simpl in Hs. repeat (destruct Hs as [<-|Hs]; [simpl in *; try discriminate; split; reflexivity|]). destruct Hs. }
  repeat split; eexists _, _; vm_compute; auto.
Qed.

(** ** C06 *)

(** merge(t, f) performs a sequence [tr] of pairwise fusions of components that
    were within the threshold, each removing a different component; its return
    value is their number; total weight and weighted mean are kept, and with
    f = 1 also the second moment. *)
Theorem C06_merge_conserves : forall mdist2 h g F t f, good h g F ->
  exists h' g' k tr, merge mdist2 h g t f = Val (h', g', k) /\ good h' g' F /\
    k = length tr /\ merges mdist2 t f (view h g) tr (view h' g') /\ NoDup (map snd tr) /\
    (getGaussianCount g' = getGaussianCount g - Z.of_nat k)%Z /\
    total_weight (view h' g') == total_weight (view h g) /\
    (forall c, moment1 c (view h' g') == moment1 c (view h g)) /\
    (f == 1 -> forall a b, moment2 a b (view h' g') == moment2 a b (view h g)) /\
    (forall i, (forall x y, In (x, y) tr -> x <> i /\ y <> i) ->
       nth_error (view h' g') i = nth_error (view h g) i).
Proof. exact merge_exact. Qed.
Print Assumptions C06_merge_conserves.

(** It returns 0 exactly when no two components are within the threshold. *)
Theorem C06_merge_zero_iff : forall mdist2 h g F t f h' g' k, good h g F ->
  merge mdist2 h g t f = Val (h', g', k) ->
  (k = 0%nat <-> forall i j, ~ mergeable mdist2 t (view h g) i j).
Proof. exact merge_zero_iff. Qed.
Print Assumptions C06_merge_zero_iff.

Example C06_merge_ex : good (firstn 5 heap5) gm5 [4%nat] /\
  (exists h' g', merge md1 (firstn 5 heap5) gm5 1 1 = Val (h', g', 2%nat) /\
     getGaussianCount g' = 2%Z) /\
  (exists h' g', merge md1 (firstn 5 heap5) gm5 (1 # 2) 1 = Val (h', g', 0%nat)).
Proof. split; [exact gm5_good|]. repeat split; eexists _, _; vm_compute; auto. Qed.

(** ** C07 *)

(** With no empty slots the sum and the normalisation are right. *)
Theorem C07_weightSum_partial : forall h g F, good h g F -> no_holes g ->
  exists q, getWeightSum g = Val q /\ q == total_weight (view h g).
Proof. exact weightSum_live. Qed.
Print Assumptions C07_weightSum_partial.

Theorem C07_normalize_partial : forall h g F, good h g F -> no_holes g ->
  ~ total_weight (view h g) == 0 ->
  exists g', normalizeWeights g = Val g' /\ good h g' F /\ total_weight (view h g') == 1 /\
    (forall i v, nth_error (view h g) i = Some v -> exists w,
       nth_error (view h g') i = Some (fst (fst v), w, snd v) /\
       w == vw v / total_weight (view h g)) /\
    length (view h g') = length (view h g).
Proof. exact normalize_live. Qed.
Print Assumptions C07_normalize_partial.

(** prune(t) with t > 0 establishes that situation, whatever came before. *)
Theorem C07_after_prune : forall srt h g F t, sorter_ok srt -> good h g F -> holes_zero g -> 0 < t ->
  exists h' g' k q, prune srt h g t = Val (h', g', k) /\ no_holes g' /\
    getWeightSum g' = Val q /\ q == total_weight (view h' g').
Proof.
  exact (fun srt h g F t Hs Hg Hz Ht =>
    match prune_exact srt h g F t Hs Hg with
    | ex_intro _ h' (ex_intro _ g' (ex_intro _ k (conj H (conj Hg' (conj _ (conj _ (conj _ Hn))))))) =>
        match weightSum_live h' g' F Hg' (proj1 (Hn Ht Hz)) with
        | ex_intro _ q (conj H1 H2) =>
            ex_intro _ h' (ex_intro _ g' (ex_intro _ k (ex_intro _ q
              (conj H (conj (proj1 (Hn Ht Hz)) (conj H1 H2))))))
        end
    end).
Qed.
Print Assumptions C07_after_prune.

Example C07_partial_ex : exists h' g' k,
  prune isort (firstn 5 heap5) gm5 (1 # 5) = Val (h', g', k) /\ no_holes g' /\
  getWeightSum g' = Val (0 + (7 # 10) + (1 # 5) + (1 # 5)) /\ ~ total_weight (view h' g') == 0.
Proof.
  eexists _, _, _. split; [vm_compute; reflexivity|]. split.
  - intros s Hs. simpl in Hs. repeat (destruct Hs as [<-|Hs]; [discriminate|]). destruct Hs.
  - split; [vm_compute; reflexivity|]. vm_compute. discriminate.
Qed.

(** In general getWeightSum() misses exactly the live components stored at
    index >= getGaussianCount(). *)
Theorem C07_weightSum_error : forall h g F, good h g F -> holes_zero g ->
  exists q, getWeightSum g = Val q /\
    q + Qsum (map vw (filter vlive (skipn (Z.to_nat (getGaussianCount g)) (view h g))))
    == total_weight (view h g).
Proof. exact weightSum_error. Qed.
Print Assumptions C07_weightSum_error.

(** Witness: after a merge (or a remove) without prune the sum is wrong and
    normalizeWeights does not normalise. *)
Theorem C07_refuted : exists os w g q g',
  along md1 isort legal world0 os /\ run md1 isort world0 os = Val w /\
  nth_error (wo w) 0 = Some (Some g) /\
  getWeightSum g = Val q /\ ~ q == total_weight (view (wh w) g) /\
  normalizeWeights g = Val g' /\ ~ total_weight (view (wh w) g') == 1.
Proof.
  exists [ONewGM; ONewLmk (L1 0 1); ONewLmk (L1 0 1); ONewLmk (L1 5 1);
          OAdd 0 0 (1 # 4) false; OAdd 0 1 (1 # 4) false; OAdd 0 2 (1 # 2) false; OMerge 0 1 1].
  eexists _, _, _, _. split; [|split; [vm_compute; reflexivity|split; [vm_compute; reflexivity|]]].
  - cbn [along legal]. repeat (split; [try exact I|intros w' H; vm_compute in H; inversion H; subst; clear H]).
    all: try exact I. all: simpl; auto.
  - split; [vm_compute; reflexivity|]. split; [vm_compute; discriminate|].
    split; [vm_compute; reflexivity|]. vm_compute; discriminate.
Qed.
Print Assumptions C07_refuted.

(** ** C08 *)

(** copyTo: destination and source now look the same, source unchanged. *)
Theorem C08_copyTo_equal : forall mdist2 srt w s d w', sorter_ok srt -> wf w -> s <> d ->
  step mdist2 srt w (OCopyTo s d) = Val w' ->
  wf w' /\ obs w' d = obs w s /\ obs w' s = obs w s.
Proof.
  exact (fun m st w s d w' H Hw Hn Hs =>
    conj (proj1 (step_preserves m st H w (OCopyTo s d) w' Hw I Hs)) (copyTo_equal m st H w s d w' Hw Hn Hs)).
Qed.
Print Assumptions C08_copyTo_equal.

Theorem C08_copy_ctor_equal : forall mdist2 srt w s w', sorter_ok srt -> wf w ->
  step mdist2 srt w (OCopyGM s) = Val w' ->
  wf w' /\ obs w' (length (wo w)) = obs w s /\ obs w' s = obs w s.
Proof.
  exact (fun m st w s w' H Hw Hs =>
    conj (proj1 (step_preserves m st H w (OCopyGM s) w' Hw I Hs)) (copyctor_equal m st H w s w' Hw Hs)).
Qed.
Print Assumptions C08_copy_ctor_equal.

(** Independence: no history of operations on other mixtures, of allocations or
    of writes through pointers to other landmarks changes what mixture j shows. *)
Theorem C08_independent : forall mdist2 srt os w w' j, sorter_ok srt -> wf w -> alive w j ->
  along mdist2 srt (fun w o => legal w o /\ untouched w o j) w os ->
  run mdist2 srt w os = Val w' -> obs w' j = obs w j.
Proof. exact (fun m s os w w' j H => run_untouched m s H os w w' j). Qed.
Print Assumptions C08_independent.

(** No leak, no sharing, no dangling pointer: after every history each live
    landmark is owned exactly once. *)
Theorem C08_memory : forall mdist2 srt os w, sorter_ok srt ->
  along mdist2 srt legal world0 os -> run mdist2 srt world0 os = Val w ->
  NoDup (all_ptrs w) /\
  (forall p, In p (all_ptrs w) <-> exists l, nth_error (wh w) p = Some (Some l)).
Proof. exact (fun m s os w H => run_owned m s H os w). Qed.
Print Assumptions C08_memory.

Example C08_ex : exists w w' w'',
  run md1 isort world0 (firstn 14 hist1) = Val w /\
  step md1 isort w (OCopyTo 0 1) = Val w' /\ alive w' 1 /\
  run md1 isort w' [OPrune 0 (1 # 10); OUpdate 0 0 (L1 8 8) 1; OWrite 0 (L1 3 3); ODelGM 0] = Val w'' /\
  obs w'' 1 = obs w 0 /\ obs w'' 1 <> None.
Proof.
  eexists _, _, _. split; [vm_compute; reflexivity|]. split; [vm_compute; reflexivity|].
  split; [eexists; vm_compute; reflexivity|]. split; [vm_compute; reflexivity|].
  split; [vm_compute; reflexivity|]. vm_compute. discriminate.
Qed.

(** The copy constructor of a mixture with an empty slot is a NULL dereference,
    exactly then; a self copyTo is a use after free exactly when something is live. *)
Theorem C08_copy_ctor_ub_iff : forall h g F, owned h (ptrs g ++ F) ->
  (gm_copy_ctor h g = UB NullDeref <-> ~ no_holes g).
Proof. exact copy_ctor_ub_iff. Qed.
Print Assumptions C08_copy_ctor_ub_iff.

Theorem C08_self_copy_ub_iff : forall h g F, owned h (ptrs g ++ F) ->
  (copyTo h g g = UB UseAfterFree <-> ptrs g <> []).
Proof. exact (fun h g F H => proj1 (self_copy_iff h g F H)). Qed.
Print Assumptions C08_self_copy_ub_iff.

Theorem C08_refuted : exists w, wf w /\
  step md1 isort w (OCopyTo 0 0) = UB UseAfterFree /\ step md1 isort w (OCopyGM 0) = UB NullDeref.
Proof.
  exists (World (firstn 5 heap5) [Some gm5] [4%nat]). split; [|split; vm_compute; reflexivity].
  split.
  - apply (owned_perm _ _ _ (Permutation_app_comm (ptrs gm5) [4%nat]) (proj1 gm5_good)).
  - intros [|i] g H; simpl in H; [inversion H; subst; reflexivity|destruct i; discriminate].
Qed.
Print Assumptions C08_refuted.
