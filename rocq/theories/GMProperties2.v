(** C54-C56: further properties of GaussianMixture.  Proofs in GMProofs4. *)
From Coq Require Import QArith ZArith List Bool Arith Lia Permutation Sorting.Sorted.
From Verif Require Import Base ListUtil GMModel GMSpec GMProofs GMProofs2 GMProofs3 GMProofs4 GMProperties.
Import ListNotations.
Local Open Scope Q_scope.

(** ** C54: each single-component operation changes exactly what it says. *)

Theorem C54_setWeight : forall h g F k lm w0 wp w, good h g F ->
  nth_error (view h g) k = Some (lm, w0, wp) ->
  exists g', setWeight g k w = Val g' /\ good h g' F /\ view h g' = upd (view h g) k (lm, w, w0).
Proof. exact set_eff. Qed.
Print Assumptions C54_setWeight.

(** updateGaussian replaces the landmark, keeps the weight when w < 0, remembers
    the old weight; returns false and changes nothing for an empty slot or an
    index beyond the size.  The index equal to the size is excluded: see
    C04_defined_iff (it is out of bounds). *)
Theorem C54_updateGaussian_partial : forall h g F k x w, good h g F -> k <> length (gl g) ->
  exists h' g' b, updateGaussian h g k x w = Val (h', g', b) /\ good h' g' F /\ intactF h h' F /\
    match nth_error (view h g) k with
    | Some (Some _, w0, _) =>
        b = true /\ view h' g' = upd (view h g) k (Some x, if Qltb w 0 then w0 else w, w0)
    | _ => b = false /\ view h' g' = view h g
    end.
Proof. exact update_eff. Qed.
Print Assumptions C54_updateGaussian_partial.

Theorem C54_updateGaussian_refuted : exists h g k x w, good h g [4%nat] /\
  nth_error (view h g) k = None /\ updateGaussian h g k x w = UB OutOfBounds.
Proof.
  exists (firstn 5 heap5), gm5, 5%nat, (L1 0 1), 0. split; [exact gm5_good|].
  split; vm_compute; reflexivity.
Qed.
Print Assumptions C54_updateGaussian_refuted.

Theorem C54_removeGaussian : forall h g F k v, good h g F -> nth_error (view h g) k = Some v ->
  exists h' g', removeGaussian h g k = Val (h', g') /\ good h' g' F /\ intactF h h' F /\
    (vlive v = true -> view h' g' = upd (view h g) k (None, 0, 0) /\ gn g' = (gn g - 1)%Z) /\
    (vlive v = false -> view h' g' = view h g /\ gn g' = gn g).
Proof. exact remove_eff. Qed.
Print Assumptions C54_removeGaussian.

Theorem C54_addGaussian : forall h g F p l w am, good h g F -> nth_error h p = Some (Some l) ->
  exists h' g', addGaussian h g p w am = Val (h', g') /\
    view h' g' = view h g ++ [(Some l, w, 0)] /\ gn g' = (gn g + 1)%Z /\
    (am = true -> good h' g' F) /\ (forall q, (q < length h)%nat -> nth_error h' q = nth_error h q).
Proof. exact add_eff. Qed.
Print Assumptions C54_addGaussian.

Theorem C54_multiplyWeights : forall h g w,
  view h (multiplyWeights g w) = map (fun v : vslot => (fst (fst v), vw v * w, snd v)) (view h g)
  /\ gn (multiplyWeights g w) = gn g.
Proof. exact mul_eff. Qed.
Print Assumptions C54_multiplyWeights.

Theorem C54_addGM : forall h g o w,
  view h (fst (addGM g o w)) =
    view h g ++ map (fun v : vslot => (fst (fst v), vw v * w, snd v)) (view h o)
  /\ gn (fst (addGM g o w)) = (gn g + gn o)%Z
  /\ view h (snd (addGM g o w)) = [] /\ gn (snd (addGM g o w)) = 0%Z.
Proof. exact addGM_eff. Qed.
Print Assumptions C54_addGM.

Example C54_ex : good (firstn 5 heap5) gm5 [4%nat] /\
  nth_error (view (firstn 5 heap5) gm5) 4 = Some (Some (L1 3 1), 1 # 5, 1 # 9) /\
  exists h' g', updateGaussian (firstn 5 heap5) gm5 4 (L1 7 7) (-1) = Val (h', g', true) /\
    nth_error (view h' g') 4 = Some (Some (L1 7 7), 1 # 5, 1 # 5).
Proof.
  split; [exact gm5_good|]. split; [reflexivity|]. eexists _, _. split; vm_compute; reflexivity.
Qed.

(** ** C55: sortByWeight *)

(** Full statement: after sortByWeight the weights are non-increasing and the
    components are a permutation of the previous ones.  Holds when the
    "is sorted" flag is down. *)
Theorem C55_sort_partial : forall srt h g F, sorter_ok srt -> good h g F -> gsorted g = false ->
  good h (sortByWeight srt g) F /\ Permutation (view h (sortByWeight srt g)) (view h g) /\
  StronglySorted (fun a b : vslot => vw b <= vw a) (view h (sortByWeight srt g)).
Proof. exact sort_eff. Qed.
Print Assumptions C55_sort_partial.

Example C55_ex : sorter_ok isort /\
  good (firstn 5 heap5) (GM (gn gm5) (gl gm5) false) [4%nat] /\
  map sw (gl (sortByWeight isort (GM (gn gm5) (gl gm5) false))) = [7 # 10; 1 # 5; 1 # 5; 1 # 10; 0].
Proof.
  split; [exact isort_ok|]. split; [exact (good_sorted _ _ _ _ _ _ gm5_good)|]. vm_compute. reflexivity.
Qed.

(** multiplyWeights leaves the flag up: after a negative factor a second
    sortByWeight does nothing. *)
Theorem C55_refuted : exists os w g, along md1 isort legal world0 os /\
  run md1 isort world0 os = Val w /\ nth_error (wo w) 0 = Some (Some g) /\
  (exists w', step md1 isort w (OSort 0) = Val w' /\ obs w' 0 = obs w 0) /\
  map sw (gl g) = [-2; -1].
Proof.
  exists [ONewGM; ONewLmk (L1 0 1); OAdd 0 0 1 true; OAdd 0 0 2 true; OSort 0; OMul 0 (-1)].
  eexists _, _. split.
  - cbn [along legal]. repeat (split; [try exact I|intros w' H; vm_compute in H; inversion H; subst; clear H]).
    all: try exact I.
  - split; [vm_compute; reflexivity|]. split; [vm_compute; reflexivity|]. split; [|vm_compute; reflexivity].
    eexists. split; vm_compute; reflexivity.
Qed.
Print Assumptions C55_refuted.

(** ** C56: one call of merge(t) need not merge everything *)

(** Full statement: after merge(t) no two components are within the threshold.
    False for one call: a merged mean can move within reach of an earlier
    component. *)
Theorem C56_refuted : exists h g h' g' n i j, good h g [] /\
  merge md1 h g 1 1 = Val (h', g', n) /\ (0 < n)%nat /\ mergeable md1 1 (view h' g') i j.
Proof.
  exists [Some (L1 0 1); Some (L1 (19 # 10) 1); Some (L1 1 1)].
  exists (GM 3 [Slot (Some 0%nat) (1 # 10) 0; Slot (Some 1%nat) 1 0; Slot (Some 2%nat) 1 0] false).
  eexists _, _, _, 0%nat, 1%nat. split; [|split; [vm_compute; reflexivity|split; [lia|]]].
  - apply good_ex.
    + vm_compute. repeat (constructor; [simpl; intuition lia|]). constructor.
    + reflexivity.
    + intros p Hp. vm_compute in Hp.
      repeat (destruct Hp as [<-|Hp]; [eexists; vm_compute; reflexivity|]). destruct Hp.
    + intros p Hp. simpl in Hp. vm_compute. lia.
  - unfold mergeable. do 6 eexists. split; [lia|]. split; [vm_compute; reflexivity|]. split; [vm_compute; reflexivity|].
    split; [left; vm_compute; discriminate|vm_compute; discriminate].
Qed.
Print Assumptions C56_refuted.

(** What holds: calling merge as often as there were components reaches a state
    in which nothing is left to merge. *)
Theorem C56_repeat_partial : forall md t f F h g, good h g F ->
  exists h' g', merge_repeat md (Z.to_nat (gn g)) h g t f = Val (h', g') /\ good h' g' F /\
    (forall i j, ~ mergeable md t (view h' g') i j).
Proof. exact (fun md t f F h g H => merge_repeat_ok md t f F (Z.to_nat (gn g)) h g H (gn_le_to_nat g)). Qed.
Print Assumptions C56_repeat_partial.
