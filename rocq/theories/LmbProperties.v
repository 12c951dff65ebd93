(** C43, C63, C64: the map update of the labelled multi-Bernoulli filter (include/RBLMBFilter.hpp:516-884). *)
From Coq Require Import ZArith List Bool Arith QArith Qcanon Lia.
From Verif Require Import Base QcLra PermanentSpec PartitionModel PartitionSpec PartitionRef
  RfsModel RfsSpec RfsKbest LmbModel LmbSpec LmbEvents LmbProofs4.
Import ListNotations.
Local Open Scope Qc_scope.

(** C43, for all maps, measurements and likelihoods, provided no track exists and is detected with
    certainty, and either the detection probabilities are below one or the groups of tracks and measurements are manageable:
    the update succeeds, every new track has a probability of existence in [0,1] and weights that are
    not negative and sum to one, a track that cannot be seen is not changed.  If the groups are
    manageable the new probability is the posterior probability that the track exists, and the
    weight of the particle is multiplied by the sum of the weights of all joint events. *)
Theorem C43_existence_partial : forall (G : Type) probDet (correct : nat -> G -> option (G * Qc)) clutter thr maxPE minPE expected nZ kbest cc ncc ts,
  0 <= thr -> (forall z, (z < nZ)%nat -> 0 < clutter z) -> (forall z g g' l, correct z g = Some (g', l) -> 0 <= l) ->
  (forall g, 0 <= probDet g <= 1) -> kbest_contract kbest -> (0 < nZ)%nat ->
  (forall t, In t ts -> good t /\ pd_of probDet t * tP t < 1) ->
  components_of (support (table probDet correct clutter thr (visible probDet ts))) 0 (length (visible probDet ts)) nZ cc ncc ->
  manageable probDet correct clutter thr ts nZ \/ (forall t, In t ts -> pd_of probDet t < 1) ->
  exists out, lmb_update probDet correct clutter thr maxPE minPE expected nZ kbest cc ncc ts = Val out /\
  length (lTracks out) = length ts /\
  (forall m t, nth_error ts m = Some t -> exists t', nth_error (lTracks out) m = Some t' /\ good t' /\
     (pd_of probDet t = 0 -> t' = t) /\
     (manageable probDet correct clutter thr ts nZ -> posterior probDet correct clutter thr ts nZ (alive m) (tP t'))) /\
  0 < lFactor out /\
  (manageable probDet correct clutter thr ts nZ -> evidence probDet correct clutter thr ts nZ (lFactor out)).
Proof. exact lmb_existence. Qed.
Print Assumptions C43_existence_partial.

(** C64, under the same conditions: the weights of the new mixture are not negative and sum to one, and every
    Gaussian of positive weight is an old one or the correction of an old one with a measurement the track may have given. *)
Theorem C64_origin_partial : forall (G : Type) probDet (correct : nat -> G -> option (G * Qc)) clutter thr maxPE minPE expected nZ kbest cc ncc ts,
  0 <= thr -> (forall z, (z < nZ)%nat -> 0 < clutter z) -> (forall z g g' l, correct z g = Some (g', l) -> 0 <= l) ->
  (forall g, 0 <= probDet g <= 1) -> kbest_contract kbest -> (0 < nZ)%nat ->
  (forall t, In t ts -> good t /\ pd_of probDet t * tP t < 1) ->
  components_of (support (table probDet correct clutter thr (visible probDet ts))) 0 (length (visible probDet ts)) nZ cc ncc ->
  manageable probDet correct clutter thr ts nZ \/ (forall t, In t ts -> pd_of probDet t < 1) ->
  exists out, lmb_update probDet correct clutter thr maxPE minPE expected nZ kbest cc ncc ts = Val out /\
  (forall m t, nth_error ts m = Some t -> exists t', nth_error (lTracks out) m = Some t' /\
     (forall w g, In (w, g) (tG t') -> 0 <= w) /\ qsum (map fst (tG t')) = 1 /\
     (forall w g, In (w, g) (tG t') -> 0 < w -> (exists w0, In (w0, g) (tG t)) \/
        exists z g0 l w0, (z < nZ)%nat /\ In (w0, g0) (tG t) /\ correct z g0 = Some (g, l) /\ 0 < pair_weight probDet correct clutter thr t z)).
Proof. exact lmb_mixture. Qed.
Print Assumptions C64_origin_partial.

(** C63, under the same conditions: a birth candidate is a measurement, none twice, with a probability
    in (minPE, maxPE] and at most one; a measurement that no track explains becomes one with probability maxPE. *)
Theorem C63_births_partial : forall (G : Type) probDet (correct : nat -> G -> option (G * Qc)) clutter thr maxPE minPE expected nZ kbest cc ncc ts,
  0 <= thr -> (forall z, (z < nZ)%nat -> 0 < clutter z) -> (forall z g g' l, correct z g = Some (g', l) -> 0 <= l) ->
  (forall g, 0 <= probDet g <= 1) -> kbest_contract kbest -> (0 < nZ)%nat ->
  (forall t, In t ts -> good t /\ pd_of probDet t * tP t < 1) ->
  components_of (support (table probDet correct clutter thr (visible probDet ts))) 0 (length (visible probDet ts)) nZ cc ncc ->
  manageable probDet correct clutter thr ts nZ \/ (forall t, In t ts -> pd_of probDet t < 1) ->
  ts <> [] ->
  exists out, lmb_update probDet correct clutter thr maxPE minPE expected nZ kbest cc ncc ts = Val out /\
  (forall z p, In (z, p) (lBirths out) -> (z < nZ)%nat /\ minPE < p <= maxPE /\ p <= 1) /\
  NoDup (map fst (lBirths out)) /\
  (forall z, (z < nZ)%nat -> (forall t, In t ts -> pair_weight probDet correct clutter thr t z = 0) -> minPE < maxPE <= 1 ->
     In (z, maxPE) (lBirths out)).
Proof. exact lmb_births. Qed.
Print Assumptions C63_births_partial.

(** C63 for a particle without tracks: every measurement becomes a candidate, with the smaller of the upper limit and an even share of
    the expected number of births; the weight of the particle does not change. *)
Theorem C63_no_map_partial : forall (G : Type) probDet (correct : nat -> G -> option (G * Qc)) clutter thr maxPE minPE expected nZ kbest cc ncc,
  exists out, lmb_update probDet correct clutter thr maxPE minPE expected nZ kbest cc ncc [] = Val out /\
  lTracks out = [] /\ lFactor out = 1 /\ map fst (lBirths out) = seq 0 nZ /\
  (forall z p, In (z, p) (lBirths out) ->
     p <= maxPE /\ p <= expected / QcN nZ /\ (p = maxPE \/ p = expected / QcN nZ)).
Proof. exact lmb_no_map. Qed.
Print Assumptions C63_no_map_partial.

(** Examples: Gaussians are numbers, correction with any measurement adds one. *)
Definition frac (a : Z) (b : positive) : Qc := Q2Qc (a # b).
Definition ex_det (g : nat) : Qc := match g with 9%nat => 0 | _ => frac 1 2 end.
Definition ex_cor (r : Qc) (z g : nat) : option (nat * Qc) :=
  match z, g with 0%nat, 0%nat => Some (1%nat, r) | 1%nat, 5%nat => Some (6%nat, frac 1 4)
  | 1%nat, 0%nat => Some (2%nat, frac 1 2) | _, _ => None end.
Definition ex_clut (_ : nat) : Qc := 1.
Definition ex_tracks : list (track nat) := [Track (frac 1 2) [(frac 3 4, 0%nat); (frac 1 4, 5%nat)];
  Track (frac 1 3) [(1, 9%nat)]; Track 1 [(1, 5%nat)]].
Definition run (r : Qc) (nZ : nat) (ts : list (track nat)) :=
  let C := support (table ex_det (ex_cor r) ex_clut 0 (visible ex_det ts)) in
  lmb_update ex_det (ex_cor r) ex_clut 0 (frac 3 10) (frac 1 100) 1 nZ kbest_ref
    (ref_cc C 0%Z (length (visible ex_det ts)) nZ) (ref_ncc C 0%Z (length (visible ex_det ts)) nZ) ts.

Definition shown_out (o : lmb_out nat) : list (Q * list (Q * nat)) * list (nat * Q) * Q :=
  (map (fun t => (this (tP t), map (fun g => (this (fst g), snd g)) (tG t))) (lTracks o), map (fun b => (fst b, this (snd b))) (lBirths o), this (lFactor o)).

(** Expected one birth: two measurements meet the upper limit of 3/10, five share the one birth. *)
Example C63_no_map_ex : omap shown_out (run 1 2 []) = Val ([], [(0%nat, 3 # 10); (1%nat, 3 # 10)]%Q, 1%Q) /\
  omap (fun o => map snd (snd (fst (shown_out o)))) (run 1 5 []) = Val [1 # 5; 1 # 5; 1 # 5; 1 # 5; 1 # 5]%Q.
Proof. split; vm_compute; reflexivity. Qed.

(** The conditions hold for these tracks: one of them out of view, one certain to exist. *)
Example C43_ex : (forall t, In t ex_tracks -> good t /\ pd_of ex_det t * tP t < 1) /\ manageable ex_det (ex_cor (frac 4 1)) ex_clut 0 ex_tracks 2 /\
  (forall z g g' l, ex_cor (frac 4 1) z g = Some (g', l) -> 0 <= l) /\ (forall g, 0 <= ex_det g <= 1) /\
  omap shown_out (run (frac 4 1) 2 ex_tracks) =
  Val ([(87 # 127, [(480 # 3569, 0%nat); (160 # 3569, 5%nat); (2880 # 3569, 1%nat); (42 # 3569, 2%nat); (7 # 3569, 6%nat)]);
        (1 # 3, [(1, 9%nat)]); (1, [(103 # 106, 5%nat); (3 # 106, 6%nat)])]%Q, [(0%nat, 3 # 10); (1%nat, 3 # 10)]%Q, (127 # 128)%Q).
Proof.
  split; [|split; [apply small_manageable; cbn; lia|split; [|split; [|vm_compute; reflexivity]]]].
  - intros t [<-|[<-|[<-|[]]]]; (split; [split; [split; vm_compute; discriminate|split; [|apply Qc_is_canon; vm_compute; reflexivity]]|vm_compute; reflexivity]).
    + intros w g [H|[H|[]]]; injection H as <- <-; vm_compute; discriminate.
    + intros w g [H|[]]; injection H as <- <-; vm_compute; discriminate.
    + intros w g [H|[]]; injection H as <- <-; vm_compute; discriminate.
  - intros [|[|z]] [|[|[|[|[|[|g]]]]]] g' l H; try discriminate; injection H as <- <-; vm_compute; discriminate.
  - intros g. unfold ex_det. do 10 (destruct g as [|g]; [split; vm_compute; discriminate|]). split; vm_compute; discriminate.
Qed.

(** C43 without the condition on certain tracks is false: a track that exists and is detected with certainty, and a
    measurement that does not fit it, lead to a division by zero. *)
Theorem C43_refuted : exists (t : track nat) correct cc ncc, good t /\ pd_of (fun _ => 1) t = 1 /\ tP t = 1 /\
  (forall z g g' l, correct z g = Some (g', l) -> 0 <= l) /\ manageable (fun _ => 1) correct ex_clut 0 [t] 1 /\
  components_of (support (table (fun _ => 1) correct ex_clut 0 (visible (fun _ => 1) [t]))) 0 1 1 cc ncc /\
  lmb_update (fun _ => 1) correct ex_clut 0 (frac 3 10) (frac 1 100) 1 1 kbest_ref cc ncc [t] = UB DivByZero.
Proof.
  set (t := Track 1 [(1, 0%nat)]). set (c := fun _ _ : nat => @None (nat * Qc)).
  set (C := support (table (fun _ => 1) c ex_clut 0 (visible (fun _ => 1) [t]))).
  exists t, c, (ref_cc C 0%Z 1 1), (ref_ncc C 0%Z 1 1). split; [|split; [|split; [|split; [|split; [|split]]]]].
  - split; [split; vm_compute; discriminate|]. split; [|apply Qc_is_canon; vm_compute; reflexivity].
    intros w g [H|[]]. injection H as <- <-. vm_compute. discriminate.
  - apply Qc_is_canon. vm_compute. reflexivity.
  - reflexivity.
  - discriminate.
  - apply small_manageable. cbn. lia.
  - apply ref_ok.
  - vm_compute. reflexivity.
Qed.
Print Assumptions C43_refuted.

(** One track seen with a strong measurement. *)
Definition one : list (track nat) := [Track (frac 1 2) [(1, 0%nat)]].
Definition one_events : list (list status) := [[Gone]; [Missed]; [Seen 0]].
Lemma one_enum : NoDup one_events /\ forall e, In e one_events <-> event 1 1 e.
Proof.
  split.
  - repeat constructor; intros H; repeat (destruct H as [H|H]; try discriminate); destruct H.
  - intros e. split.
    + intros [<-|[<-|[<-|[]]]]; (split; [reflexivity|split]).
      * intros z [H|[]]; discriminate.
      * intros [|[|i]] [|[|j]] z H; try discriminate.
      * intros z [H|[]]; discriminate.
      * intros [|[|i]] [|[|j]] z H; try discriminate.
      * intros z [H|[]]. injection H as <-. lia.
      * intros [|[|i]] [|[|j]] z H K; try discriminate; reflexivity.
    + intros (H1 & H2 & _). destruct e as [|s [|s2 e]]; try discriminate.
      destruct s as [| |z]; cbn; auto. specialize (H2 z (or_introl eq_refl)). destruct z; [auto|lia].
Qed.
Example one_posterior : good (Track (frac 1 2) [(1, 0%nat)]) /\
  posterior ex_det (ex_cor (frac 4 1)) ex_clut 0 one 1 (alive 0) (frac 5 7) /\
  posterior ex_det (ex_cor (frac 4 1)) ex_clut 0 one 1 (seen 0) (frac 4 7) /\
  posterior ex_det (ex_cor (frac 4 1)) ex_clut 0 one 1 (gave 0 0) (frac 4 7) /\
  omap shown_out (run (frac 4 1) 1 one) = Val ([(5 # 7, [(1 # 9, 0%nat); (8 # 9, 1%nat)])]%Q, [], (7 # 4)%Q).
Proof.
  split; [|split; [|split; [|split]]].
  - split; [split; vm_compute; discriminate|]. split; [|apply Qc_is_canon; vm_compute; reflexivity].
    intros w g [H|[]]. injection H as <- <-. vm_compute. discriminate.
  - exists one_events. split; [apply one_enum|]. split; [apply one_enum|]. split; [vm_compute; discriminate|].
    apply Qc_is_canon. vm_compute. reflexivity.
  - exists one_events. split; [apply one_enum|]. split; [apply one_enum|]. split; [vm_compute; discriminate|].
    apply Qc_is_canon. vm_compute. reflexivity.
  - exists one_events. split; [apply one_enum|]. split; [apply one_enum|]. split; [vm_compute; discriminate|].
    apply Qc_is_canon. vm_compute. reflexivity.
  - vm_compute. reflexivity.
Qed.

(** C63 is false: measurement 0 comes from no track with probability 3/7, more than the upper limit 3/10 and so
    more than the lower limit 1/100, yet it does not become a birth candidate. *)
Theorem C63_refuted : exists p out, posterior ex_det (ex_cor (frac 4 1)) ex_clut 0 one 1 (seen 0) p /\
  frac 3 10 < 1 - p /\ run (frac 4 1) 1 one = Val out /\ lBirths out = [].
Proof.
  exists (frac 4 7). assert (K := proj2 (proj2 (proj2 (proj2 one_posterior)))).
  destruct (run (frac 4 1) 1 one) as [out|u|]; [|discriminate|discriminate]. exists out. split; [apply one_posterior|].
  split; [vm_compute; reflexivity|]. split; [reflexivity|]. cbn [omap] in K. injection K as K. unfold shown_out in K.
  destruct (lBirths out); [reflexivity|]. discriminate.
Qed.
Print Assumptions C63_refuted.

(** C64 is false: given that the track exists it gave measurement 0 with probability 4/5, yet the Gaussian corrected with
    that measurement gets the weight 8/9. *)
Theorem C64_refuted : exists pa pg out w, posterior ex_det (ex_cor (frac 4 1)) ex_clut 0 one 1 (alive 0) pa /\
  posterior ex_det (ex_cor (frac 4 1)) ex_clut 0 one 1 (gave 0 0) pg /\ ex_cor (frac 4 1) 0 0 = Some (1%nat, frac 4 1) /\
  run (frac 4 1) 1 one = Val out /\ map (fun t => map (fun g => snd g) (tG t)) (lTracks out) = [[0; 1]]%nat /\
  (exists t, In t (lTracks out) /\ In (w, 1%nat) (tG t)) /\ w <> pg / pa.
Proof.
  exists (frac 5 7), (frac 4 7). assert (K := proj2 (proj2 (proj2 (proj2 one_posterior)))).
  destruct (run (frac 4 1) 1 one) as [out|u|]; [|discriminate|discriminate]. exists out, (frac 8 9).
  split; [apply one_posterior|]. split; [apply one_posterior|]. split; [reflexivity|]. split; [reflexivity|].
  cbn [omap] in K. injection K as K _ _. destruct (lTracks out) as [|t [|]]; try discriminate. cbn [map] in *.
  injection K as _ K. destruct (tG t) as [|[w1 g1] [|[w2 g2] [|]]] eqn:E; try discriminate. cbn [map fst snd] in *.
  injection K as K1 K2 K3 K4. split; [rewrite K2, K4; reflexivity|]. split.
  - exists t. split; [left; reflexivity|]. rewrite E. right. left. f_equal; [|exact K4]. apply Qc_is_canon. rewrite K3. vm_compute. reflexivity.
  - vm_compute. discriminate.
Qed.
Print Assumptions C64_refuted.
