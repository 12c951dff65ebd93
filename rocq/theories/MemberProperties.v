(** C89-C94: the map update of the CB-MeMBer filter (include/RBCBMeMBerFilter.hpp:514-640) and the birth tracks of the
    CB-MeMBer and LMB filters. *)
From Coq Require Import ZArith List Bool Arith QArith Qcanon Lia.
From Verif Require Import Base QcLra PermanentSpec LmbModel LmbSpec MemberModel MemberSpec MemberProofs3.
Import ListNotations.
Local Open Scope Qc_scope.

(** C89, for all maps, measurement sets and likelihoods, provided no track exists and is detected with certainty: the
    update succeeds, a legacy track keeps its mixture and gets the probability that it exists although it was missed, never
    more than before; the track of a measurement gets the probability of the CB-MeMBer equation, in [0,1]. *)
Theorem C89_partial : forall (G : Type) probDet (correct : nat -> G -> option (G * Qc)) clutter nZ ts,
  sensor_ok probDet correct clutter nZ -> List.Forall fair ts -> (forall t, In t ts -> tP t * pd_of probDet t <> 1) -> ts <> [] ->
  exists u, update_map probDet correct clutter nZ ts = Val u /\
  Forall2 (fun t t' => tG t' = tG t /\ 0 <= tP t' <= tP t /\
             tP t' * (1 - tP t * pd_of probDet t) = tP t * (1 - pd_of probDet t)) ts (u_old u) /\
  length (u_new u) = nZ /\
  (forall z n, nth_error (u_new u) z = Some n -> 0 <= n_P n <= 1 /\
     n_P n * cb_den probDet correct clutter ts z = cb_num probDet correct ts z).
Proof. exact member_range. Qed.
Print Assumptions C89_partial.

(** C90, provided no track exists with certainty: the weights of a new track that is kept are not negative, sum to one, and
    belong exactly to the corrections of the Gaussians in view, in proportion to odds of existence, detection
    probability, likelihood and old weight. *)
Theorem C90_partial : forall (G : Type) probDet (correct : nat -> G -> option (G * Qc)) clutter nZ ts,
  sensor_ok probDet correct clutter nZ -> List.Forall fair ts -> (forall t, In t ts -> tP t < 1) ->
  exists u, update_map probDet correct clutter nZ ts = Val u /\
  (forall z n, nth_error (u_new u) z = Some n -> n_P n <> 0 ->
     exists gs, n_G n = Some gs /\ qsum (map fst gs) = 1 /\ (forall w g, In (w, g) gs -> 0 <= w) /\
     0 < cb_mass probDet correct ts z /\
     (forall w g', In (w, g') gs <-> exists t w0 g l, In t ts /\ 0 < pd_of probDet t /\ In (w0, g) (tG t) /\ correct z g = Some (g', l) /\
        w * cb_mass probDet correct ts z = tP t / (1 - tP t) * (pd_of probDet t * (l * w0)))).
Proof. exact member_mixture. Qed.
Print Assumptions C90_partial.

(** C91, provided no track exists with certainty: a measurement is listed as unused, once, exactly if no track explains it;
    all others have a track that is kept. *)
Theorem C91_partial : forall (G : Type) probDet (correct : nat -> G -> option (G * Qc)) clutter nZ ts,
  sensor_ok probDet correct clutter nZ -> List.Forall fair ts -> (forall t, In t ts -> tP t < 1) ->
  exists u, update_map probDet correct clutter nZ ts = Val u /\ NoDup (u_unused u) /\
  (forall z, In z (u_unused u) <-> (z < nZ)%nat /\ ~ exists t, In t ts /\ explains probDet correct t z) /\
  (ts <> [] -> (length (u_unused u) + length (new_kept u) = nZ)%nat).
Proof. exact member_unused. Qed.
Print Assumptions C91_partial.

(** C92 for one measurement and maps of any size: the expected number of landmarks of the updated map is the one of the
    exact Bayes posterior. *)
Theorem C92_partial : forall (G : Type) probDet (correct : nat -> G -> option (G * Qc)) clutter ts,
  sensor_ok probDet correct clutter 1 -> List.Forall fair ts -> (forall t, In t ts -> tP t * pd_of probDet t <> 1) ->
  exists u, update_map probDet correct clutter 1 ts = Val u /\ expected_count probDet correct clutter 1 ts (map_count u).
Proof. exact member_count. Qed.
Print Assumptions C92_partial.

(** C93: no call of CB-MeMBer or LMB reads a measurement or probability out of bounds, for all histories of update and predict
    calls in which no update without measurements comes between one with measurements and the next predict. *)
Theorem C93_history_partial : forall (M : Type) kind n cs, List.Forall (numbers_ok M) cs -> no_empty_update M false cs ->
  exists s, run M kind (start M n) cs = Val s.
Proof. exact member_history. Qed.
Print Assumptions C93_history_partial.

(** C93: if no resampling takes place, the next predict gives each particle one birth track for each measurement it left unused,
    and a further predict gives none. *)
Theorem C93_births_partial : forall (M : Type) kind s (zs : list M) f, zs <> [] -> numbers_ok M (Update M zs f None) ->
  exists s1 s2, run M kind s [Update M zs f None; Predict M] = Val s1 /\ step M kind s1 (Predict M) = Val s2 /\
  Forall2 (fun p q => p_id M q = p_id M p /\ exists bs, p_born M q = p_born M p ++ bs /\ births_of M kind zs (p_id M p) (f (p_id M p)) bs)
    (f_slots M s) (f_slots M s1) /\
  map (p_born M) (f_slots M s2) = map (p_born M) (f_slots M s1).
Proof. exact member_births. Qed.
Print Assumptions C93_births_partial.

(** C93 with a resampling that fills slot i with a copy of the particle of slot g i: slot i then holds that particle and the births
    it had before, and gets one more birth track for each measurement that the particle held by slot i before the resampling left
    unused, which is right only if both particles left the same measurements unused. *)
Theorem C93_slots_partial : forall (M : Type) kind s (zs : list M) f g, zs <> [] -> numbers_ok M (Update M zs f (Some g)) ->
  (forall i, (i < length (f_slots M s))%nat -> (g i < length (f_slots M s))%nat) ->
  exists s1, run M kind s [Update M zs f (Some g); Predict M] = Val s1 /\ length (f_slots M s1) = length (f_slots M s) /\
  (forall i p, nth_error (f_slots M s) i = Some p ->
     exists q r bs, nth_error (f_slots M s) (g i) = Some q /\ nth_error (f_slots M s1) i = Some r /\
     p_id M r = p_id M q /\ p_born M r = p_born M q ++ bs /\ births_of M kind zs (p_id M q) (f (p_id M p)) bs).
Proof. exact member_resampled. Qed.
Print Assumptions C93_slots_partial.

(** C94 for updates with at least one measurement: a track in view that is neither certain nor impossible loses probability, a
    track out of view keeps it. *)
Theorem C94_partial : forall (G : Type) probDet (correct : nat -> G -> option (G * Qc)) clutter nZ ts,
  sensor_ok probDet correct clutter nZ -> List.Forall fair ts -> (forall t, In t ts -> tP t * pd_of probDet t <> 1) -> (0 < nZ)%nat ->
  exists u, update probDet correct clutter nZ ts = Val u /\
  Forall2 (fun t t' => (0 < tP t -> tP t < 1 -> 0 < pd_of probDet t -> tP t' < tP t) /\ (pd_of probDet t = 0 -> tP t' = tP t)) ts (u_old u).
Proof. exact member_miss. Qed.
Print Assumptions C94_partial.

(** A sensor that sees every Gaussian with probability [d] and corrects Gaussian g with measurement z to g + z + 1 with
    likelihood [l] if g is even. *)
Definition frac (a : Z) (b : positive) : Qc := Q2Qc (a # b).
Definition ex_cor (l : Qc) (z g : nat) : option (nat * Qc) := if Nat.even g then Some ((g + z + 1)%nat, l) else None.
Definition ex_clut (_ : nat) : Qc := 1.
Definition half (_ : nat) : Qc := frac 1 2.
Definition sure (_ : nat) : Qc := 1.
(** Probability 1/2 with two Gaussians, probability 1/4 with one that no measurement fits. *)
Definition two : list (track nat) := [Track (frac 1 2) [(frac 1 2, 0); (frac 1 2, 2)]%nat; Track (frac 1 4) [(1, 1%nat)]].
Definition shown (u : @updated nat) : list Q * list (Q * option (list (Q * nat))) * list nat :=
  (map (fun t => this (tP t)) (u_old u),
   map (fun n => (this (n_P n), option_map (map (fun g => (this (fst g), snd g))) (n_G n))) (u_new u), u_unused u).

Lemma ex_sensor : forall det nZ, (forall g, 0 <= det g <= 1) -> sensor_ok det (ex_cor 1) ex_clut nZ.
Proof.
  intros det nZ H. split; [exact H|]. split; [|intros z _; reflexivity].
  intros z g g' l E. unfold ex_cor in E. destruct (Nat.even g); [|discriminate]. injection E as _ <-. vm_compute. discriminate.
Qed.
Lemma half_01 : forall g, 0 <= half g <= 1.
Proof. intros g. split; vm_compute; discriminate. Qed.
Lemma sure_01 : forall g, 0 <= sure g <= 1.
Proof. intros g. split; vm_compute; discriminate. Qed.
Lemma good_one : forall p w g, 0 <= p <= 1 -> w = 1 -> good (Track p [(w, g)] : track nat).
Proof.
  intros p w g Hp ->. split; [exact Hp|]. split; [|vm_compute; apply Qc_is_canon; reflexivity].
  intros w g0 [E|[]]. injection E as <- <-. vm_compute. discriminate.
Qed.

(** Hypotheses of C89, C90, C91 and C94 met by a map of two tracks and two measurements, and what comes out. *)
Example C89_example : sensor_ok half (ex_cor 1) ex_clut 2 /\ List.Forall good two /\ (forall t, In t two -> tP t < 1) /\
  (forall t, In t two -> tP t * pd_of half t <> 1) /\
  omap shown (update_map half (ex_cor 1) ex_clut 2 two) =
  Val ([1 # 3; 1 # 7]%Q, [(1 # 6, Some [(1 # 2, 1%nat); (1 # 2, 3%nat)]); (1 # 6, Some [(1 # 2, 2%nat); (1 # 2, 4%nat)])]%Q, []).
Proof.
  split; [exact (ex_sensor half 2 half_01)|]. split; [|split; [|split]].
  - constructor; [|constructor; [|constructor]].
    + split; [split; vm_compute; discriminate|]. split; [|apply Qc_is_canon; vm_compute; reflexivity].
      intros w g [E|[E|[]]]; injection E as <- <-; vm_compute; discriminate.
    + apply good_one; [split; vm_compute; discriminate|reflexivity].
  - intros t [<-|[<-|[]]]; vm_compute; reflexivity.
  - intros t [<-|[<-|[]]]; vm_compute; discriminate.
  - vm_compute. reflexivity.
Qed.
(** The same for a mixture of which a Gaussian was removed. *)
Example C89_pruned_example : List.Forall fair [Track (frac 1 2) [(frac 1 2, 0%nat)]] /\
  omap shown (update_map half (ex_cor 1) ex_clut 1 [Track (frac 1 2) [(frac 1 2, 0%nat)]]) = Val ([3 # 7]%Q, [(4 # 105, Some [(1, 1%nat)])]%Q, []).
Proof.
  split; [|vm_compute; reflexivity]. constructor; [|constructor]. split; [split; vm_compute; discriminate|]. split; [|vm_compute; discriminate].
  intros w g [E|[]]; injection E as <- <-; vm_compute; discriminate.
Qed.
(** A map without an explanation: both measurements unused. *)
Example C91_example : omap shown (update_map half (ex_cor 1) ex_clut 2 [Track (frac 1 4) [(1, 1%nat)]]) =
  Val ([1 # 7]%Q, [(0, Some []); (0, Some [])]%Q, [0; 1]%nat).
Proof. vm_compute. reflexivity. Qed.
(** C92: the map of two tracks with one measurement; 1/3 + 1/7 + 1/6. *)
Example C92_example : omap (fun u => this (map_count u)) (update_map half (ex_cor 1) ex_clut 1 two) = Val (9 # 14)%Q.
Proof. vm_compute. reflexivity. Qed.

(** C89 is false: one track that exists with certainty and is always seen; 0/0. *)
Theorem C89_refuted : exists (ts : list (track nat)), sensor_ok sure (ex_cor 1) ex_clut 1 /\ List.Forall good ts /\
  update_map sure (ex_cor 1) ex_clut 1 ts = UB DivByZero.
Proof.
  exists [Track 1 [(1, 0%nat)]]. split; [exact (ex_sensor sure 1 sure_01)|]. split; [|vm_compute; reflexivity].
  constructor; [|constructor]. apply good_one; [split; vm_compute; discriminate|reflexivity].
Qed.
Print Assumptions C89_refuted.

(** C90 is false: a certain track beside one of probability 1/2; the new track is kept and has weights that are not numbers. *)
Theorem C90_refuted : exists (ts : list (track nat)), sensor_ok half (ex_cor 1) ex_clut 1 /\ List.Forall good ts /\
  (forall t, In t ts -> tP t * pd_of half t <> 1) /\
  exists u n, update_map half (ex_cor 1) ex_clut 1 ts = Val u /\ u_new u = [n] /\ 0 < n_P n /\ n_G n = None.
Proof.
  exists [Track 1 [(1, 0%nat)]; Track (frac 1 2) [(1, 2%nat)]]. split; [exact (ex_sensor half 1 half_01)|]. split; [|split].
  - repeat constructor; try (vm_compute; discriminate); try (apply Qc_is_canon; vm_compute; reflexivity);
      intros w g [E|[]]; injection E as <- <-; vm_compute; discriminate.
  - intros t [<-|[<-|[]]]; vm_compute; discriminate.
  - remember (update_map half (ex_cor 1) ex_clut 1 [Track 1 [(1, 0%nat)]; Track (frac 1 2) [(1, 2%nat)]]) as o eqn:E. vm_compute in E.
    rewrite E. eexists. eexists. split; [reflexivity|]. split; [reflexivity|]. split; [vm_compute; reflexivity|reflexivity].
Qed.
Print Assumptions C90_refuted.

(** C91 is false: the only track is certain to exist and explains the measurement, yet the measurement is unused, and so a
    second track starts at the place of the first. *)
Theorem C91_refuted : exists (t : track nat), sensor_ok half (ex_cor 1) ex_clut 1 /\ good t /\ tP t * pd_of half t <> 1 /\
  explains half (ex_cor 1) t 0 /\ exists u, update_map half (ex_cor 1) ex_clut 1 [t] = Val u /\ u_unused u = [0%nat].
Proof.
  exists (Track 1 [(1, 0%nat)]). split; [exact (ex_sensor half 1 half_01)|]. split; [apply good_one; [split; vm_compute; discriminate|reflexivity]|].
  split; [vm_compute; discriminate|]. split; [split; [|split]; vm_compute; reflexivity|].
  remember (update_map half (ex_cor 1) ex_clut 1 [Track 1 [(1, 0%nat)]]) as o eqn:E. vm_compute in E. rewrite E.
  eexists. split; reflexivity.
Qed.
Print Assumptions C91_refuted.

(** C92 is false for two measurements: one track of probability 1/2, detection probability 1/2, likelihoods and clutter 1;
    3/5 landmarks are expected, the map holds 2/3. *)
Definition single : list (track nat) := [Track (frac 1 2) [(1, 0%nat)]].
Definition single_events : list (list status) := [[Gone]; [Missed]; [Seen 0]; [Seen 1]].
Lemma single_enum : NoDup single_events /\ forall e, In e single_events <-> event 1 2 e.
Proof.
  split; [repeat constructor; cbn; intuition discriminate|]. intros e. split.
  - intros H. split; [|split].
    + cbn in H. repeat destruct H as [<-|H]; try reflexivity; destruct H.
    + intros z Hz. cbn in H. repeat destruct H as [<-|H]; try destruct H; destruct Hz as [Hz|[]]; try discriminate; injection Hz as <-; lia.
    + intros i j z Hi Hj. assert (L : length e = 1%nat) by (cbn in H; repeat destruct H as [<-|H]; try reflexivity; destruct H).
      assert (Hi' : (i < length e)%nat) by (apply nth_error_Some; congruence).
      assert (Hj' : (j < length e)%nat) by (apply nth_error_Some; congruence). lia.
  - intros (L & Z & _). destruct e as [|s [|]]; try discriminate. destruct s as [| |z]; cbn; auto.
    specialize (Z z (or_introl eq_refl)). destruct z as [|[|z]]; auto. lia.
Qed.
Theorem C92_refuted : exists v u, sensor_ok half (ex_cor 1) ex_clut 2 /\ List.Forall good single /\
  expected_count half (ex_cor 1) ex_clut 2 single v /\ update_map half (ex_cor 1) ex_clut 2 single = Val u /\ v < map_count u.
Proof.
  exists (frac 3 5).
  remember (update_map half (ex_cor 1) ex_clut 2 single) as o eqn:E. vm_compute in E. rewrite E.
  eexists. split; [exact (ex_sensor half 2 half_01)|]. split; [|split; [|split; [reflexivity|vm_compute; reflexivity]]].
  - constructor; [|constructor]. apply good_one; [split; vm_compute; discriminate|reflexivity].
  - exists single_events. split; [apply single_enum|]. split; [apply single_enum|]. split; [vm_compute; discriminate|].
    apply Qc_is_canon. vm_compute. reflexivity.
Qed.
Print Assumptions C92_refuted.

(** Histories: every particle leaves measurement 0 unused, with probability 1/5; or only particle 1 does. *)
Definition all_unused (_ : nat) : list (nat * Qc) := [(0%nat, frac 1 5)].
Definition one_unused (id : nat) : list (nat * Qc) := if Nat.eqb id 1 then [(0%nat, frac 1 5)] else [].
Definition born (s : fstate nat) : list (list (nat * nat)) := map (fun p => map fst (p_born nat p)) (f_slots nat s).
Definition none_unused (_ : nat) : list (nat * Qc) := [].
(** A history that meets the hypotheses of C93 with resampling and an update without measurements after predict. *)
Definition calm : list (call nat) :=
  [Update nat [7%nat] one_unused (Some (fun _ => 1%nat)); Predict nat; Update nat [] none_unused None; Predict nat].
Example C93_example : List.Forall (numbers_ok nat) calm /\ no_empty_update nat false calm /\
  omap born (run nat (Some (frac 1 2)) (start nat 2) [Update nat [7; 8]%nat all_unused None; Predict nat]) = Val [[(0, 7)]; [(1, 7)]]%nat /\
  omap born (run nat None (start nat 2) [Update nat [7; 8]%nat one_unused None; Predict nat]) = Val [[]; [(1, 7)]]%nat.
Proof.
  split; [|split; [|split]].
  - assert (H : forall id k pe, In (k, pe) (one_unused id) -> k = 0%nat).
    { intros id k pe Hin. unfold one_unused in Hin. destruct (Nat.eqb id 1); [|destruct Hin]. destruct Hin as [E|[]]. now injection E. }
    constructor; [|constructor; [exact I|constructor; [|constructor; [exact I|constructor]]]].
    + intros id k pe Hin. apply H in Hin. cbn. lia.
    + intros id k pe [].
  - cbn. auto.
  - vm_compute. reflexivity.
  - vm_compute. reflexivity.
Qed.

(** Three particles, of which number 1 left a measurement unused, and a resampling that moves them round. *)
Definition turn (i : nat) : nat := match i with 0 => 1 | 1 => 2 | _ => 0 end%nat.
Example C93_slots_example : numbers_ok nat (Update nat [7]%nat one_unused (Some turn)) /\ (forall i, (i < 3)%nat -> (turn i < 3)%nat) /\
  omap (fun s => map (p_id nat) (f_slots nat s)) (run nat None (start nat 3) [Update nat [7]%nat one_unused (Some turn); Predict nat]) =
    Val [1; 2; 0]%nat /\
  omap born (run nat None (start nat 3) [Update nat [7]%nat one_unused (Some turn); Predict nat]) = Val [[]; [(2, 7)]; []]%nat.
Proof.
  split; [|split; [|split; vm_compute; reflexivity]].
  - intros id k pe Hin. unfold one_unused in Hin. destruct (Nat.eqb id 1); [|destruct Hin]. destruct Hin as [E|[]]. injection E as <- _. cbn. lia.
  - intros [|[|[|i]]] H; cbn; lia.
Qed.

(** C93 is false: an update without measurements between an update and predict; both filters read past the end of the
    empty measurement set. *)
Definition hasty : list (call nat) := [Update nat [7%nat] all_unused None; Update nat [] none_unused None; Predict nat].
Theorem C93_refuted : exists cs, List.Forall (numbers_ok nat) cs /\
  run nat (Some (frac 1 2)) (start nat 1) cs = UB OutOfBounds /\ run nat None (start nat 1) cs = UB OutOfBounds.
Proof.
  exists hasty. split; [|split; vm_compute; reflexivity].
  constructor; [|constructor; [|constructor; [exact I|constructor]]].
  - intros id k pe [E|[]]. injection E as <- _. cbn. lia.
  - intros id k pe [].
Qed.
Print Assumptions C93_refuted.

(** C93 is false after resampling: particle 0 left no measurement unused, yet its copy in slot 1 gets the birth track of
    particle 1, which is gone. *)
Theorem C93_resampled_refuted : exists s p, 
  run nat (Some (frac 1 2)) (start nat 2) [Update nat [7%nat] one_unused (Some (fun _ => 0%nat)); Predict nat] = Val s /\
  nth_error (f_slots nat s) 1 = Some p /\ p_id nat p = 0%nat /\ one_unused 0 = [] /\ map fst (p_born nat p) = [(0, 7)]%nat.
Proof. eexists. eexists. split; [vm_compute; reflexivity|]. repeat split. Qed.
Print Assumptions C93_resampled_refuted.

(** C94 is false: an update in which the sensor, that sees a landmark with probability 1/2, reports nothing leaves the
    probability of existence as it is, where a missed detection makes it 1/3. *)
Theorem C94_refuted : exists (t : track nat), good t /\ 0 < tP t /\ tP t < 1 /\ 0 < pd_of half t /\
  update half (ex_cor 1) ex_clut 0 [t] = Val (Updated [t] [] []) /\
  expected_count half (ex_cor 1) ex_clut 0 [t] (frac 1 3) /\ tP t <> frac 1 3.
Proof.
  exists (Track (frac 1 2) [(1, 0%nat)]). split; [apply good_one; [split; vm_compute; discriminate|reflexivity]|].
  split; [vm_compute; reflexivity|]. split; [vm_compute; reflexivity|]. split; [vm_compute; reflexivity|]. split; [reflexivity|].
  split; [|vm_compute; discriminate]. exists [[Gone]; [Missed]]. split; [repeat constructor; cbn; intuition discriminate|]. split.
  - intros e. split.
    + intros [<-|[<-|[]]]; (split; [reflexivity|]); (split; [intros z [E|[]]; discriminate|]); intros [|[|i]] j z Hi Hj; discriminate.
    + intros (L & Z & _). destruct e as [|s [|]]; try discriminate. destruct s as [| |z]; cbn; auto.
      specialize (Z z (or_introl eq_refl)). lia.
  - split; [vm_compute; discriminate|]. apply Qc_is_canon. vm_compute. reflexivity.
Qed.
Print Assumptions C94_refuted.
