(** Runs of the CB-MeMBer filter: C198, C199. *)
From Coq Require Import ZArith QArith Qcanon List Bool Arith Lia.
From Verif Require Import Base QcLra GMModel GMSpec TracksModel TracksSpec TracksProperties ParticleModel RbRunModel PermanentSpec PartitionSpec PartitionRef RfsSpec RfsKbest
  LmbModel LmbSpec MemberModel MemberSpec TrackRunModel TrackRunSpec MemberRunModel MemberRunSpec MemberRunProofs MemberRunProofs3.
Import ListNotations.
Local Open Scope Qc_scope.

(** C198.  If the sensor never detects with certainty, all corrections it makes have positive likelihood, clutter is possible
    everywhere and births are neither impossible nor certain, then every run in which no update without measurements comes
    between an update and the next predict either reads a deleted Gaussian, which needs a positive threshold for tracks, or is
    defined: no division by zero, no access out of range.  In the second case the filter always holds n particles with positive
    weights, and every track of every map has a probability of existence below 1 that is a birth's or at least the threshold,
    and Gaussians with positive weights of sum at most 1.
    Missing: the first case (C198_refuted), updates without measurements (C198_calm_refuted). *)
Theorem C198_run_partial : forall {Pose M G : Type} (sn : sensor Pose M G) integral cf o,
  csensor_sound sn integral -> coutside_sound o -> 0 < bBirth cf < 1 ->
  forall c n x0 t ks, (0 < n)%nat -> draws_ok ks -> calm false ks ->
  (exists s, trun (cb_one sn integral cf o) (sInv sn) c (tf_new n x0) (TThreshold t :: ks) = Val s /\ length (pset (rpf (tRb s))) = n /\
     all_maps (Forall (cb_fine cf)) s) \/
  (0 < bTrack cf /\ trun (cb_one sn integral cf o) (sInv sn) c (tf_new n x0) (TThreshold t :: ks) = UB UseAfterFree).
Proof. exact @cb_run. Qed.
Print Assumptions C198_run_partial.

(** The moves of tracks in the run are those in memory (C42, C09): the same tracks, the same unused measurements, undefined
    in the same cases, and nothing else in memory changes. *)
Theorem C198_squeeze_refines : forall F nM nZ h ts, tgood h ts F -> length ts = (nM + nZ)%nat ->
  mem_same (fun V hb => tgood (fst (fst hb)) (snd (fst hb)) F /\ intact h (fst (fst hb)) F /\ fst V = tviews (fst (fst hb)) (snd (fst hb)) /\ snd V = snd hb)
    (squeeze vholds zeroP (tviews h ts) nM nZ) (compact h ts nM nZ).
Proof. exact squeeze_mem. Qed.
Print Assumptions C198_squeeze_refines.
Theorem C198_drop_refines : forall F t h ts, tgood h ts F ->
  mem_same (fun V hb => tgood (fst hb) (snd hb) F /\ intact h (fst hb) F /\ V = tviews (fst hb) (snd hb))
    (drop vholds (fun v => Qltb (tvP v) t) (tviews h ts)) (TracksModel.pruneTracks h ts t).
Proof. exact drop_mem. Qed.
Print Assumptions C198_drop_refines.

(** C199.  If the measurements that fit the map come before the others, the update keeps the old tracks, none of them more
    likely than before, and has for each measurement that fits, in order, a track made of exactly the corrections by it, of
    positive probability and with weights of sum one; exactly the other measurements are left for births.
    Missing: other orders (C199_refuted). *)
Theorem C199_keeps_partial : forall {Pose M G : Type} (sn : sensor Pose M G) integral cf o, csensor_sound sn integral -> coutside_sound o ->
  forall zs1 zs2 x ts, zs1 ++ zs2 <> [] -> ts <> [] -> Forall solid ts ->
  (forall z, (z < length zs1)%nat -> fits_map sn (zs1 ++ zs2) x ts z) ->
  (forall z, (length zs1 <= z < length (zs1 ++ zs2))%nat -> ~ fits_map sn (zs1 ++ zs2) x ts z) ->
  exists old new w, cb_update sn integral cf o (zs1 ++ zs2) x ts = Val (old ++ new, seq (length zs1) (length zs2), w) /\
  Forall2 (fun t t' => tG t' = tG t /\ tP t' <= tP t) ts old /\
  length new = length zs1 /\ (forall z t, nth_error new z = Some t -> 0 < tP t < 1 /\ qsum (map fst (tG t)) = 1 /\
    forall g', (exists w, In (w, g') (tG t)) <-> correction_of sn (zs1 ++ zs2) x ts z g').
Proof. exact @cb_keeps. Qed.
Print Assumptions C199_keeps_partial.

(** ** Examples *)
(** The memories of C42_ex and C09_ex. *)
Example C198_moves_ex : tgood heap4 ts42 [4%nat] /\ length ts42 = (1 + 4)%nat /\ tgood heap4 ts9 [4%nat] /\
  omap (fun r => (length (fst r), snd r)) (squeeze vholds zeroP (tviews heap4 ts42) 1 4) = omap (fun r => (length (snd (fst r)), snd r)) (compact heap4 ts42 1 4) /\
  omap (@length _) (drop vholds (fun v => Qltb (tvP v) (1 # 2)) (tviews heap4 ts9)) = omap (fun r => length (snd r)) (TracksModel.pruneTracks heap4 ts9 (1 # 2)).
Proof.
  split; [apply C42_ex|]. split; [reflexivity|]. split; [apply ts9_good|]. split; vm_compute; reflexivity.
Qed.
(** Poses, measurements, Gaussians are numbers: the measurement of a landmark is the landmark, detected with probability
    9/10; clutter has intensity 1. *)
Definition cfrac (a : Z) (b : positive) : Qc := Q2Qc (a # b).
Definition cx_sn : sensor nat nat nat :=
  Sensor (fun _ _ => cfrac 9 10) (fun _ z g => if Nat.eqb z g then Some (g, cfrac 2 1) else None) (fun _ => 1) (fun _ z => z).
Definition cx_int (n : nat) : Qc := 1.
(** The defaults of the constructor, include/RBCBMeMBerFilter.hpp:354-361. *)
Definition cx_cf (trackT : Qc) : cconf := Cconf (cfrac 1 2) (cfrac 1 10000) trackT (cfrac 1 5).
Definition cx_o : outside nat := Outside (fun C nR nC => (ref_cc C 0%Z nR nC, ref_ncc C 0%Z nR nC)) kbest_ref (fun gs => gs).
Definition cx_run (trackT : Qc) (n : nat) (ks : list (tcall nat nat nat)) :=
  trun (cb_one cx_sn cx_int (cx_cf trackT) cx_o) (sInv cx_sn) (RC 1 None true) (tf_new n 0%nat) (TThreshold 1 :: ks).
Definition cgo : tcall nat nat nat := TPredict (fun i x => (x + i + 1)%nat) (fun g => g).
Definition clook (zs : list nat) : tcall nat nat nat := TUpdate zs (cfrac 1 3).
Definition cshown (s : tfilt nat nat nat) : list (list (Q * list (Q * nat)) * option Q * list nat) :=
  map (fun pu => (match pdata (fst pu) with Some ts => map (fun t => (this (tP t), map (fun g => (this (fst g), snd g)) (tG t))) ts | None => [] end,
    option_map this (pw (fst pu)), map fst (snd pu))) (combine (pset (rpf (tRb s))) (tSlots s)).

Lemma cx_sn_sound : csensor_sound cx_sn cx_int.
Proof.
  split; [intros x g; split; [discriminate|reflexivity]|]. split; [|split; [intros z; reflexivity|intros n _; reflexivity]].
  intros x z g g' l. cbn. destruct (Nat.eqb z g); [|discriminate]. intros E. injection E as _ <-. reflexivity.
Qed.
Lemma cx_o_sound : coutside_sound cx_o.
Proof. split; [intros; apply ref_ok|]. split; [apply kbest_ref_ok|]. intros gs H. split; [exact H|]. split; [reflexivity|apply Nat.le_refl]. Qed.
Lemma cx_birth : forall t, 0 < bBirth (cx_cf t) < 1.
Proof. intros t. split; reflexivity. Qed.
Lemma cx_draws : forall ks : list (tcall nat nat nat), (forall zs u, In (TUpdate zs u) ks -> u = cfrac 1 3) -> draws_ok ks.
Proof. intros ks H zs u Hin. rewrite (H zs u Hin). split; [discriminate|reflexivity]. Qed.

(** A landmark is born, then seen together with a new one. *)
Example C198_ex : csensor_sound cx_sn cx_int /\ coutside_sound cx_o /\ 0 < bBirth (cx_cf (cfrac 1 1000)) < 1 /\
  draws_ok [clook [1]; cgo; clook [1; 2]]%nat /\ calm false [clook [1]; cgo; clook [1; 2]]%nat /\
  omap cshown (cx_run (cfrac 1 1000) 2 [clook [1]; cgo; clook [1; 2]]%nat) =
  Val [([(1 # 11, [(1, 1%nat)]); (180 # 319, [(1, 1%nat)])], Some (1 # 2), [1%nat]); ([(1 # 11, [(1, 1%nat)]); (180 # 319, [(1, 1%nat)])], Some (1 # 2), [1%nat])]%Q.
Proof.
  split; [apply cx_sn_sound|]. split; [apply cx_o_sound|]. split; [apply cx_birth|]. split; [|split].
  - apply cx_draws. intros zs u [E|[E|[E|[]]]]; inversion E; reflexivity.
  - cbn. tauto.
  - vm_compute. reflexivity.
Qed.

(** C198 for every run is false with the default settings: a track is born, three updates miss it, and pruning it copies the
    last track of the map onto itself. *)
Theorem C198_refuted : exists ks, csensor_sound cx_sn cx_int /\ coutside_sound cx_o /\ 0 < bBirth (cx_cf (cfrac 1 1000)) < 1 /\ draws_ok ks /\ calm false ks /\
  cx_run (cfrac 1 1000) 1 ks = UB UseAfterFree.
Proof.
  exists [clook [1]; cgo; clook [2]; clook [3]; clook [4]]%nat. split; [apply cx_sn_sound|]. split; [apply cx_o_sound|]. split; [apply cx_birth|]. split; [|split].
  - apply cx_draws. intros zs u [E|[E|[E|[E|[E|[]]]]]]; inversion E; reflexivity.
  - cbn. tauto.
  - vm_compute. reflexivity.
Qed.
Print Assumptions C198_refuted.
(** An update without measurements, then predict: births are read from an empty list of measurements. *)
Theorem C198_calm_refuted : exists ks, csensor_sound cx_sn cx_int /\ coutside_sound cx_o /\ 0 < bBirth (cx_cf 0) < 1 /\ bTrack (cx_cf 0) = 0 /\ draws_ok ks /\
  cx_run 0 1 ks = UB OutOfBounds.
Proof.
  exists [clook [1]; clook []; cgo]%nat. split; [apply cx_sn_sound|]. split; [apply cx_o_sound|]. split; [apply cx_birth|]. split; [reflexivity|]. split.
  - apply cx_draws. intros zs u [E|[E|[E|[]]]]; inversion E; reflexivity.
  - vm_compute. reflexivity.
Qed.
Print Assumptions C198_calm_refuted.

(** A map with one track; of three measurements the first fits. *)
Definition cx_map : list (track nat) := [Track (cfrac 1 2) [(1, 1%nat)]].
Lemma cx_map_solid : Forall solid cx_map.
Proof.
  constructor; [|constructor]. split; [split; [discriminate|reflexivity]|]. split; [intros w g [E|[]]; injection E as <- _; reflexivity|].
  split; [vm_compute; discriminate|intros _; reflexivity].
Qed.
Example C199_ex : [1%nat] ++ [8; 9]%nat <> [] /\ cx_map <> [] /\ Forall solid cx_map /\
  (forall z, (z < 1)%nat -> fits_map cx_sn ([1%nat] ++ [8; 9]%nat) 0%nat cx_map z) /\
  (forall z, (1 <= z < 3)%nat -> ~ fits_map cx_sn ([1%nat] ++ [8; 9]%nat) 0%nat cx_map z) /\
  omap (fun r => (map (fun t => (this (tP t), map (fun g => (this (fst g), snd g)) (tG t))) (fst (fst r)), snd (fst r)))
    (cb_update cx_sn cx_int (cx_cf 0) cx_o [1; 8; 9]%nat 0%nat cx_map) =
  Val ([(1 # 11, [(1, 1%nat)]); (180 # 319, [(1, 1%nat)])], [1; 2]%nat)%Q.
Proof.
  split; [discriminate|]. split; [discriminate|]. split; [exact cx_map_solid|]. split; [|split].
  - intros z Hz. assert (z = 0%nat) as -> by lia. exists 1%nat, (Track (cfrac 1 2) [(1, 1%nat)]), 1, 1%nat, 1%nat, (cfrac 2 1).
    split; [reflexivity|]. split; [now left|]. split; [reflexivity|]. split; [now left|reflexivity].
  - intros z Hz (y & t & w & g & g' & l & Ey & [<-|[]] & _ & [E|[]] & C). injection E as _ <-.
    assert (z = 1 \/ z = 2)%nat as [-> | ->] by lia; injection Ey as <-; discriminate.
  - vm_compute. reflexivity.
Qed.
(** C199 for any order is false, in a run from the start: the middle one of three measurements is of the landmark in the map,
    and after the update there is no track for it, and it is not left for a birth either. *)
Theorem C199_refuted : csensor_sound cx_sn cx_int /\ coutside_sound cx_o /\
  fits_map cx_sn [8; 1; 9]%nat 0%nat cx_map 1 /\
  omap (fun r => (map (fun t => (this (tP t), map (fun g => (this (fst g), snd g)) (tG t))) (fst (fst r)), snd (fst r)))
    (cb_update cx_sn cx_int (cx_cf (cfrac 1 1000)) cx_o [8; 1; 9]%nat 0%nat cx_map) =
  Val ([(1 # 11, [(1, 1%nat)]); (0, [])], [0; 2]%nat)%Q /\
  omap cshown (cx_run (cfrac 1 1000) 1 [clook [1]; cgo; clook [8; 1; 9]]%nat) =
  Val [([(1 # 11, [(1, 1%nat)])], Some 1, [0; 2]%nat)]%Q.
Proof.
  split; [apply cx_sn_sound|]. split; [apply cx_o_sound|]. split; [|split].
  - exists 1%nat, (Track (cfrac 1 2) [(1, 1%nat)]), 1, 1%nat, 1%nat, (cfrac 2 1).
    split; [reflexivity|]. split; [now left|]. split; [reflexivity|]. split; [now left|reflexivity].
  - vm_compute. reflexivity.
  - vm_compute. reflexivity.
Qed.
Print Assumptions C199_refuted.
