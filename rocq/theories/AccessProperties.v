(** C170-C174: reading maps, checking them, parts of a pose, converting log files. *)
From Coq Require Import QArith ZArith List Bool Arith Lia Lqa.
From Verif Require Import Base ListUtil GMModel GMSpec GMProofs GMProofs3 GMProperties TracksModel TracksSpec TracksProperties AccessModel AccessSpec AccessProofs AccessProofs2.
Import ListNotations.
Close Scope Q_scope.

(** ** C170 *)
(** getLandmark refuses exactly the indices outside the particles and outside 0..getGMSize-1. *)
Theorem C170_bounds : forall h ps i m, wf_maps h ps ->
  (~ (0 <= i < Z.of_nat (length ps))%Z -> getGMSize ps i = (-1)%Z) /\
  (getLandmark h ps i m = Val None <->
     ~ ((0 <= i < Z.of_nat (length ps))%Z /\ (0 <= m < getGMSize ps i)%Z)).
Proof. exact access_out. Qed.
Print Assumptions C170_bounds.

(** In a map without empty slots the indices enumerate the map. *)
Theorem C170_partial : forall h ps i g, wf_maps h ps -> (0 <= i)%Z -> nth_error ps (Z.to_nat i) = Some g -> no_holes g ->
  getGMSize ps i = Z.of_nat (length (view h g)) /\
  read_map h ps i = Val (contents (view h g)) /\ length (contents (view h g)) = length (view h g) /\
  (forall m, (0 <= m < Z.of_nat (length (view h g)))%Z ->
     exists l w wp, nth_error (view h g) (Z.to_nat m) = Some (Some l, w, wp) /\ getLandmark h ps i m = Val (Some (l, w))).
Proof. exact access_ok. Qed.
Print Assumptions C170_partial.

(** Merging and then pruning with a positive threshold, as update does, leaves such a map. *)
Theorem C170_maintained : forall md srt h g F tm f tp, sorter_ok srt -> good h g F -> holes_zero g -> (0 < tp)%Q ->
  exists h1 g1 k1 h2 g2 k2, merge md h g tm f = Val (h1, g1, k1) /\ prune srt h1 g1 tp = Val (h2, g2, k2) /\
    good h2 g2 F /\ no_holes g2 /\ holes_zero g2 /\ read_map h2 [g2] 0 = Val (contents (view h2 g2)) /\
    length (contents (view h2 g2)) = length (view h2 g2).
Proof. exact maintained. Qed.
Print Assumptions C170_maintained.

(** With tracks: a copy of the track, the filter's own tracks unchanged. *)
Theorem C170_tracks : forall h ps i m dst F, tgood h (concat ps ++ [dst]) F ->
  (forall ts t, (0 <= i)%Z -> nth_error ps (Z.to_nat i) = Some ts -> (0 <= m)%Z -> nth_error ts (Z.to_nat m) = Some t ->
     exists h' dst', getTrack h ps i m dst = Val (h', dst', true) /\ tgood h' (concat ps ++ [dst']) F /\
       tview_of h' dst' = tview_of h t /\ tviews h' (concat ps) = tviews h (concat ps)) /\
  ((forall ts t, ~ ((0 <= i)%Z /\ nth_error ps (Z.to_nat i) = Some ts /\ (0 <= m)%Z /\ nth_error ts (Z.to_nat m) = Some t)) ->
     getTrack h ps i m dst = Val (h, dst, false)).
Proof. exact track_ok. Qed.
Print Assumptions C170_tracks.

Definition heapA : heap := [Some (L1 1 1); Some (L1 (11 # 10) 1); Some (L1 9 1)].
Definition gmA : gm := GM 3 [Slot (Some 0%nat) (1 # 2) 0; Slot (Some 1%nat) (1 # 4) 0; Slot (Some 2%nat) 0 0] false.
Lemma gmA_good : good heapA gmA [].
Proof.
  apply good_ex.
  - vm_compute. repeat (constructor; [simpl; intuition lia|]). constructor.
  - reflexivity.
  - intros p Hp. vm_compute in Hp. repeat (destruct Hp as [<-|Hp]; [eexists; vm_compute; reflexivity|]). destruct Hp.
  - intros p Hp. simpl in Hp. vm_compute. lia.
Qed.
Lemma gmA_zero : holes_zero gmA.
Proof. intros s Hs Hn. simpl in Hs. repeat (destruct Hs as [<-|Hs]; [simpl in *; discriminate|]). destruct Hs. Qed.

(** A threshold of zero keeps the slot emptied by the merge, in front of a landmark of weight zero: the
    second of the two landmarks cannot be read. *)
Theorem C170_refuted : exists md srt h g h1 g1 k1 h2 g2 k2, sorter_ok srt /\ good h g [] /\ holes_zero g /\
  merge md h g 1 1 = Val (h1, g1, k1) /\ prune srt h1 g1 0 = Val (h2, g2, k2) /\ good h2 g2 [] /\
  getGMSize [g2] 0 = 2%Z /\ getLandmark h2 [g2] 0 1 = UB NullDeref /\ read_map h2 [g2] 0 = UB NullDeref.
Proof.
  exists md1, isort, heapA, gmA. eexists _, _, _, _, _, _. split; [exact isort_ok|]. split; [exact gmA_good|].
  split; [exact gmA_zero|]. split; [vm_compute; reflexivity|]. split; [vm_compute; reflexivity|].
  split.
  { split; [split|reflexivity].
    - vm_compute. repeat (constructor; [simpl; intuition lia|]). constructor.
    - intro p. destruct p as [|[|[|p]]]; vm_compute; split; intro H;
        try (eexists; reflexivity); try (destruct H; discriminate); auto; try (intuition discriminate; fail).
      destruct H as [l H]. destruct p; discriminate H. }
  vm_compute. auto.
Qed.
Print Assumptions C170_refuted.

Example C170_ex : wf_maps (firstn 5 heap5) [gm5] /\ getGMSize [gm5] 0 = 4%Z /\ getGMSize [gm5] 1 = (-1)%Z /\
  getLandmark (firstn 5 heap5) [gm5] 0 (-1) = Val None /\ getLandmark (firstn 5 heap5) [gm5] 0 4 = Val None /\
  (exists l, getLandmark (firstn 5 heap5) [gm5] 0 2 = Val (Some (l, (1 # 10)%Q)) /\ lx l 0%nat = 2%Q) /\
  getLandmark (firstn 5 heap5) [gm5] 0 1 = UB NullDeref.
Proof.
  split; [intros g [<-|[]]; exists [4%nat]; exact gm5_good|]. split; [reflexivity|]. split; [reflexivity|].
  split; [reflexivity|]. split; [reflexivity|]. split; [|reflexivity]. eexists. split; vm_compute; reflexivity.
Qed.
Example C170_partial_ex : wf_maps heapA [gmA] /\ no_holes gmA /\ (exists a b c, read_map heapA [gmA] 0 = Val [a; b; c] /\ snd b = (1 # 4)%Q) /\
  (exists h1 g1 k1 h2 g2 k2, merge md1 heapA gmA 1 1 = Val (h1, g1, k1) /\ prune isort h1 g1 (1 # 100) = Val (h2, g2, k2) /\
     (k1, k2) = (1, 2)%nat /\ exists l, read_map h2 [g2] 0 = Val [(l, (1 # 2) + (1 # 4))%Q]).
Proof.
  split; [intros g [<-|[]]; exists []; exact gmA_good|]. split.
  { intros s Hs. simpl in Hs. repeat (destruct Hs as [<-|Hs]; [simpl; discriminate|]). destruct Hs. }
  split; [eexists _, _, _; vm_compute; auto|].
  eexists _, _, _, _, _, _. split; [vm_compute; reflexivity|]. split; [vm_compute; reflexivity|]. split; [reflexivity|].
  eexists. vm_compute. reflexivity.
Qed.
Example C170_tracks_ex : tgood heap4 (concat [firstn 2 ts9; skipn 2 ts9] ++ [tr0 1]) [4%nat] /\
  exists h' d', getTrack heap4 [firstn 2 ts9; skipn 2 ts9] 0 1 (tr0 1) = Val (h', d', true) /\ tptrs d' = [5%nat] /\
    getTrack heap4 [firstn 2 ts9; skipn 2 ts9] 2 0 (tr0 1) = Val (heap4, tr0 1, false).
Proof. split; [tg_solve|]. eexists _, _. vm_compute. auto. Qed.

(** ** C171 *)
(** checkMapIntegrity returns true exactly if each of the first getGaussianCount slots is empty, or holds
    numbers only with a covariance whose entries add up to more than zero. *)
Theorem C171_exact : forall ps, (forall m, In m ps -> n_count m <= length (n_slots m))%nat ->
  exists b, check_maps ps = Val b /\
    (b = true <-> forall m i g, In m ps -> (i < n_count m)%nat -> nth_error (n_slots m) i = Some (Some g) -> passes g).
Proof. exact check_iff. Qed.
Print Assumptions C171_exact.

(** No false alarm: a map of numbers with positive definite covariances passes. *)
Theorem C171_partial : forall ps, (forall m, In m ps -> n_count m <= length (n_slots m))%nat ->
  (forall m g, In m ps -> In (Some g) (n_slots m) -> sound_gauss g) -> check_maps ps = Val true.
Proof. exact no_false_alarm. Qed.
Print Assumptions C171_partial.

Definition gOK : gauss := Gauss [Some 1; Some 2]%Q [[Some 2; Some 1]; [Some 1; Some 3]]%Q (Some (1 # 2)%Q).
Definition gIndef : gauss := Gauss [Some 1; Some 2]%Q [[Some 1; Some 2]; [Some 2; Some 1]]%Q (Some (1 # 2)%Q).
Definition gNan : gauss := Gauss [Some 1%Q; None] [[Some 2; Some 1]; [Some 1; Some 3]]%Q (Some (1 # 2)%Q).
(** An indefinite covariance passes, and so does a NaN behind an empty slot. *)
Theorem C171_refuted :
  (exists m x Sx w, n_count m = live_slots m /\ n_slots m = [Some gIndef] /\ numeric gIndef x Sx w /\ square 2 Sx /\ ~ pos_def 2 Sx /\
     check_maps [m] = Val true) /\
  (exists m, n_count m = live_slots m /\ In (Some gNan) (n_slots m) /\ In None (u_x gNan) /\ check_maps [m] = Val true).
Proof.
  split.
  - exists (NMap 1 [Some gIndef]), [1; 2]%Q, [[1; 2]; [2; 1]]%Q, (1 # 2)%Q. split; [reflexivity|]. split; [reflexivity|].
    split; [repeat split|]. split; [split; [reflexivity|]; intros r [<-|[<-|[]]]; reflexivity|]. split; [|reflexivity].
    intro H. specialize (H [1; -(1)]%Q eq_refl). assert (0 < quad [[1; 2]; [2; 1]] [1; -(1)])%Q as K.
    { apply H. exists 1%Q. split; [now left|]. intro E. discriminate E. }
    vm_compute in K. discriminate K.
  - exists (NMap 2 [Some gOK; None; Some gNan]). split; [reflexivity|]. split; [right; right; now left|]. split; [right; now left|]. reflexivity.
Qed.
Print Assumptions C171_refuted.

Lemma square_pos : forall a : Q, ~ (a == 0)%Q -> (0 < a * a)%Q.
Proof. intros a H. destruct (Q_dec a 0) as [[L|L]|L]; [nra|nra|tauto]. Qed.
Lemma square_nonneg : forall a : Q, (0 <= a * a)%Q.
Proof. intro a. destruct (Q_dec a 0) as [[L|L]|L]; [nra|nra|rewrite L; discriminate]. Qed.
Example C171_ex : sound_gauss gOK /\ check_maps [NMap 1 [None; Some gOK]; NMap 2 [Some gOK; Some gOK]] = Val true /\
  check_maps [NMap 2 [Some gOK; Some gNan]] = Val false.
Proof.
  split; [|split; reflexivity].
  exists 1%nat, [1; 2]%Q, [[2; 1]; [1; 3]]%Q, (1 # 2)%Q. split; [repeat split|]. split; [reflexivity|].
  split; [split; [reflexivity|]; intros r [<-|[<-|[]]]; reflexivity|].
  intros [|a [|b [|c x]]] Hx Hn; try discriminate Hx. unfold quad. cbn [map dot].
  assert ((2 * a + (1 * b + 0)) * a + ((1 * a + (3 * b + 0)) * b + 0) == a * a + (a + b) * (a + b) + 2 * (b * b))%Q as -> by ring.
  destruct (Qeq_dec a 0) as [Ea|Ea].
  - assert (~ b == 0)%Q as Eb. { destruct Hn as (y & [<-|[<-|[]]] & Hy); tauto. } pose proof (square_pos b Eb). pose proof (square_nonneg a). pose proof (square_nonneg (a + b)%Q). lra.
  - pose proof (square_pos a Ea). pose proof (square_nonneg b). pose proof (square_nonneg (a + b)%Q). lra.
Qed.

(** ** C172 *)
(** Poses: status 0 exactly for a file whose announced numbers are right, and then every row is written
    with the time of its step and its number. *)
Theorem C172_poses : forall A (f out : list (@line A)),
  convert_pose f = (out, 0%Z) <->
  exists n steps rest, f = LSteps n :: flat_map old_step steps ++ rest /\ Z.to_nat n = length steps /\
    (forall s, In s steps -> pstep_ok s) /\ out = flat_map new_step steps.
Proof. intro A. exact convert_pose_iff. Qed.
Print Assumptions C172_poses.

(** Landmarks: always an answer; status 0 exactly if the maps read up to the first line that is not the
    head of a map are right, and then their rows are written. *)
Theorem C172_partial : forall A (f out : list (@line A)),
  (exists r, convert_lmk f = Val r) /\
  (convert_lmk f = Val (out, 0%Z) <->
   exists n np blocks rest, f = LSteps n :: LNPart2 np :: flat_map old_block blocks ++ rest /\
     (forall b, In b blocks -> mblock_ok b) /\ ~ starts_map rest /\ out = flat_map new_block blocks).
Proof. intro A. exact convert_lmk_iff. Qed.
Print Assumptions C172_partial.

(** A map with one row more than announced ends the conversion with status 0: the rest is not written. *)
Theorem C172_refuted : exists f out : list (@line Z), convert_lmk f = Val (out, 0%Z) /\
  length (filter is_lrow f) = 4%nat /\ length out = 1%nat.
Proof.
  exists [LSteps 2; LNPart2 1; LMap 0%Z 0 1; LRow [1; 2; 3; 4; 4; 5; 6]%Z; LRow [1; 2; 3; 4; 4; 5; 7]%Z;
          LMap 1%Z 0 2; LRow [1; 2; 3; 4; 4; 5; 6]%Z; LRow [1; 2; 3; 4; 4; 5; 7]%Z].
  eexists. vm_compute. auto.
Qed.
Print Assumptions C172_refuted.

Definition pose_log : list (@line Z) :=
  [LSteps 2; LTime 0%Z; LNPart 2; LRow [1; 2; 3; 4]%Z; LRow [5; 6; 7; 8]%Z; LTime 1%Z; LNPart 1; LRow [9; 9; 9; 1]%Z].
Definition lmk_log : list (@line Z) :=
  [LSteps 2; LNPart2 2; LMap 0%Z 0 1; LRow [1; 2; 3; 4; 4; 5; 6]%Z; LMap 0%Z 1 0; LMap 1%Z 1 2;
   LRow [1; 2; 3; 4; 4; 5; 6]%Z; LRow [1; 2; 3; 4; 4; 5; 7]%Z].
Example C172_ex :
  convert_pose pose_log = ([LNewPose 0%Z 0 [1; 2; 3; 4]%Z; LNewPose 0%Z 1 [5; 6; 7; 8]%Z; LNewPose 1%Z 0 [9; 9; 9; 1]%Z], 0%Z) /\
  convert_lmk lmk_log = Val ([LNewLmk 0%Z 0 [1; 2; 3; 4; 5; 6]%Z; LNewLmk 1%Z 1 [1; 2; 3; 4; 5; 6]%Z; LNewLmk 1%Z 1 [1; 2; 3; 4; 5; 7]%Z], 0%Z) /\
  convert_pose (firstn 4 pose_log) = ([LNewPose 0%Z 0 [1; 2; 3; 4]%Z], 4%Z).
Proof. vm_compute. auto. Qed.

(** ** C173 *)
(** One run keeps the files it found as .bak, whatever its status. *)
Theorem C173_once : forall A (d d1 : @dir A) s, convert d = Val (d1, s) ->
  d_lmk_bak d1 = d_lmk d /\ d_pose_bak d1 = d_pose d.
Proof. intro A. exact convert_once. Qed.
Print Assumptions C173_once.

Theorem C173_partial : forall A (d : @dir A), d_lmk d <> None -> d_pose d <> None -> exists r, convert d = Val r.
Proof. intro A. exact convert_total. Qed.
Print Assumptions C173_partial.

(** After a successful run two more empty every file. *)
Theorem C173_refuted_exact : forall A (d d1 : @dir A), convert d = Val (d1, 0%Z) ->
  exists d2 d3, convert d1 = Val (d2, 1%Z) /\ convert d2 = Val (d3, 1%Z) /\
    d_lmk d2 = Some [] /\ d_pose d2 = Some [] /\ d_lmk_bak d2 = d_lmk d1 /\ d_pose_bak d2 = d_pose d1 /\
    d3 = Dir (Some []) (Some []) (Some []) (Some []).
Proof. intro A. exact convert_thrice. Qed.
Print Assumptions C173_refuted_exact.

Theorem C173_refuted : exists d d1 d2 : @dir Z, convert d = Val (d1, 0%Z) /\ convert d1 = Val (d2, 1%Z) /\
  d_pose d2 = Some [] /\ d_lmk d2 = Some [] /\ d_pose_bak d2 <> d_pose d /\ d_lmk_bak d2 <> d_lmk d.
Proof.
  exists (Dir (Some lmk_log) None (Some pose_log) None). eexists _, _. split; [vm_compute; reflexivity|].
  split; [vm_compute; reflexivity|]. vm_compute. repeat split; discriminate.
Qed.
Print Assumptions C173_refuted.

Example C173_ex : exists d1, convert (Dir (Some lmk_log) (Some []) (Some pose_log) None) = Val (d1, 0%Z) /\
  d_pose_bak d1 = Some pose_log /\ convert (Dir (Some lmk_log) None None None) = UB Aborted.
Proof. eexists. split; [vm_compute; reflexivity|]. split; reflexivity. Qed.

(** ** C174 *)
Theorem C174 : forall A T np nr (p : @pose A T) (x r : list A), (np + nr <= length (ps_x p))%nat -> length x = np -> length r = nr ->
  getPos np (setPos np x p) = x /\ getRot np nr (setPos np x p) = getRot np nr p /\
  getRot np nr (setRot np nr r p) = r /\ getPos np (setRot np nr r p) = getPos np p /\
  ps_t (setPos np x p) = ps_t p /\ ps_t (setRot np nr r p) = ps_t p /\
  skipn (np + nr) (ps_x (setPos np x p)) = skipn (np + nr) (ps_x p) /\
  skipn (np + nr) (ps_x (setRot np nr r p)) = skipn (np + nr) (ps_x p) /\
  length (ps_x (setPos np x p)) = length (ps_x p) /\ length (ps_x (setRot np nr r p)) = length (ps_x p) /\
  setPos np x (setRot np nr r p) = setRot np nr r (setPos np x p) /\
  setPos np (getPos np p) p = p /\ setRot np nr (getRot np nr p) p = p.
Proof. intros A T. exact pose_parts. Qed.
Print Assumptions C174.
Theorem C174_time : forall A T np nr (p : @pose A T) (x r : list A) t,
  setPosT np x t p = setPos np x (Pose (ps_x p) t) /\ setRotT np nr r t p = setRot np nr r (Pose (ps_x p) t).
Proof. intros A T. exact pose_parts_t. Qed.
Print Assumptions C174_time.
Example C174_ex : getRot 2 1 (setPos 2 [7; 8]%Z (Pose [1; 2; 3; 4]%Z 5%Z)) = [3%Z] /\
  setRot 2 1 [9%Z] (Pose [1; 2; 3; 4]%Z 5%Z) = Pose [1; 2; 9; 4]%Z 5%Z.
Proof. vm_compute. auto. Qed.
