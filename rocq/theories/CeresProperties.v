(** C95, C97 (associations), C99, C100 and C102: RFSCeresSLAM (include/RFSCeresSLAM.hpp). *)
From Coq Require Import ZArith List Bool Arith QArith Qcanon Lia.
From Verif Require Import Base QcLra PermanentSpec PartitionModel PartitionSpec PartitionRef RfsModel RfsSpec RfsProofs2 RfsKbest PsoModel PsoSpec
  CeresModel CeresSpec CeresProofs CeresProofs2 CeresProofs3.
Import ListNotations.
Local Open Scope Qc_scope.

(** C95 up to the factor of the missed landmarks, for all maps, scans, likelihoods and associations
    (either all unknown or false alarms, or all landmarks in view): the value is never negative, and
    never more than the sum over all associations, times exp of minus the integral of the clutter, with
    Pd in place of 1 - Pd for every landmark in view; exactly that if no component of the table has
    more than 201 associations. *)
Theorem C95_value_partial : forall lik pd clu da eps thr eint kbest, kbest_contract kbest ->
  (forall m, 0 <= pd m < 1) -> 0 < eps -> 0 < eint ->
  forall cc ncc M nZ, let fv := visible pd M in
  (forall n, (da n < 0)%Z) \/ fv = seq 0 M ->
  components_of (support (odds lik pd clu da eps thr fv)) 0%Z (length fv) nZ cc ncc ->
  exists v s, c_scan lik pd clu da eps thr eint kbest cc ncc M nZ = Val v /\
  block_sum (pair_weight lik pd clu da eps thr) pd (counted clu da eps) fv (seq 0 nZ) s /\
  0 <= v /\ v * qprod (map (fun m => 1 - pd m) fv) <= s * eint * qprod (map pd fv) /\
  ((forall il jl, component (odds lik pd clu da eps thr fv) (length fv) nZ il jl ->
      few 201 (odds lik pd clu da eps thr fv) (fun _ => 0) (fun _ => 1) il jl) ->
   v * qprod (map (fun m => 1 - pd m) fv) = s * eint * qprod (map pd fv)).
Proof. exact scan_value. Qed.
Print Assumptions C95_value_partial.

Definition qq (a : Z) (b : positive) : Qc := Q2Qc (a # b).
Definition e_pd (p : Qc) (m : nat) : Qc := p.
Definition e_lik (m n : nat) : Qc := if (m =? n)%nat then qq 2 1 else qq 1 10.
Definition e_scan (pd : nat -> Qc) (da : nat -> Z) (M nZ : nat) : outcome Qc :=
  let O := odds e_lik pd (fun _ => qq 1 2) da (qq 1 1000) (qq 1 100) (visible pd M) in
  let n := length (visible pd M) in
  c_scan e_lik pd (fun _ => qq 1 2) da (qq 1 1000) (qq 1 100) (qq 1 3) kbest_ref
    (ref_cc (support O) 0 n nZ) (ref_ncc (support O) 0 n nZ) M nZ.

(** Two landmarks, two measurements of unknown origin and one false alarm. *)
Definition e_da (n : nat) : Z := if (n =? 2)%nat then (-2)%Z else (-1)%Z.
Example C95_ex : (forall m, 0 <= e_pd (qq 3 4) m < 1) /\ (forall n, (e_da n < 0)%Z) /\
  omap this (e_scan (e_pd (qq 3 4)) e_da 2 3) = Val (1599 # 200)%Q.
Proof.
  split; [intros m; split; vm_compute; congruence|]. split; [intros [|[|[|n]]]; reflexivity|]. vm_compute. reflexivity.
Qed.

(** C95 as it stands fails: a landmark that no measurement belongs to contributes Pd and not 1 - Pd. *)
Theorem C95_refuted : exists pd v s, (forall m, 0 <= pd m < 1) /\ e_scan pd (fun _ => (-1)%Z) 1 0 = Val v /\
  block_sum (pair_weight e_lik pd (fun _ => qq 1 2) (fun _ => (-1)%Z) (qq 1 1000) (qq 1 100)) pd (counted (fun _ => qq 1 2) (fun _ => (-1)%Z) (qq 1 1000)) [0%nat] [] s /\
  s * qq 1 3 = qq 1 30 /\ v = qq 9 30.
Proof.
  exists (e_pd (qq 9 10)), (qq 9 30), (qq 1 10). split; [intros m; split; vm_compute; congruence|]. split.
  - assert (E : omap this (e_scan (e_pd (qq 9 10)) (fun _ => (-1)%Z) 1 0) = Val (3 # 10)%Q) by (vm_compute; reflexivity).
    destruct (e_scan (e_pd (qq 9 10)) (fun _ => (-1)%Z) 1 0) as [w| |]; try discriminate. cbn in E. injection E as E. f_equal.
    apply Qc_is_canon. rewrite E. vm_compute. reflexivity.
  - split; [apply block_sum_iff; [apply NoDup_nil|apply Qc_is_canon; vm_compute; reflexivity]|]. split; [apply Qc_is_canon; vm_compute; reflexivity|reflexivity].
Qed.
Print Assumptions C95_refuted.

(** C97 fails for the associations: landmark 0 is out of view, the measurement is known to be of landmark 1, and the
    pair is not considered, because landmark 1 has number 0 in the table. *)
Definition half_pd (m : nat) : Qc := if (m =? 0)%nat then 0 else qq 1 2.
Theorem C97_association_refuted : exists v s, (forall m, 0 <= half_pd m < 1) /\ e_scan half_pd (fun _ => 1%Z) 2 1 = Val v /\
  pair_weight e_lik half_pd (fun _ => qq 1 2) (fun _ => 1%Z) (qq 1 1000) (qq 1 100) 1 0 = qq 1 20 /\
  odds e_lik half_pd (fun _ => qq 1 2) (fun _ => 1%Z) (qq 1 1000) (qq 1 100) (visible half_pd 2) 0 0 = 0 /\
  block_sum (pair_weight e_lik half_pd (fun _ => qq 1 2) (fun _ => 1%Z) (qq 1 1000) (qq 1 100)) half_pd (counted (fun _ => qq 1 2) (fun _ => 1%Z) (qq 1 1000)) (visible half_pd 2) [0%nat] s /\
  v * qprod (map (fun m => 1 - half_pd m) (visible half_pd 2)) < s * qq 1 3 * qprod (map half_pd (visible half_pd 2)).
Proof.
  exists (qq 1 6000), (qq 101 2000). split; [intros [|m]; split; vm_compute; congruence|]. split.
  - assert (E : omap this (e_scan half_pd (fun _ => 1%Z) 2 1) = Val (1 # 6000)%Q) by (vm_compute; reflexivity).
    destruct (e_scan half_pd (fun _ => 1%Z) 2 1) as [w| |]; try discriminate. cbn in E. injection E as E. f_equal.
    apply Qc_is_canon. rewrite E. vm_compute. reflexivity.
  - split; [apply Qc_is_canon; vm_compute; reflexivity|]. split; [apply Qc_is_canon; vm_compute; reflexivity|].
    split; [apply block_sum_iff; [repeat constructor; intros []|apply Qc_is_canon; vm_compute; reflexivity]|]. vm_compute. reflexivity.
Qed.
Print Assumptions C97_association_refuted.

Local Open Scope nat_scope.

(** ** C99: the initial map *)
(** For all scans: as many landmarks as the greatest association says, landmark j made from the first measurement that is
    associated with it, followed by one for every measurement of unknown association that is drawn, in order.  A landmark
    that no measurement is associated with is a default one. *)
Theorem C99_map_partial : forall (M L : Type) (inverse : nat -> M -> L) dflt draw scans, let l := timed 0 scans in
  initMap inverse dflt draw scans =
  map (fun j => match first_of j l with Some (k, z) => inverse k z | None => dflt end) (seq 0 (count_known l)) ++
  map (fun p => inverse (fst p) (snd p)) (selected draw 0 (unknown l)).
Proof. exact @initMap_exact. Qed.
Print Assumptions C99_map_partial.

(** Two scans; measurement 13 starts landmark 1, measurement 12 is the second one of landmark 0. *)
Definition e_scans : list (list (nat * Z)) := [[(10, 0%Z); (11, (-1)%Z)]; [(12, 0%Z); (13, 1%Z); (14, (-1)%Z); (15, (-2)%Z)]].
Example C99_ex : initMap (fun k z => (k, z)) (9, 9) (fun i => i =? 1) e_scans = [(0, 10); (1, 13); (1, 14)].
Proof. vm_compute. reflexivity. Qed.

(** Every landmark comes from a measurement: not if the associations leave a number out. *)
Theorem C99_refuted : exists scans : list (list (nat * Z)), forall dflt, initMap (fun k z => (k, z)) dflt (fun _ => false) scans = [dflt; (0, 10)].
Proof. exists [[(10, 1%Z)]]. intros dflt. reflexivity. Qed.
Print Assumptions C99_refuted.

(** ** C100: the parameter vector *)
(** init writes all poses but the first, and the landmarks, one behind the other. *)
Theorem C100_init : forall (A : Type) P D p0 (traj lms : list (list A)), wide P traj -> wide D lms ->
  c_init P D (p0 :: traj) lms = Val (map (@Some A) (concat traj ++ concat lms)).
Proof. exact @init_layout. Qed.
Print Assumptions C100_init.

(** Evaluate gives the same poses and landmarks back, whatever it held before, with the first pose at zero. *)
Theorem C100_load : forall (A : Type) (zero : A) P D p0 traj lms p0' traj' lms', wide P traj -> wide D lms -> length p0' = P -> wide P traj' -> wide D lms' ->
  length traj = length traj' -> length lms = length lms' -> p0 = repeat zero P ->
  c_load zero P D (concat traj ++ concat lms) (p0' :: traj') lms' = Val (p0 :: traj, lms).
Proof. exact @load_layout. Qed.
Print Assumptions C100_load.

(** Every vector of the right length stands for a trajectory and a map. *)
Theorem C100_onto : forall (A : Type) (zero : A) P D a p0' traj' lms', length p0' = P -> wide P traj' -> wide D lms' ->
  length a = num_parameters P D (S (length traj')) (length lms') ->
  exists traj lms, c_load zero P D a (p0' :: traj') lms' = Val (repeat zero P :: traj, lms) /\
  wide P traj /\ wide D lms /\ length traj = length traj' /\ length lms = length lms' /\
  c_init P D (repeat zero P :: traj) lms = Val (map (@Some A) a).
Proof. exact @load_onto. Qed.
Print Assumptions C100_onto.

(** The gradient has the layout of the parameters, with the sign turned, since the solver minimises. *)
Theorem C100_gradient : forall (A : Type) P D neg nT nL tg lg (g : list (option A)), length tg = (nT - 1) * P -> length lg = nL * D ->
  length g = num_parameters P D nT nL -> c_gradient P neg nT tg lg g = Val (map (@Some A) (map neg (tg ++ lg))).
Proof. exact @gradient_layout. Qed.
Print Assumptions C100_gradient.

Example C100_ex : wide 3 [[1; 2; 3]; [4; 5; 6]] /\ wide 2 [[7; 8]] /\
  c_init 3 2 [[0; 0; 0]; [1; 2; 3]; [4; 5; 6]] [[7; 8]] = Val (map (@Some nat) [1; 2; 3; 4; 5; 6; 7; 8]) /\
  c_load 0 3 2 [1; 2; 3; 4; 5; 6; 7; 8] [[9; 9; 9]; [9; 9; 9]; [9; 9; 9]] [[9; 9]] = Val ([[0; 0; 0]; [1; 2; 3]; [4; 5; 6]], [[7; 8]]) /\
  num_parameters 3 2 3 1 = 8 /\ c_gradient 3 (Nat.add 10) 3 [1; 2; 3; 4; 5; 6] [7; 8] (repeat None 8) = Val (map (@Some nat) [11; 12; 13; 14; 15; 16; 17; 18]).
Proof. repeat split; repeat constructor. Qed.

(** ** C102: scans and motions of an evaluation *)
(** After setInputs with at least one input and any number of calls of addMeasurement that return: every measurement is compared
    with the pose of its time, every motion joins successive poses with the input between them and the time that passed. *)
Theorem C102_partial : forall (I M : Type) itime mtime us (b : batch (I := I) (M := M * Z)),
  filled itime (fun p => mtime (fst p)) us b -> us <> [] ->
  exists ss ms, c_compared b = Val (ss, ms) /\ length ss = S (length us) /\ length ms = length us /\
  (forall k j zl, nth_error ss k = Some (j, zl) -> j = k /\ nth_error (zs b) k = Some zl /\
     forall z da, In (z, da) zl -> pose_time itime b k = Some (mtime z)) /\
  (forall i k1 k0 u dt, nth_error ms i = Some (k1, k0, u, dt) -> k1 = S i /\ k0 = i /\ nth_error us i = Some u /\
     pose_time itime b k1 = Some (itime u) /\ exists t0, pose_time itime b k0 = Some t0 /\ dt = (itime u - t0)%Z).
Proof. exact @c_compared_right. Qed.
Print Assumptions C102_partial.

Example C102_ex : exists b : batch (I := Z) (M := Z * Z), filled (fun x => x) (fun p => fst p) [2; 5]%Z b /\
  c_compared b = Val ([(0, [(0, -1)%Z]); (1, []); (2, [(5, 0)%Z; (5, -1)%Z])], [(1, 0, 2%Z, 2%Z); (2, 1, 5%Z, 3%Z)]).
Proof.
  eexists. split.
  - eapply filled_meas with (z := (5, -1)%Z); [eapply filled_meas with (z := (0, -1)%Z); [eapply filled_meas with (z := (5, 0)%Z); [apply filled_set|] |] |]; vm_compute; reflexivity.
  - vm_compute. reflexivity.
Qed.

(** Without an input, and after addInput, the evaluation reads behind the end of time_; with fewer associations than
    measurements addMeasurement does. *)
Theorem C102_refuted : c_compared (c_setInputs (fun x : Z => x) [] (BT [] [] [])) (M := Z) = UB OutOfBounds /\
  c_compared (c_addInput (fun x : Z => x) 2%Z (c_addInput (fun x : Z => x) 1%Z (BT [] [] []))) (M := Z) = UB OutOfBounds /\
  exists zl das, length das < length zl /\
    c_addMeasurements (fun x : Z => x) zl das (c_setInputs (fun x : Z => x) [1%Z; 2%Z] (BT [] [] [])) = UB OutOfBounds.
Proof.
  split; [vm_compute; reflexivity|]. split; [vm_compute; reflexivity|]. exists [1; 2]%Z, [0]%Z. split; [cbn; lia|]. vm_compute. reflexivity.
Qed.
Print Assumptions C102_refuted.
