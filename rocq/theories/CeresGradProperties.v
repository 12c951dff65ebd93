(** C96-C98, C101 and C103: the gradients of RFSCeresSLAM (include/RFSCeresSLAM.hpp). *)
From Coq Require Import Reals ZArith List Bool Arith Lia Lra Permutation Sorted.
From Coquelicot Require Import Coquelicot.
From Verif Require Import Base SensorModel SensorDeriv PartitionModel PartitionSpec OdometryModel OdometryProofs OdometryProofs2 OdometryWitness CeresGradModel CeresGradSpec
  CeresGradProofs CeresGradProofs2 CeresGradProofs3 CeresGradProofs4 CeresWitness.
Import ListNotations.
Local Open Scope R_scope.

(** ** C96: the gradient of a scan
    Along every curve t -> (landmarks, pose) on which the set of associations considered is the same
    around t = 0, with the detection probabilities constant (the code does not differentiate them). *)

(** By the landmarks: exact, for any number of landmarks, measurements, blocks and associations. *)
Theorem C96_landmark_partial : forall D lik lmg psg pd clu da thr M nZ integral bl kb Hs (v : nat -> vec),
  let fv := g_fov pd M in let ent t := g_entry (lik t) pd clu da thr fv in
  fv <> [] -> settled da nZ -> blocks_of (ent 0) (length fv) nZ bl ->
  locally 0 (fun t => all_ranked (ent t) bl (kb t) Hs) ->
  (forall j n, is_derive (fun t => lik t j n) 0 (dot D (lmg 0 j n) (v j))) ->
  exists V lg pg,
    locally 0 (fun t => exists lg' pg', g_scan (lik t) (lmg t) (psg t) pd clu da thr M nZ integral bl (kb t) = Val (V t, lg', pg')) /\
    g_scan (lik 0) (lmg 0) (psg 0) pd clu da thr M nZ integral bl (kb 0) = Val (V 0, lg, pg) /\
    is_derive V 0 (rsum (fun m => dot D (lg m) (v (nth m fv 0%nat))) (seq 0 (length fv))).
Proof. exact by_landmarks. Qed.
Print Assumptions C96_landmark_partial.

(** By the pose: the derivative is the returned gradient less the excess of every block, which vanishes only if the
    best association has all the weight or the others have the same gradient. *)
Theorem C96_pose_partial : forall D lik lmg psg pd clu da thr M nZ integral bl kb Hs (w : vec),
  let fv := g_fov pd M in let ent t := g_entry (lik t) pd clu da thr fv in
  fv <> [] -> settled da nZ -> blocks_of (ent 0) (length fv) nZ bl ->
  locally 0 (fun t => all_ranked (ent t) bl (kb t) Hs) ->
  (forall j n, is_derive (fun t => lik t j n) 0 (dot D (psg 0 j n) w)) ->
  exists V lg pg Fs,
    locally 0 (fun t => exists lg' pg', g_scan (lik t) (lmg t) (psg t) pd clu da thr M nZ integral bl (kb t) = Val (V t, lg', pg')) /\
    g_scan (lik 0) (lmg 0) (psg 0) pd clu da thr M nZ integral bl (kb 0) = Val (V 0, lg, pg) /\
    best_of (ent 0) bl Hs Fs /\
    is_derive V 0 (dot D pg w - rsum (fun bHf => let b := fst (fst bHf) in
      if b_flag b then excess (ent 0) (fun m n => psg 0 (nth m fv 0%nat) n) D w (b_rows b) (b_cols b) (snd (fst bHf)) (snd bHf) else 0)
      (combine (combine bl Hs) Fs)).
Proof. exact by_pose. Qed.
Print Assumptions C96_pose_partial.

(** A single pair: Jacobian transposed times the normalised error is the gradient of the log-likelihood,
    by landmark or pose, for a symmetric and constant inverse covariance and the true Jacobian. *)
Theorem C96_pair_partial : forall n D Sinv det z (h : R -> vec) (J : mx) (w : vec), (forall i j, (i < n)%nat -> (j < n)%nat -> Sinv i j = Sinv j i) ->
  (forall i, (i < n)%nat -> is_derive (fun t => h t i) 0 (dot D (J i) w)) ->
  is_derive (fun t => fst (eval_log n Sinv det (h t) z)) 0 (dot D (pair_grad n J (snd (eval_log n Sinv det (h 0) z))) w).
Proof. exact pair_gradient. Qed.
Print Assumptions C96_pair_partial.

(** One landmark in view with detection probability one half and one measurement of unknown origin: two associations. *)
Example C96_ex : g_fov w_pd 1 <> [] /\ settled (fun _ => (-1)%Z) 1 /\
  blocks_of (g_entry (w_lik 0) w_pd (fun _ => 0) (fun _ => (-1)%Z) 0 (g_fov w_pd 1)) (length (g_fov w_pd 1)) 1 w_bl /\
  locally 0 (fun t => all_ranked (g_entry (w_lik t) w_pd (fun _ => 0) (fun _ => (-1)%Z) 0 (g_fov w_pd 1)) w_bl w_kb w_kb) /\
  (forall j n, is_derive (fun t => w_lik t j n) 0 (dot 1 (one j n) (fun _ => 1))).
Proof.
  rewrite (proj1 w_fov). split; [discriminate|]. split; [apply w_settled|]. split; [|split; [apply w_near; reflexivity|exact w_der]].
  apply (w_blocks _ (1 + 0)). apply w_entry; [reflexivity|lra].
Qed.
Example C96_pair_ex : is_derive (fun t => fst (eval_log 1 id_mx 1 (fun _ => 3 * t) (fun _ => 2))) 0 6.
Proof.
  evar_last; [apply (C96_pair_partial 1 1 id_mx 1 (fun _ => 2) (fun t _ => 3 * t) (fun _ _ => 3) (fun _ => 1))|].
  - intros i j Hi Hj. unfold id_mx. rewrite Nat.eqb_sym. reflexivity.
  - intros i _. cbn [dot]. auto_derive; [exact I|ring].
  - match goal with |- @eq _ ?l ?r => change (@eq R l r) end. unfold pair_grad, eval_log, mapp, tr, id_mx. cbn [dot snd Nat.eqb]. ring.
Qed.

(** In this world the gradient by the pose is not the derivative of the value. *)
Theorem C96_refuted : exists V lg pg d,
  locally 0 (fun t => exists lg' pg', g_scan (w_lik t) one one w_pd (fun _ => 0) (fun _ => (-1)%Z) 0 1 1 0 w_bl w_kb = Val (V t, lg', pg')) /\
  g_scan (w_lik 0) one one w_pd (fun _ => 0) (fun _ => (-1)%Z) 0 1 1 0 w_bl w_kb = Val (V 0, lg, pg) /\
  is_derive V 0 d /\ d <> dot 1 pg (fun _ => 1).
Proof. exact w_pose. Qed.
Print Assumptions C96_refuted.

(** ** C97: segments of the gradient *)
(** With all landmarks in view, segment m is the gradient by landmark m. *)
Theorem C97_partial : forall D lik lmg psg pd clu da thr M nZ integral bl kb Hs (v : nat -> vec),
  let ent t := g_entry (lik t) pd clu da thr (seq 0 M) in
  (0 < M)%nat -> (forall m, (m < M)%nat -> 0 < pd m) -> settled da nZ -> blocks_of (ent 0) M nZ bl ->
  locally 0 (fun t => all_ranked (ent t) bl (kb t) Hs) ->
  (forall j n, is_derive (fun t => lik t j n) 0 (dot D (lmg 0 j n) (v j))) ->
  exists V lg pg,
    locally 0 (fun t => exists lg' pg', g_scan (lik t) (lmg t) (psg t) pd clu da thr M nZ integral bl (kb t) = Val (V t, lg', pg')) /\
    g_scan (lik 0) (lmg 0) (psg 0) pd clu da thr M nZ integral bl (kb 0) = Val (V 0, lg, pg) /\
    is_derive V 0 (rsum (fun m => dot D (lg m) (v m)) (seq 0 M)).
Proof. exact by_landmarks_all. Qed.
Print Assumptions C97_partial.

Example C97_ex : (0 < 1)%nat /\ (forall m, (m < 1)%nat -> 0 < w_pd m) /\
  blocks_of (g_entry (w_lik 0) w_pd (fun _ => 0) (fun _ => (-1)%Z) 0 (seq 0 1)) 1 1 w_bl /\
  locally 0 (fun t => all_ranked (g_entry (w_lik t) w_pd (fun _ => 0) (fun _ => (-1)%Z) 0 (seq 0 1)) w_bl w_kb w_kb).
Proof.
  split; [lia|]. split; [intros; unfold w_pd; lra|]. split; [|apply w_near; reflexivity].
  apply (w_blocks _ (1 + 0)). apply w_entry; [reflexivity|lra].
Qed.

(** Landmark 0 is out of view: the gradient by landmark 1 is written to the segment of landmark 0. *)
Theorem C97_refuted : w_pd2 0%nat = 0 /\ exists V lg pg,
  locally 0 (fun t => exists lg' pg', g_scan (w_lik t) one one w_pd2 (fun _ => 0) (fun _ => (-1)%Z) 0 2 1 0 w_bl w_kb = Val (V t, lg', pg')) /\
  g_scan (w_lik 0) one one w_pd2 (fun _ => 0) (fun _ => (-1)%Z) 0 2 1 0 w_bl w_kb = Val (V 0, lg, pg) /\
  is_derive V 0 (lg 0%nat 0%nat) /\ lg 0%nat 0%nat <> 0 /\ lg 1%nat 0%nat = 0.
Proof. split; [reflexivity|exact w_segment]. Qed.
Print Assumptions C97_refuted.

(** ** C98: the evaluation returns *)
(** If no measurement is known to belong to a landmark, or the origin of all is known, every scan is evaluated, whatever
    Murty's algorithm returns. *)
Theorem C98_partial : forall lik lmg psg pd clu da thr M nZ integral bl kb,
  let fv := g_fov pd M in
  blocks_of (g_entry lik pd clu da thr fv) (length fv) nZ bl -> settled da nZ -> length kb = length bl -> (forall k, In k kb -> k <> []) ->
  exists r, g_scan lik lmg psg pd clu da thr M nZ integral bl kb = Val r.
Proof. exact scan_returns. Qed.
Print Assumptions C98_partial.

(** The blocks are what the partition of the table yields. *)
Theorem C98_blocks_partial : forall ent nR nC cc ncc, (nR + nC <> 0)%nat -> components_of (fin ent) 0 nR nC cc ncc ->
  exists g bl, partition cc ncc (cg_new (fin ent) nR nC 0) = Val (g, length bl) /\ blocks_of ent nR nC bl /\
  forall p b, nth_error bl p = Some b -> exists g' a, getPartition g p true = Val (g', Got (Some a) (b_rows b) (b_cols b) (b_flag b)).
Proof. exact blocks_exist. Qed.
Print Assumptions C98_blocks_partial.

Example C98_ex : let fv := g_fov w_pd 1 in
  blocks_of (g_entry (w_lik 0) w_pd (fun _ => 0) (fun _ => (-1)%Z) 0 fv) (length fv) 1 w_bl /\ settled (fun _ => (-1)%Z) 1 /\
  length w_kb = length w_bl /\ (forall k, In k w_kb -> k <> []).
Proof.
  cbv zeta. rewrite (proj1 w_fov). split; [apply (w_blocks _ (1 + 0)), w_entry; [reflexivity|lra]|]. split; [apply w_settled|]. split; [reflexivity|].
  intros k [<-|[]]. discriminate.
Qed.

(** Two landmarks; measurement 0 is known to be of landmark 0, measurement 1 is unknown: whatever the order among equal scores, the second
    association of the pair ( 1, 0 ), whose gradient does not exist, is reached and at() throws. *)
Theorem C98_refuted : exists lik pd da M nZ bl, blocks_of (g_entry lik pd (fun _ => 0) da 0 (g_fov pd M)) (length (g_fov pd M)) nZ bl /\ (forall m, 0 < pd m < 1) /\
  (forall lmg psg integral outs, (length outs <= 201)%nat -> List.Forall (fun a => length a = 4%nat) outs ->
     sorted_by (g_score (g_entry lik pd (fun _ => 0) da 0 (g_fov pd M)) [0; 1]%nat [0; 1]%nat 0) outs -> In [0; 1; 2; 3]%nat outs -> In [1; 0; 2; 3]%nat outs ->
     g_scan lik lmg psg pd (fun _ => 0) da 0 M nZ integral bl [outs] = UB Aborted) /\
  (exists outs, (length outs <= 201)%nat /\ List.Forall (fun a => length a = 4%nat) outs /\
     sorted_by (g_score (g_entry lik pd (fun _ => 0) da 0 (g_fov pd M)) [0; 1]%nat [0; 1]%nat 0) outs /\ In [0; 1; 2; 3]%nat outs /\ In [1; 0; 2; 3]%nat outs).
Proof.
  exists x_lik, w_pd, x_da, 2%nat, 2%nat, x_bl. rewrite x_fov. split; [exact x_blocks|]. split; [intros m; unfold w_pd; lra|]. split; [exact x_abort|].
  destruct (can_sort (g_score x_ent [0; 1]%nat [0; 1]%nat 0) [[0; 1; 2; 3]; [1; 0; 2; 3]]%nat) as (outs & P & S). exists outs.
  split; [rewrite <- (Permutation_length P); cbn; lia|]. split; [eapply Permutation_Forall; [exact P|repeat constructor]|]. split; [exact S|].
  split; eapply Permutation_in; try exact P; cbn; auto.
Qed.
Print Assumptions C98_refuted.

(** ** C101: the gradient of the motion *)
(** For any number of poses: exact if the prediction is the previous pose plus the input. *)
Theorem C101_partial : forall n Sinv det (u : nat -> vec) (x : R -> nat -> vec) (v : nat -> vec) nT, (2 <= nT)%nat ->
  (forall i j, (i < n)%nat -> (j < n)%nat -> Sinv i j = Sinv j i) ->
  (forall i, v 0%nat i = 0) -> (forall k i, (i < n)%nat -> is_derive (fun t => x t k i) 0 (v k i)) ->
  let f t k := log_likelihood_grad n Sinv det (fun i => x t (k - 1)%nat i + u k i) (x t k) in
  is_derive (fun t => fst (motion_grad (f t) nT)) 0 (rsum (fun j => dot n (snd (motion_grad (f 0) nT) j) (v (S j))) (seq 0 (nT - 1))).
Proof. exact motion_shift. Qed.
Print Assumptions C101_partial.

(** Three poses on a line, the second and third moving. *)
Example C101_ex : let x (t : R) (k : nat) : vec := fun _ => INR k * t in let f t k := log_likelihood_grad 1 id_mx 1 (fun i => x t (k - 1)%nat i + 1) (x t k) in
  is_derive (fun t => fst (motion_grad (f t) 3)) 0 2 /\
  rsum (fun j => dot 1 (snd (motion_grad (f 0) 3) j) (fun _ => INR (S j))) (seq 0 2) = 2.
Proof.
  intros x f.
  assert (E : rsum (fun j => dot 1 (snd (motion_grad (f 0) 3) j) (fun _ => INR (S j))) (seq 0 2) = 2).
  { unfold motion_grad, rsum, f, x, log_likelihood_grad, mapp, id_mx. cbn [Nat.sub seq fold_left fold_right snd fst Nat.eqb dot INR]. ring. }
  split; [|exact E]. rewrite <- E. apply (C101_partial 1 id_mx 1 (fun _ _ => 1) x (fun k _ => INR k) 3); [lia| | |].
  - intros i j Hi Hj. unfold id_mx. rewrite Nat.eqb_sym. reflexivity.
  - reflexivity.
  - intros k i _. unfold x. auto_derive; [exact I|ring].
Qed.

(** In the plane it is not: the prediction depends on the heading of the previous pose. *)
Theorem C101_refuted : (forall k i, (i < 3)%nat -> is_derive (fun t => vec2 (turn_pose t k) i) 0 (turn_dir k i)) /\ (forall i, turn_dir 0 i = 0) /\
  let f t k := log_likelihood_grad 3 id_mx 1 (vec2 (move_2d (turn_pose t (k - 1)) (turn_input k))) (vec2 (turn_pose t k)) in
  is_derive (fun t => fst (motion_grad (f t) 3)) 0 1 /\
  rsum (fun j => dot 3 (snd (motion_grad (f 0) 3) j) (turn_dir (S j))) (seq 0 2) = 0.
Proof. split; [exact turn_poses|]. split; [reflexivity|]. split; [exact turn_derivative|exact turn_gradient]. Qed.
Print Assumptions C101_refuted.

(** ** C103: bearings and whole turns *)
(** For independent range and bearing: if the bearings differ by at most half a turn, adding whole turns does not make the
    measurement more likely. *)
Theorem C103_partial : forall Sinv det h z (k : Z),
  Sinv 0%nat 1%nat = 0 -> Sinv 1%nat 0%nat = 0 -> 0 <= Sinv 1%nat 1%nat -> - PI <= z 1%nat - h 1%nat <= PI ->
  fst (eval_log 2 Sinv det h (vec_of [z 0%nat; z 1%nat + IZR k * (2 * PI)])) <= fst (eval_log 2 Sinv det h z).
Proof. exact bearing_near. Qed.
Print Assumptions C103_partial.

Example C103_ex : id_mx 0%nat 1%nat = 0 /\ id_mx 1%nat 0%nat = 0 /\ 0 <= id_mx 1%nat 1%nat /\ - PI <= vec_of [5; 1] 1%nat - vec_of [4; -1] 1%nat <= PI.
Proof. pose proof pi_bounds. unfold id_mx, vec_of. cbn [Nat.eqb nth]. lra. Qed.

(** Two bearings on both sides of the border: the residual is not wrapped. *)
Theorem C103_refuted : exists h z : vec, exists k : Z, -PI < h 1%nat <= PI /\ -PI < z 1%nat <= PI /\
  fst (eval_log 2 id_mx 1 h z) < fst (eval_log 2 id_mx 1 h (vec_of [z 0%nat; z 1%nat + IZR k * (2 * PI)])).
Proof. exact bearing_border. Qed.
Print Assumptions C103_refuted.
