(** The gradients of a scan for the blocks that the partition yields. *)
From Coq Require Import Reals ZArith List Bool Arith Lia Lra Permutation Sorted.
From Coquelicot Require Import Coquelicot.
From Verif Require Import Base ListUtil SensorModel SensorDeriv OdometryModel OdometryProofs OdometryProofs2 OdometryWitness CeresGradModel CeresGradSpec CeresGradProofs
  CeresGradProofs2 CeresGradProofs3.
Import ListNotations.
Local Open Scope R_scope.

Lemma blocks_rows : forall ent nR nC bl, blocks_of ent nR nC bl -> NoDup (flat_map b_rows bl) /\ forall m, In m (flat_map b_rows bl) -> (m < nR)%nat.
Proof.
  intros ent nR nC bl (H & _). split.
  - eapply Permutation_NoDup; [apply Permutation_sym; exact H|apply seq_NoDup].
  - intros m Hm. assert (K : In m (seq 0 nR)) by (eapply Permutation_in; [exact H|exact Hm]). apply in_seq in K. lia.
Qed.

Theorem by_landmarks : forall D lik lmg psg pd clu da thr M nZ integral bl kb Hs (v : nat -> vec),
  let fv := g_fov pd M in let ent t := g_entry (lik t) pd clu da thr fv in
  fv <> [] -> settled da nZ -> blocks_of (ent 0) (length fv) nZ bl ->
  locally 0 (fun t => all_ranked (ent t) bl (kb t) Hs) ->
  (forall j n, is_derive (fun t => lik t j n) 0 (dot D (lmg 0 j n) (v j))) ->
  exists V lg pg,
    locally 0 (fun t => exists lg' pg', g_scan (lik t) (lmg t) (psg t) pd clu da thr M nZ integral bl (kb t) = Val (V t, lg', pg')) /\
    g_scan (lik 0) (lmg 0) (psg 0) pd clu da thr M nZ integral bl (kb 0) = Val (V 0, lg, pg) /\
    is_derive V 0 (rsum (fun m => dot D (lg m) (v (nth m fv 0%nat))) (seq 0 (length fv))).
Proof.
  intros D lik lmg psg pd clu da thr M nZ integral bl kb Hs v fv ent Hfv Hda Hb Hr Hv.
  destruct (blocks_rows _ _ _ _ Hb) as (N & L).
  apply (landmark_gradient D lik lmg psg pd clu da thr M nZ integral bl kb Hs Hfv N L (settled_free _ _ _ _ _ _ _ _ Hb Hda) Hr v Hv).
Qed.

(** All landmarks in view: segment m is landmark m. *)
Theorem by_landmarks_all : forall D lik lmg psg pd clu da thr M nZ integral bl kb Hs (v : nat -> vec),
  let ent t := g_entry (lik t) pd clu da thr (seq 0 M) in
  (0 < M)%nat -> (forall m, (m < M)%nat -> 0 < pd m) -> settled da nZ -> blocks_of (ent 0) M nZ bl ->
  locally 0 (fun t => all_ranked (ent t) bl (kb t) Hs) ->
  (forall j n, is_derive (fun t => lik t j n) 0 (dot D (lmg 0 j n) (v j))) ->
  exists V lg pg,
    locally 0 (fun t => exists lg' pg', g_scan (lik t) (lmg t) (psg t) pd clu da thr M nZ integral bl (kb t) = Val (V t, lg', pg')) /\
    g_scan (lik 0) (lmg 0) (psg 0) pd clu da thr M nZ integral bl (kb 0) = Val (V 0, lg, pg) /\
    is_derive V 0 (rsum (fun m => dot D (lg m) (v m)) (seq 0 M)).
Proof.
  intros D lik lmg psg pd clu da thr M nZ integral bl kb Hs v ent HM Hpd Hda Hb Hr Hv.
  assert (E : g_fov pd M = seq 0 M).
  { unfold g_fov. assert (G : forall l, (forall m, In m l -> (m < M)%nat) -> filter (fun m => if Rlt_dec 0 (pd m) then true else false) l = l).
    { induction l as [|a l IH]; intros H; [reflexivity|]. cbn [filter]. destruct (Rlt_dec 0 (pd a)) as [C|C].
      - f_equal. apply IH. intros. apply H. right. assumption.
      - exfalso. apply C, Hpd, H. left. reflexivity. }
    apply G. intros m Hm. apply in_seq in Hm. lia. }
  destruct (by_landmarks D lik lmg psg pd clu da thr M nZ integral bl kb Hs v) as (V & lg & pg & A & B & C).
  - rewrite E. destruct M; [lia|discriminate].
  - exact Hda.
  - rewrite E, seq_length. exact Hb.
  - rewrite E. exact Hr.
  - exact Hv.
  - exists V, lg, pg. split; [exact A|]. split; [exact B|]. rewrite E, seq_length in C.
    rewrite (rsum_ext _ (fun m => dot D (lg m) (v m)) (fun m => dot D (lg m) (v (nth m (seq 0 M) 0%nat)))); [exact C|].
    intros m Hm. apply in_seq in Hm. rewrite seq_nth by lia. reflexivity.
Qed.

Theorem by_pose : forall D lik lmg psg pd clu da thr M nZ integral bl kb Hs (w : vec),
  let fv := g_fov pd M in let ent t := g_entry (lik t) pd clu da thr fv in
  fv <> [] -> settled da nZ -> blocks_of (ent 0) (length fv) nZ bl ->
  locally 0 (fun t => all_ranked (ent t) bl (kb t) Hs) ->
  (forall j n, is_derive (fun t => lik t j n) 0 (dot D (psg 0 j n) w)) ->
  exists V lg pg Fs,
    locally 0 (fun t => exists lg' pg', g_scan (lik t) (lmg t) (psg t) pd clu da thr M nZ integral bl (kb t) = Val (V t, lg', pg')) /\
    g_scan (lik 0) (lmg 0) (psg 0) pd clu da thr M nZ integral bl (kb 0) = Val (V 0, lg, pg) /\
    best_of (ent 0) bl Hs Fs /\
    is_derive V 0 (dot D pg w - rsum (fun bHf => let b := fst (fst bHf) in
      if b_flag b then excess (ent 0) (fun m n => psg 0 (nth m fv 0%nat) n) D w (b_rows b) (b_cols b) (snd (fst bHf)) (snd bHf) else 0)
      (combine (combine bl Hs) Fs)).
Proof.
  intros D lik lmg psg pd clu da thr M nZ integral bl kb Hs v fv ent Hfv Hda Hb Hr Hv.
  destruct (blocks_rows _ _ _ _ Hb) as (N & L).
  apply (pose_gradient D lik lmg psg pd clu da thr M nZ integral bl kb Hs Hfv N (settled_free _ _ _ _ _ _ _ _ Hb Hda) Hr v Hv).
Qed.

(** ** Bearings *)

(** For independent components the unwrapped residual is the right one if it is at most half a turn:
    adding whole turns to the measurement does not make it more likely. *)
Theorem bearing_near : forall Sinv det h z (k : Z),
  Sinv 0%nat 1%nat = 0 -> Sinv 1%nat 0%nat = 0 -> 0 <= Sinv 1%nat 1%nat -> - PI <= z 1%nat - h 1%nat <= PI ->
  fst (eval_log 2 Sinv det h (vec_of [z 0%nat; z 1%nat + IZR k * (2 * PI)])) <= fst (eval_log 2 Sinv det h z).
Proof.
  intros Sinv det h z k H01 H10 H11 Hz. unfold eval_log, log_gauss. cbn [fst]. unfold mapp, vec_of. cbn [dot nth].
  rewrite ?H01, ?H10.
  set (a := z 0%nat - h 0%nat). set (b := z 1%nat - h 1%nat) in *. replace (z 1%nat + IZR k * (2 * PI) - h 1%nat) with (b + IZR k * (2 * PI)) by (unfold b; ring).
  assert (K : b * b <= (b + IZR k * (2 * PI)) * (b + IZR k * (2 * PI))).
  { pose proof pi_bounds as P. replace ((b + IZR k * (2 * PI)) * (b + IZR k * (2 * PI))) with (b * b + 4 * PI * (IZR k * b + PI * (IZR k * IZR k))) by ring.
    assert (0 <= IZR k * b + PI * (IZR k * IZR k)); [|nra].
    destruct (Z.eq_dec k 0) as [->|Hk]; [lra|]. destruct (Z_lt_le_dec k 0).
    - assert (IZR k <= -1) by (apply IZR_le; lia).
      assert (0 <= (- IZR k) * (PI - b)) by (apply Rmult_le_pos; lra).
      assert (0 <= PI * ((- IZR k) * (- IZR k - 1))) by (apply Rmult_le_pos; [lra|apply Rmult_le_pos; lra]). lra.
    - assert (1 <= IZR k) by (apply IZR_le; lia).
      assert (0 <= IZR k * (PI + b)) by (apply Rmult_le_pos; lra).
      assert (0 <= PI * (IZR k * (IZR k - 1))) by (apply Rmult_le_pos; [lra|apply Rmult_le_pos; lra]). lra. }
  assert (K2 : Sinv 1%nat 1%nat * (b * b) <= Sinv 1%nat 1%nat * ((b + IZR k * (2 * PI)) * (b + IZR k * (2 * PI)))) by (apply Rmult_le_compat_l; assumption).
  lra.
Qed.
