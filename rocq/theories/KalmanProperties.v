(** Theorems about KalmanFilter::correct and static prediction. *)
From Coq Require Import List Bool Arith ZArith QArith Qcanon.
From Verif Require Import Base ListUtil QcLra KalmanModel KalmanSpec KalmanProofs KalmanProofs2.
Import ListNotations.
Local Open Scope Qc_scope.

Definition q (n : Z) (d : positive) : Qc := Q2Qc (n # d).
Definition cfg_ex : cfg1 := Cfg1 (q 1 4) (q 5 1) (q 3 10).
Definition lik_ex : exp1 -> Qc -> option Qc := fun _ _ => Some 1.

(** * C48 *)

(** Scalar models: every call that comes back with true (which calls do, see below). *)
Theorem C48_step : forall lik checked c pose z m P old zl md o,
  0 <= P -> 0 <= g_var pose -> 0 <= c_R c -> 0 < P + g_var pose + c_R c ->
  correct1 lik checked c pose z (G1 m P) old zl md = Val o -> o_ret o = true ->
  0 <= g_var (o_lmk o) /\ g_var (o_lmk o) <= P /\ between m (g_mean pose + z) (g_mean (o_lmk o)).
Proof. exact step1_ok. Qed.
Print Assumptions C48_step.

Example C48_step_ex : exists o,
  correct1 lik_ex true cfg_ex (G1 (q 1 1) (q 1 4)) (q 2 1) (G1 (q 2 1) (q 1 2)) (G1 0 0) None None = Val o /\
  o_ret o = true /\ g_mean (o_lmk o) = q 5 2 /\ g_var (o_lmk o) = q 1 4.
Proof.
  eexists. split; [vm_compute; reflexivity|]. split; [reflexivity|].
  split; apply Qc_is_canon; reflexivity.
Qed.

(** A sequence of corrections: information adds up over the accepted measurements. *)
Theorem C48_run : forall lik checked c l cur flags fin,
  0 < c_R c -> 0 < g_var cur -> (forall pz, In pz l -> 0 <= g_var (fst pz)) ->
  run1 lik checked c l cur = Val (flags, fin) ->
  length flags = length l /\ 0 < g_var fin /\
  / g_var fin = / g_var cur + sumf (info (c_R c)) (taken l flags) /\
  g_mean fin * / g_var fin = g_mean cur * / g_var cur + sumf (info_mean (c_R c)) (taken l flags).
Proof. exact run1_info. Qed.
Print Assumptions C48_run.

(** Three measurements, the second of a landmark beyond the range limit. *)
Example C48_run_ex : exists flags fin,
  run1 lik_ex true cfg_ex
    [(G1 (q 1 1) 0, q 2 1); (G1 (q (-9) 1) 0, q 12 1); (G1 0 (q 1 4), q 4 1)] (G1 (q 2 1) (q 1 4))
  = Val (flags, fin) /\ flags = [true; false; true] /\ g_var fin = q 1 10 /\ g_mean fin = q 14 5.
Proof.
  do 2 eexists. split; [vm_compute; reflexivity|]. split; [reflexivity|].
  split; apply Qc_is_canon; reflexivity.
Qed.

(** * C72 *)

(** When the model produces a valid expected measurement, the call for several measurements
    leaves at every index what the call for that measurement alone leaves, 0 for the
    likelihood and distance of a rejected one; all vectors have one entry per measurement. *)
Theorem C72_valid_partial :
  forall Pose Lmk Meas Exp Inn measure innovation update is_zero lik maha lmk_new,
  forall (pose : Pose) (zs : list Meas) (cur : Lmk) (s : outs Lmk) (e : Exp), measure pose cur = (true, e) ->
  exists s', @correct_batch Pose Lmk Meas Exp Inn measure innovation update lik maha lmk_new pose zs cur s = Val (true, s') /\
    length (b_lmk s') = length zs /\ shaped (b_lik s) (length zs) (b_lik s') /\ shaped (b_md s) (length zs) (b_md s') /\
    forall i z, nth_error zs i = Some z -> exists o,
      correct measure innovation update is_zero lik maha false pose z cur (nth i (b_lmk s) lmk_new)
        (option_map (fun _ => 0) (b_lik s)) (option_map (fun _ => 0) (b_md s)) = Val o /\
      nth_error (b_lmk s') i = Some (o_lmk o) /\
      (b_lik s <> None -> entry (b_lik s') i = (if o_ret o then o_lik o else Some 0)) /\
      (b_lik s <> None -> b_md s <> None -> entry (b_md s') i = (if o_ret o then o_md o else Some 0)).
Proof. exact batch_ok. Qed.
Print Assumptions C72_valid_partial.

Example C72_valid_ex : exists e,
  measure1 cfg_ex (G1 0 0) (G1 (q 2 1) (q 1 4)) = (true, e) /\
  (exists s', correct_batch1 lik_ex cfg_ex (G1 0 0) [q 2 1; q 3 1] (G1 (q 2 1) (q 1 4))
     (Outs [] (Some []) (Some [q 7 1; q 7 1; q 7 1])) = Val (true, s') /\
   map (fun g => this (g_mean g)) (b_lmk s') = [2 # 1; 5 # 2]%Q /\
   option_map (map this) (b_md s') = Some [0 # 1; 2 # 1]%Q).
Proof.
  eexists. split; [vm_compute; reflexivity|].
  eexists. split; [vm_compute; reflexivity|]. split; vm_compute; reflexivity.
Qed.

(** When it does not, the call returns false; with vectors long enough for the measurements the
    likelihoods and distances become 0 and the landmarks keep their old contents and number. *)
Theorem C72_invalid_partial :
  forall Pose Lmk Meas Exp Inn measure innovation update lik maha lmk_new,
  forall (pose : Pose) (zs : list Meas) (cur : Lmk) (s : outs Lmk) (e : Exp), measure pose cur = (false, e) ->
  (long_enough (b_lik s) (length zs) -> long_enough (b_md s) (length zs) ->
   exists s', @correct_batch Pose Lmk Meas Exp Inn measure innovation update lik maha lmk_new pose zs cur s = Val (false, s') /\
    b_lmk s' = b_lmk s /\
    (forall i, entry (b_lik s') i = if Nat.ltb i (length zs) && is_ptr (b_lik s) then Some 0 else entry (b_lik s) i) /\
    (forall i, entry (b_md s') i = if Nat.ltb i (length zs) && is_ptr (b_md s) then Some 0 else entry (b_md s) i)) /\
  (~ (long_enough (b_lik s) (length zs) /\ long_enough (b_md s) (length zs)) ->
   correct_batch measure innovation update lik maha lmk_new pose zs cur s = UB Aborted).
Proof. intros. split; intros; [eapply batch_invalid; eauto|eapply batch_throws; eauto]. Qed.
Print Assumptions C72_invalid_partial.

Example C72_invalid_ex : exists e,
  measure1 cfg_ex (G1 0 0) (G1 (q 9 1) (q 1 4)) = (false, e) /\
  long_enough (Some [q 7 1; q 7 1; q 7 1]) 2 /\ long_enough None 2 /\ ~ long_enough (Some [q 7 1]) 2.
Proof.
  eexists. split; [vm_compute; reflexivity|]. cbn. split; [auto with arith|]. split; [exact I|].
  intro H. inversion H as [|k H' E]. inversion H'.
Qed.

(** Documented as sized by the call, yet an empty vector makes it throw when the landmark is
    out of range. *)
Theorem C72_refuted : exists c pose zs cur,
  correct_batch1 lik_ex c pose zs cur (Outs [] (Some []) (Some [])) = UB Aborted /\
  exists pose', exists s', correct_batch1 lik_ex c pose' zs cur (Outs [] (Some []) (Some [])) = Val (true, s') /\
    length (b_lmk s') = length zs.
Proof.
  exists cfg_ex, (G1 (q 20 1) 0), [q 2 1], (G1 (q 2 1) (q 1 4)).
  split; [vm_compute; reflexivity|]. exists (G1 0 0). eexists.
  split; [vm_compute; reflexivity|reflexivity].
Qed.
Print Assumptions C72_refuted.

(** * C73 *)

(** A call that returns true with a likelihood pointer writes the likelihood and, if asked for,
    the distance; a call that returns false writes nothing. *)
Theorem C73_partial :
  forall Pose Lmk Meas Exp Inn measure innovation update is_zero lik maha checked,
  forall (pose : Pose) (z : Meas) (cur old : Lmk) zl md o,
  @correct Pose Lmk Meas Exp Inn measure innovation update is_zero lik maha checked pose z cur old zl md = Val o ->
  (o_ret o = false -> o_lmk o = old /\ o_lik o = zl /\ o_md o = md) /\
  (o_ret o = true -> forall l0, zl = Some l0 ->
     o_lik o = Some (match lik (snd (measure pose cur)) z with Some v => v | None => 0 end) /\
     o_md o = match md with None => None | Some _ => Some (maha (snd (measure pose cur)) z) end).
Proof. exact outputs_ok. Qed.
Print Assumptions C73_partial.

Example C73_ex : exists o,
  correct1 lik_ex true cfg_ex (G1 (q 1 1) (q 1 4)) (q 2 1) (G1 (q 2 1) (q 1 2)) (G1 0 0) (Some (q 7 1)) (Some (q 9 1)) = Val o /\
  o_ret o = true /\ option_map this (o_md o) = Some (1 # 1)%Q.
Proof. eexists. split; [vm_compute; reflexivity|]. split; vm_compute; reflexivity. Qed.

(** The distance alone is not delivered: *mahalanobisDist2 keeps its old value. *)
Theorem C73_refuted : exists c pose z cur d o,
  correct1 lik_ex true c pose z cur cur None (Some d) = Val o /\ o_ret o = true /\
  o_md o = Some d /\ maha1 (snd (measure1 c pose cur)) z <> d.
Proof.
  exists cfg_ex, (G1 (q 1 1) (q 1 4)), (q 2 1), (G1 (q 2 1) (q 1 2)), (q 9 1). eexists.
  split; [vm_compute; reflexivity|]. split; [reflexivity|]. split; [reflexivity|].
  intro H. apply (f_equal this) in H. vm_compute in H. discriminate.
Qed.
Print Assumptions C73_refuted.

(** * C74 *)

(** With a noise covariance, predictions keep the mean, add the noise once per call and advance
    the time by the sum of the steps. *)
Theorem C74_partial : forall qn dTs s,
  let s' := predictions (Some qn) dTs s in
  g_mean (t_g s') = g_mean (t_g s) /\ g_var (t_g s') = g_var (t_g s) + times (length dTs) qn /\
  t_time s' = (t_time s + zsum dTs)%Z.
Proof. exact predictions_ok. Qed.
Print Assumptions C74_partial.

Example C74_ex : predictions (Some (q 1 2)) [10; 20]%Z (TS (G1 (q 2 1) (q 1 2)) 5) = TS (G1 (q 2 1) (q 3 2)) 35.
Proof. unfold predictions. cbn [fold_left static_step t_g t_time g_mean g_var]. apply f_equal2; [|reflexivity]. apply f_equal2; [reflexivity|apply Qc_is_canon; reflexivity]. Qed.

(** Without one the time stamp stays. *)
Theorem C74_refuted : exists s dT, (0 < dT)%Z /\ t_time (predictions None [dT] s) <> (t_time s + dT)%Z.
Proof. exists (TS (G1 0 0) 5), 10%Z. split; [reflexivity|]. discriminate. Qed.
Print Assumptions C74_refuted.

(** * C76 *)

(** Every call that is not stopped by the assert comes back. *)
Theorem C76_partial : forall lik c pose z l old zl md,
  (exists o, correct1 lik false c pose z l old zl md = Val o) /\
  (fst (measure1 c pose l) = true ->
   ((exists o, correct1 lik true c pose z l old zl md = Val o) <->
    is_zero1 (update1 l (snd (measure1 c pose l)) (z - (g_mean l - g_mean pose))) = false)).
Proof. intros. split; [apply correct1_total|apply correct1_checked]. Qed.
Print Assumptions C76_partial.

Example C76_ex :
  fst (measure1 cfg_ex (G1 (q 1 1) (q 1 4)) (G1 (q 2 1) (q 1 2))) = true /\
  is_zero1 (update1 (G1 (q 2 1) (q 1 2)) (snd (measure1 cfg_ex (G1 (q 1 1) (q 1 4)) (G1 (q 2 1) (q 1 2))))
     (q 2 1 - (q 2 1 - q 1 1))) = false.
Proof. vm_compute. split; reflexivity. Qed.

(** A build with assertions aborts when the corrected mean is zero: landmark at 1, measured at
    -1 with the same variance. *)
Theorem C76_refuted : exists c pose z l old,
  0 < c_R c /\ 0 < g_var l /\ 0 <= g_var pose /\ fst (measure1 c pose l) = true /\
  correct1 lik_ex true c pose z l old None None = UB Aborted /\
  (exists o, correct1 lik_ex false c pose z l old None None = Val o /\ g_mean (o_lmk o) = 0).
Proof.
  exists cfg_ex, (G1 0 0), (q (-1) 1), (G1 (q 1 1) (q 1 4)), (G1 0 0).
  split; [reflexivity|]. split; [reflexivity|]. split; [discriminate|].
  split; [vm_compute; reflexivity|]. split; [vm_compute; reflexivity|].
  eexists. split; [vm_compute; reflexivity|]. apply Qc_is_canon. reflexivity.
Qed.
Print Assumptions C76_refuted.
