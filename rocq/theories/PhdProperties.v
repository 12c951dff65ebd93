(** C39 and C40: weights of the PHD map update and the weighting table. *)
From Coq Require Import List Bool Arith QArith Qcanon Sorted.
From Verif Require Import Base QcLra Loop PermanentSpec PhdModel PhdSpec PhdProofs PhdProofs2.
Import ListNotations.
Local Open Scope Qc_scope.

(** C39: the update always ends normally and satisfies [conserved] (PhdSpec.v). *)
Theorem C39_conserved_partial : forall (T : Type) (probDet : T -> Qc * bool) correct clutter gateMD birthW tiny expf cluster t0 mix nZ,
  (forall lm w, In (lm, w) mix -> 0 <= w /\ 0 <= fst (probDet lm) /\ forall z, (z < nZ)%nat -> 0 <= likelihood T correct lm z) ->
  (forall z, (z < nZ)%nat -> 0 <= clutter z) ->
  exists r origin, updateMap T probDet correct clutter gateMD birthW tiny expf cluster t0 mix nZ = Val r /\
    conserved T probDet correct clutter gateMD birthW mix nZ (rmix T r) (runused T r) origin.
Proof. exact update_conserves. Qed.
Print Assumptions C39_conserved_partial.

(** Weights stay non-negative. *)
Theorem C39_nonneg : forall (T : Type) (probDet : T -> Qc * bool) correct clutter gateMD birthW tiny expf cluster t0 mix nZ,
  (forall lm w, In (lm, w) mix -> 0 <= w /\ 0 <= fst (probDet lm) <= 1 /\ forall z, (z < nZ)%nat -> 0 <= likelihood T correct lm z) ->
  (forall z, (z < nZ)%nat -> 0 <= clutter z) ->
  exists r, updateMap T probDet correct clutter gateMD birthW tiny expf cluster t0 mix nZ = Val r /\
    forall lm w, In (lm, w) (rmix T r) -> 0 <= w.
Proof. exact update_nonneg. Qed.
Print Assumptions C39_nonneg.

(** C40: any sequence of updates, from any table, ends normally; the table never shrinks and
    covers every update. *)
Theorem C40_bounds_partial : forall T gateMD birthW tiny expf jobs t0,
  exists t rs, updates T gateMD birthW tiny expf t0 jobs = Val (t, rs) /\ length rs = length jobs /\
  (trows T t0 <= trows T t)%nat /\ (tcols T t0 <= tcols T t)%nat /\
  forall k j, nth_error jobs k = Some j -> length (jmix T j) <> 0%nat ->
    (length (jmix T j) <= trows T t)%nat /\ (jnz T j <= tcols T t)%nat.
Proof. exact updates_run. Qed.
Print Assumptions C40_bounds_partial.

(** What an earlier update left in the table has no effect. *)
Theorem C40_table_free : forall (T : Type) (probDet : T -> Qc * bool) correct clutter gateMD birthW tiny expf cluster t0 t0' mix nZ,
  exists r r',
  updateMap T probDet correct clutter gateMD birthW tiny expf cluster t0 mix nZ = Val r /\
  updateMap T probDet correct clutter gateMD birthW tiny expf cluster t0' mix nZ = Val r' /\
  rmix T r = rmix T r' /\ runused T r = runused T r' /\ rfov T r = rfov T r' /\ rweight T r = rweight T r' /\
  rnew T r = rnew T r' /\ rhanded T r = rhanded T r'.
Proof. exact update_table_free. Qed.
Print Assumptions C40_table_free.

(** Landmarks allocated for the table: all are handed to the map exactly if no Gaussian of
    weight 0 passes the gate; the table keeps pointers only to the ones not handed over. *)
Theorem C40_ownership : forall (T : Type) (probDet : T -> Qc * bool) correct clutter gateMD birthW tiny expf cluster t0 mix nZ,
  (forall lm w, In (lm, w) mix -> 0 <= w /\ 0 <= fst (probDet lm) /\ forall z, (z < nZ)%nat -> 0 <= likelihood T correct lm z) ->
  (forall z, (z < nZ)%nat -> 0 <= clutter z) ->
  exists r, updateMap T probDet correct clutter gateMD birthW tiny expf cluster t0 mix nZ = Val r /\
  length (rmix T r) = (length mix + rhanded T r)%nat /\ (rhanded T r <= rnew T r)%nat /\
  (rnew T r = rhanded T r <-> forall lm w z, In (lm, w) mix -> (z < nZ)%nat -> gated T probDet correct gateMD lm z -> 0 < w) /\
  (forall m z lm w, nth_error mix m = Some (lm, w) -> (z < nZ)%nat ->
     (mT T (rtb T r) m z <> None <-> gated T probDet correct gateMD lm z /\ ~ 0 < w)).
Proof. exact update_ownership. Qed.
Print Assumptions C40_ownership.

(** A map of three landmarks with three measurements.  Landmark 0 is detected with probability
    1/2, 1 is near the sensing limit, 2 is out of range; measurement 0 fits 0 and 1,
    measurement 1 fits 1, measurement 2 is outside the gate of both. *)
Definition ex_pd (lm : nat) : Qc * bool :=
  match lm with 0%nat => (Q2Qc (1 # 2), false) | 1%nat => (Q2Qc (1 # 4), true) | _ => (0, false) end.
Definition ex_correct (lm z : nat) : Qc * Qc * nat :=
  match lm, z with
  | 0%nat, 0%nat => (Q2Qc (1 # 2), Q2Qc 1, 10%nat)
  | 1%nat, 0%nat => (Q2Qc (1 # 4), Q2Qc 2, 11%nat)
  | 1%nat, 1%nat => (Q2Qc (1 # 8), Q2Qc 3, 12%nat)
  | _, _ => (Q2Qc (1 # 16), Q2Qc 100, 13%nat)
  end.
Definition ex_clutter (z : nat) : Qc := Q2Qc (1 # 4).
Definition ex_mix : list (nat * Qc) := [(0%nat, Q2Qc (1 # 2)); (1%nat, Q2Qc 1); (2%nat, Q2Qc (1 # 3))].
Definition ex_run w := updateMap nat ex_pd ex_correct ex_clutter (Q2Qc 9) (Q2Qc (1 # 10)) 0 (fun x => x) true (tables_new nat)
  w 3.

Example C39_ex : omap (fun r => (map (fun g => (fst g, this (snd g))) (rmix nat r), runused nat r, rfov nat r, this (rweight nat r))) (ex_run ex_mix)
  = Val ([(0%nat, 1 # 4); (1%nat, 4 # 15); (2%nat, 1 # 3); (10%nat, 1 # 5); (11%nat, 2 # 5); (12%nat, 1 # 3)]%Q, [2%nat], 2%nat, (55 # 512)%Q).
Proof. vm_compute. reflexivity. Qed.

Example C39_hyp_ex : (forall lm w, In (lm, w) ex_mix -> 0 <= w /\ 0 <= fst (ex_pd lm) <= 1 /\ forall z, (z < 3)%nat -> 0 <= likelihood nat ex_correct lm z) /\
  (forall z, (z < 3)%nat -> 0 <= ex_clutter z).
Proof.
  split; [|intros z _; vm_compute; discriminate]. intros lm w H.
  destruct H as [H|[H|[H|[]]]]; injection H as <- <-; (split; [vm_compute; discriminate|]); (split; [split; vm_compute; discriminate|]);
    intros [|[|[|z]]] _; vm_compute; discriminate.
Qed.

(** The same table used for two updates, the second larger than the table. *)
Definition ex_jobs : list (job nat) :=
  [JOB nat ex_pd ex_correct ex_clutter true ex_mix 3;
   JOB nat ex_pd ex_correct ex_clutter false (repeat (2%nat, Q2Qc 1) 2) 120].
Example C40_ex : omap (fun s => (trows nat (fst s), tcols nat (fst s), length (snd s)))
    (updates nat (Q2Qc 9) (Q2Qc (1 # 10)) 0 (fun x => x) (tables_new nat) ex_jobs) = Val (100, 144, 2)%nat.
Proof. vm_compute. reflexivity. Qed.

(** C39 is false as stated: a landmark near the sensing limit, detected with probability 1/4,
    prior weight 1, keeps 4/15 instead of 3/4; and the weights of a measurement sum to 1 when
    there is no clutter. *)
Theorem C39_refuted : exists lm w w', nth_error ex_mix 1 = Some (lm, w) /\
  omap (fun r => option_map (fun g => (fst g, this (snd g))) (nth_error (rmix nat r) 1)) (ex_run ex_mix) = Val (Some (lm, this w')) /\
  w' <> (1 - fst (ex_pd lm)) * w.
Proof.
  exists 1%nat, (Q2Qc 1), (Q2Qc (4 # 15)). split; [reflexivity|]. split; [vm_compute; reflexivity|].
  intros H. apply (f_equal this) in H. vm_compute in H. discriminate.
Qed.
Print Assumptions C39_refuted.

Theorem C39_below_one_refuted : exists mix,
  omap (fun r => map (fun g => (fst g, this (snd g))) (skipn 1 (rmix nat r)))
    (updateMap nat ex_pd ex_correct (fun _ => 0) (Q2Qc 9) (Q2Qc (1 # 10)) 0 (fun x => x) true (tables_new nat) mix 1) = Val [(10%nat, 1%Q)].
Proof. exists [(0%nat, Q2Qc (1 # 2))]. vm_compute. reflexivity. Qed.
Print Assumptions C39_below_one_refuted.

(** C40 is false about leaks: a gated Gaussian of weight 0 makes the update allocate a landmark
    that is neither handed to the map nor deleted. *)
Theorem C40_leak_refuted : exists mix,
  omap (fun r => (rnew nat r, rhanded nat r)) (ex_run mix) = Val (1, 0)%nat.
Proof. exists [(0%nat, 0)]. vm_compute. reflexivity. Qed.
Print Assumptions C40_leak_refuted.
