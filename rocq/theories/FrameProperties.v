(** Properties C134-C138: frames of reference and random generators. *)
From Coq Require Import Reals List Bool ZArith Lra Lia Arith.
From Verif Require Import Base TimeStampModel SensorModel FrameModel FrameSpec FrameProofs.
Import ListNotations.
Local Open Scope R_scope.

(** * C134: composition of frames *)

(** Placing a point by the product is placing it by the right and then by the left factor. *)
Theorem C134_acts : forall f g v, place (compose f g) v = place f (place g v).
Proof. exact compose_acts. Qed.
Print Assumptions C134_acts.
(** The heading is the sum, in (-pi, pi]. *)
Theorem C134_heading : forall f g, let h := p_t (f_pose (compose f g)) in
  - PI < h <= PI /\ cos h = cos (p_t (f_pose f) + p_t (f_pose g)) /\ sin h = sin (p_t (f_pose f) + p_t (f_pose g)).
Proof. exact compose_heading. Qed.
Print Assumptions C134_heading.
(** Composition is associative, with the base frame of the leftmost factor. *)
Theorem C134_assoc : forall f g h, f_pose (compose (compose f g) h) = f_pose (compose f (compose g h)) /\
  f_base (compose (compose f g) h) = f_base (compose f (compose g h)).
Proof. exact compose_assoc. Qed.
Print Assumptions C134_assoc.
(** The time is the later one. *)
Theorem C134_time : forall f g, let t := f_time (compose f g) in
  (t = f_time f \/ t = f_time g) /\ ts_ltb t (f_time f) = false /\ ts_ltb t (f_time g) = false.
Proof. exact compose_time. Qed.
Print Assumptions C134_time.
(** The composition is relative to the base of the outer frame, so that chains of frames end in one base. *)
Theorem C134_base : forall f g h, f_base (compose f g) = f_base f /\ f_base (compose (compose f g) h) = f_base f.
Proof. intros f g h. exact (conj (compose_base f g) (eq_trans (compose_base (compose f g) h) (compose_base f g))). Qed.
Print Assumptions C134_base.
Example C134_ex : forall S, place (compose (Frame (P2 1 2 0) S (TS 1 5) None) (Frame (P2 3 4 0) S (TS 2 0) None)) (10, 20) = (14, 26) /\
  f_time (compose (Frame (P2 1 2 0) S (TS 1 5) None) (Frame (P2 3 4 0) S (TS 2 0) None)) = TS 2 0.
Proof. intro S. split; [|reflexivity]. rewrite compose_acts. unfold place. cbn. rewrite cos_0, sin_0. f_equal; lra. Qed.

(** * C135: mapping into the base frame keeps the geometry *)
Theorem C135_distance : forall f v w,
  (fst (place f v) - fst (place f w)) ^ 2 + (snd (place f v) - snd (place f w)) ^ 2 = (fst v - fst w) ^ 2 + (snd v - snd w) ^ 2.
Proof. exact place_isometry. Qed.
Print Assumptions C135_distance.
(** Every point of the base frame is reached. *)
Theorem C135_onto : forall f w, exists v, place f v = w.
Proof. exact place_onto. Qed.
Print Assumptions C135_onto.
(** The variance along a direction is that of the new covariance along the turned direction. *)
Theorem C135_variance : forall f v u w, let k := v_S (rel_rv_in_place f v) in let m := v_S v in
  let turn := place (Frame (P2 0 0 (p_t (f_pose f))) (f_cov f) (f_time f) (f_base f)) (u, w) in
  let ru := fst turn in let rw := snd turn in
  ru * (k 0%nat 0%nat * ru + k 0%nat 1%nat * rw) + rw * (k 1%nat 0%nat * ru + k 1%nat 1%nat * rw) =
  u * (m 0%nat 0%nat * u + m 0%nat 1%nat * w) + w * (m 1%nat 0%nat * u + m 1%nat 1%nat * w).
Proof. exact variance_kept. Qed.
Print Assumptions C135_variance.
Theorem C135_trace_det : forall f v, let k := v_S (rel_rv_in_place f v) in let m := v_S v in
  k 0%nat 0%nat + k 1%nat 1%nat = m 0%nat 0%nat + m 1%nat 1%nat /\
  k 0%nat 0%nat * k 1%nat 1%nat - k 0%nat 1%nat * k 1%nat 0%nat = m 0%nat 0%nat * m 1%nat 1%nat - m 0%nat 1%nat * m 1%nat 0%nat /\
  k 0%nat 1%nat - k 1%nat 0%nat = m 0%nat 1%nat - m 1%nat 0%nat.
Proof. exact trace_det_kept. Qed.
Print Assumptions C135_trace_det.
(** Both overloads for random vectors give the same vector, with the mean placed and the time of the source. *)
Theorem C135_overloads : forall f c b, rel_rv f c b = Val (rel_rv_in_place f c) /\ v_x (rel_rv_in_place f c) = place f (v_x c) /\
  v_t (rel_rv_in_place f c) = v_t c.
Proof. exact overloads. Qed.
Print Assumptions C135_overloads.
Example C135_ex : fst (place (Frame (P2 1 2 (PI / 2)) (fun _ _ => 0) (TS 0 0) None) (3, 4)) = -3 /\
  snd (place (Frame (P2 1 2 (PI / 2)) (fun _ _ => 0) (TS 0 0) None) (3, 4)) = 5.
Proof. unfold place. cbn. rewrite cos_PI2, sin_PI2. lra. Qed.

(** * C136: optional covariances *)
Theorem C136_partial : forall f v cc cb, (cb = None \/ cc <> None) -> exists r, rel_to f v cc cb = Val r /\
  fst r = place f v /\ (forall m, cc = Some m -> cb <> None -> snd r = Some (sandwich 2 (rot (p_t (f_pose f))) m)).
Proof. exact rel_defined. Qed.
Print Assumptions C136_partial.
(** A target without a source: the null pointer is read, the test names the target twice. *)
Theorem C136_refuted : exists f v m, rel_to f v None (Some m) = UB NullDeref.
Proof. exists (Frame (P2 0 0 0) (fun _ _ => 0) (TS 0 0) None), (0, 0), (fun _ _ => 0). apply rel_null. Qed.
Print Assumptions C136_refuted.
Example C136_ex : (None : option mx) = None \/ (None : option mx) <> None.
Proof. left. reflexivity. Qed.

(** * C137: uncertainty of a composition *)

(** Two uncertain frames have a certain product. *)
Theorem C137_refuted : exists f g, f_cov f 0%nat 0%nat = 1 /\ f_cov g 0%nat 0%nat = 1 /\ f_cov (compose f g) 0%nat 0%nat = 0.
Proof. exists (Frame (P2 0 0 0) (fun _ _ => 1) (TS 0 0) None), (Frame (P2 1 0 0) (fun _ _ => 1) (TS 0 0) None). repeat split. Qed.
Print Assumptions C137_refuted.
(** Right for certain frames only. *)
Theorem C137_partial : forall f g i j, (forall i j, f_cov f i j = 0) -> (forall i j, f_cov g i j = 0) ->
  f_cov (compose f g) i j = f_cov f i j + f_cov g i j.
Proof. exact certain_product. Qed.
Print Assumptions C137_partial.
Example C137_ex : forall i j : nat, f_cov (Frame (P2 0 0 0) (fun _ _ => 0) (TS 0 0) None) i j = 0.
Proof. reflexivity. Qed.

(** * C138: samples are reproducible *)

(** After the first initialisation: what thread t draws depends on its seed and the number of its draws
    only, for every interleaving of the draws of all threads. *)
Theorem C138_partial : forall (E D X : Type) (seed : Z -> E) (fresh : D) (draw : D -> E -> X * D * E) n s ts,
  (forall t, In t ts -> (t < n)%nat) ->
  exists xs g, draws draw ts (initialize seed fresh n s no_gens) = Val (xs, g) /\ length xs = length ts /\
    forall t, (t < n)%nat -> by_thread t ts xs = alone draw (count_occ Nat.eq_dec ts t) fresh (seed (s t)).
Proof. exact first_run. Qed.
Print Assumptions C138_partial.
(** Initialised again the engines go on where they were, whatever the new seeds. *)
Theorem C138_again_partial : forall (E D X : Type) (seed : Z -> E) (fresh : D) (draw : D -> E -> X * D * E) n s g ts,
  (n <= length (g_rand g))%nat -> (forall t, In t ts -> (t < n)%nat) ->
  exists xs g', draws draw ts (initialize seed fresh n s g) = Val (xs, g') /\ length xs = length ts /\
    forall t e, (t < n)%nat -> nth_error (g_rand g) t = Some e -> by_thread t ts xs = alone draw (count_occ Nat.eq_dec ts t) fresh e.
Proof. exact second_run. Qed.
Print Assumptions C138_again_partial.

(** A counting engine: seeded with 5 twice, the two runs differ. *)
Definition counter (d : unit) (e : Z) : Z * unit * Z := (e, d, (e + 1)%Z).
Theorem C138_refuted : exists s g, draws counter [0; 0]%nat (initialize (fun z => z) tt 1 s no_gens) = Val ([5; 6]%Z, g) /\
  exists g', draws counter [0; 0]%nat (initialize (fun z => z) tt 1 s g) = Val ([7; 8]%Z, g').
Proof. exists (fun _ => 5%Z), (Gens [7%Z] [tt]). split; [reflexivity|]. eexists. reflexivity. Qed.
Print Assumptions C138_refuted.
(** Without initialisation, or in a thread beyond the number at the first initialisation: out of bounds. *)
Theorem C138_threads_refuted : forall (E D X : Type) (seed : Z -> E) (fresh : D) (draw : D -> E -> X * D * E) n s t,
  (n <= t)%nat -> draw1 draw t (initialize seed fresh n s no_gens) = UB OutOfBounds.
Proof. exact too_many. Qed.
Print Assumptions C138_threads_refuted.
Example C138_ex : exists xs g, draws counter [1; 0; 1]%nat (initialize (fun z => z) tt 2 (fun i => Z.of_nat (10 * i)) no_gens) = Val (xs, g) /\
  by_thread 1 [1; 0; 1]%nat xs = [10; 11]%Z.
Proof. eexists. eexists. split; reflexivity. Qed.
