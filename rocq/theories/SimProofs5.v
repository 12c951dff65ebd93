(** Statements for C110-C121 assembled from SimProofs .. SimProofs4. *)
From Coq Require Import List Arith ZArith QArith Qcanon Lia Reals Lra Bool.
From Verif Require Import Base QcLra PermanentSpec SensorModel SimModel SimSpec SimProofs SimProofs2 SimProofs3 SimProofs4.
Import ListNotations.

Lemma landmark_count : forall kMax n, (1 <= kMax)%Z -> (1 <= n)%Z ->
  exists ks, landmark_steps kMax n = Val ks /\ increasing ks /\ (forall k, In k ks -> (1 <= k < kMax)%Z) /\
    Z.of_nat (length ks) = (if kMax / n =? 0 then kMax - 1 else Z.min (kMax - 1) (1 + (kMax - 1) / (kMax / n)))%Z.
Proof.
  intros kMax n Hk Hn. destruct (schedule_count 1 kMax n ltac:(lia) ltac:(lia) Hn) as (ks & E & (I & B) & L).
  exists ks. split; [exact E|]. split; [exact I|]. split.
  - intros k H. specialize (B k H). lia.
  - rewrite L. unfold items. destruct (Z.leb_spec kMax 1); [|reflexivity]. assert (kMax = 1%Z) by lia. subst kMax.
    destruct (_ =? 0)%Z; [reflexivity|]. rewrite Z.sub_diag, Z.min_l; [reflexivity|].
    pose proof (Z.div_pos 0 (1 / n)). destruct (Z.eq_dec (1 / n) 0) as [->|]; [rewrite Zdiv_0_r; lia|].
    pose proof (Z.div_pos 1 n ltac:(lia) ltac:(lia)). lia.
Qed.

Lemma both_bounds : forall kMax n, (1 <= n)%Z ->
  ((n <= kMax - 1)%Z -> exists ks, landmark_steps kMax n = Val ks /\ (n <= Z.of_nat (length ks) <= 2 * n)%Z /\
     ((n | kMax)%Z -> Z.of_nat (length ks) = n)) /\
  ((n <= kMax - 51)%Z -> exists ks, segment_steps kMax n = Val ks /\ increasing ks /\ (forall k, In k ks -> (51 <= k < kMax)%Z) /\
     (n <= Z.of_nat (length ks) <= 2 * n)%Z /\ ((n | kMax)%Z -> Z.of_nat (length ks) = n)).
Proof.
  intros kMax n Hn. split; intro H.
  - destruct (schedule_count 1 kMax n ltac:(lia) ltac:(lia) Hn) as (ks & E & _ & L). exists ks. split; [exact E|]. rewrite L. split.
    + apply items_bounds; lia.
    + intro D. apply items_divides; auto; lia.
  - destruct (schedule_count 51 kMax n ltac:(lia) ltac:(lia) Hn) as (ks & E & (I & B) & L). exists ks. split; [exact E|]. split; [exact I|]. split.
    + intros k Hk. specialize (B k Hk). lia.
    + rewrite L. split; [apply items_bounds; lia|]. intro D. apply items_divides; auto; lia.
Qed.

Lemma alarm_range : forall rnd rmin rmax fuel p r q, unit_stream rnd -> (0 < rmax)%Qc ->
  draw_above rnd fuel p rmin rmax = Val (r, q) -> (rmin <= r < rmax)%Qc /\ (0 <= r)%Qc.
Proof.
  intros rnd rmin rmax fuel p r q U H E. destruct (draw_above_val _ _ _ _ _ _ _ E) as (i & _ & _ & -> & L & _).
  pose proof (unit_mul _ _ (U (p + i)%nat) H). tauto.
Qed.

(** The draw ends exactly when a draw reaches the lower limit; it returns the first such draw. *)
Lemma alarm_ends : forall rnd rmin rmax p, (exists fuel v, draw_above rnd fuel p rmin rmax = Val v) <->
  (exists i, rmin <= rnd (p + i)%nat * rmax)%Qc.
Proof.
  intros rnd rmin rmax p. split.
  - intros (fuel & (x, q) & E). destruct (draw_above_val _ _ _ _ _ _ _ E) as (i & _ & _ & -> & L & _). exists i. exact L.
  - intros (i & H). destruct (draw_above_ends _ _ _ _ _ H) as (x & q & E). exists i, (x, q). exact E.
Qed.

Lemma trajectory_spec : forall rnd (pose : Type) (step : pose -> motion -> pose) fuel l kMax nSeg dT x0 us xs,
  unit_stream rnd -> proper l -> (1 <= kMax)%Z ->
  trajectory rnd step fuel l kMax nSeg dT x0 = Val (us, xs) ->
  Z.of_nat (length us) = kMax /\ Z.of_nat (length xs) = kMax /\ nth_error xs 0 = Some (0%Z, x0) /\
  follows step x0 (tl us) (tl xs) /\
  forall i t u, nth_error us i = Some (t, u) ->
    t = (Z.of_nat i * dT)%Z /\ ((i <= 50)%nat -> u = still) /\ ((51 <= i)%nat -> legal l u).
Proof.
  intros rnd pose step fuel l kMax nSeg dT x0 us xs U P Hk H. unfold trajectory in H. apply obind_val in H. destruct H as ((us', xs') & E & H).
  injection H as <- <-.
  destruct (walk_spec rnd step fuel l kMax nSeg dT U P (Z.to_nat (kMax - 1)) 1 0 0 0 still x0 us' xs' ltac:(lia) ltac:(lia) ltac:(lia) E) as (L & F & N).
  cbn [tl length nth_error]. split; [rewrite L; lia|]. split; [rewrite (proj1 F), L; lia|]. split; [reflexivity|]. split; [exact F|].
  intros [|i] t u Eu; cbn in Eu.
  - injection Eu as <- <-. split; [lia|]. split; [reflexivity|lia].
  - destruct (N i t u Eu) as (A & B & C). split; [lia|]. split; intro; [apply B|apply C]; lia.
Qed.

Lemma trajectory_ends : forall rnd (pose : Type) (step : pose -> motion -> pose) l kMax nSeg dT x0, nSeg <> 0%Z ->
  (forall p, exists i, l_minx l * l_dt l <= rnd (p + i)%nat * (l_maxx l * l_dt l))%Qc ->
  exists fuel us xs, trajectory rnd step fuel l kMax nSeg dT x0 = Val (us, xs).
Proof.
  intros rnd pose step l kMax nSeg dT x0 Hn Often.
  destruct (walk_ends rnd step l kMax nSeg dT Hn Often (Z.to_nat (kMax - 1)) 1 0 0 0 still x0) as (fuel & us & xs & E).
  exists fuel, ((0%Z, still) :: us), ((0%Z, x0) :: xs). unfold trajectory. rewrite E. reflexivity.
Qed.

Lemma trajectory_stuck : forall rnd (pose : Type) (step : pose -> motion -> pose) l kMax nSeg dT x0 fuel, unit_stream rnd -> proper l ->
  nSeg <> 0%Z -> (l_maxx l <= l_minx l)%Qc -> (52 <= kMax)%Z -> trajectory rnd step fuel l kMax nSeg dT x0 = OutOfFuel.
Proof.
  intros rnd pose step l kMax nSeg dT x0 fuel U (Hx & _ & _ & Hd) Hn Hm Hk. unfold trajectory. rewrite walk_stuck; [reflexivity|exact Hn| |lia|lia].
  intro i. assert (0 < l_maxx l * l_dt l)%Qc by qcnra.
  pose proof (unit_mul _ _ (U i) H) as (_ & B). assert (l_maxx l * l_dt l <= l_minx l * l_dt l)%Qc by qcnra. qclra.
Qed.

(** Reading the log of a run. *)
Lemma read_run : forall tol log, (0 < tol)%Qc -> all_apart tol (map g_t log) ->
  (forall g, In g log -> exists w, In w (g_ws g) /\ (0 < print6 w)%Qc) ->
  log_map log <> [] ->
  exists ds, obind (open_reader (flat_map (fun g => pose_rows (g_t g) (g_ws g)) log) (log_map log)) (read_steps tol (map g_t log)) = Val ds /\
  Forall2 (fun g d => s_parts d = pose_rows (g_t g) (g_ws g) /\
    (exists i, s_hi d = Some (Z.of_nat i) /\ heaviest (map print6 (g_ws g)) i /\
       (i = best_particle (g_ws g) ->
          s_map d = filter (fun r => Qcleb three_quarters (lr_w r)) (map_rows (g_t g) (g_ws g) (g_map g)) /\
          s_card d = qsum (map print6 (g_map g i))) /\
       (i <> best_particle (g_ws g) -> s_map d = [] /\ s_card d = 0%Qc)) /\
    s_wsum d = qsum (map print6 (g_ws g))) log ds.
Proof.
  intros tol log Ht Ap Pos Nm.
  destruct (log_map log) as [|l ls] eqn:El; [contradiction|].
  destruct (flat_map (fun g => pose_rows (g_t g) (g_ws g)) log) as [|p ps] eqn:Ep.
  { exfalso. destruct log as [|g log]; [discriminate El|]. destruct (Pos g (or_introl eq_refl)) as (w & Hw & _).
    destruct (g_ws g) as [|v ws] eqn:Eg; [destruct Hw|]. cbn [flat_map] in Ep. rewrite Eg in Ep. discriminate Ep. }
  exists (map data_of log). split; [apply read_log; assumption|].
  clear Ap El Ep Nm. induction log as [|g log IH]; cbn [map]; constructor.
  - destruct (Pos g (or_introl eq_refl)) as (w & Hw & L). unfold data_of. cbn [s_parts s_hi s_wsum s_map s_card]. split; [reflexivity|]. split; [|reflexivity].
    exists (best_particle (map print6 (g_ws g))). split; [reflexivity|].
    split; [apply (best_heaviest _ (print6 w)); [apply in_map; exact Hw|exact L]|]. rewrite chosen_map.
    destruct (Nat.eqb_spec (best_particle (map print6 (g_ws g))) (best_particle (g_ws g))) as [E|E].
    + split; [|intro; contradiction]. intros _. split; [reflexivity|]. rewrite E. unfold map_rows. rewrite map_map. reflexivity.
    + split; [intro; contradiction|]. intros _. split; reflexivity.
  - apply IH. intros; apply Pos; right; assumption.
Qed.

(** A row of a time that is not among the ground-truth times blocks all later rows. *)
Lemma read_blocked : forall tol times rd, (forall t, In t times -> apart tol (pr_t (r_p rd)) t) -> (forall t, In t times -> apart tol (lr_t (r_l rd)) t) ->
  exists ds, read_steps tol times rd = Val ds /\ Forall (fun d => s_parts d = [] /\ s_map d = []) ds.
Proof.
  intros tol times. induction times as [|t times IH]; intros rd Hp Hl; [exists []; split; [reflexivity|constructor]|].
  cbn [read_steps]. unfold read_step.
  assert (E1 : read_particles tol t (r_p rd) (r_ps rd) (PState (r_hi rd) 0 0 []) = Val (PState (r_hi rd) 0 0 [], r_p rd, r_ps rd)).
  { destruct (r_ps rd); cbn [read_particles]; rewrite (near_apart tol) by (apply Hp; left; reflexivity); reflexivity. }
  assert (E2 : read_map tol t (r_hi rd) (r_l rd) (r_ls rd) [] 0 = Val ([], 0%Qc, r_l rd, r_ls rd)).
  { destruct (r_ls rd); cbn [read_map]; rewrite (near_apart tol) by (apply Hl; left; reflexivity); reflexivity. }
  rewrite E1. cbn [obind hi]. rewrite E2. cbn [obind hi parts wsum].
  destruct (IH (Reader (r_hi rd) (r_p rd) (r_ps rd) (r_l rd) (r_ls rd))) as (ds & E & F).
  { intros; apply Hp; right; assumption. } { intros; apply Hl; right; assumption. }
  rewrite E. eexists. split; [reflexivity|]. constructor; [split; reflexivity|exact F].
Qed.

(** The number of landmarks counted as observed. *)
Lemma observable_right : forall (seen kept : Z -> nat -> bool) kMax dT nLm t, (0 < dT)%Z -> (0 <= t)%Z ->
  (forall m, (m < nLm)%nat -> exists k, (1 <= k < kMax)%Z /\ seen k m = true) ->
  observable t (snd (detections seen kept kMax dT nLm)) =
  length (filter (fun m => existsb (fun i => seen (Z.of_nat i) m && (Z.of_nat i * dT <=? t)%Z) (seq 1 (Z.to_nat (kMax - 1)))) (seq 0 nLm)).
Proof.
  intros seen kept kMax dT nLm t HdT Ht Ev. rewrite observable_count by assumption. f_equal. apply filter_ext_in. intros m Hm. apply in_seq in Hm.
  destruct (Ev m ltac:(lia)) as (k & Hk & S1).
  assert (X : existsb (fun i => seen (Z.of_nat i) m) (seq 1 (Z.to_nat (kMax - 1))) = true).
  { apply existsb_exists. exists (Z.to_nat k). split; [apply in_seq; lia|]. rewrite Z2Nat.id by lia. exact S1. }
  rewrite X. reflexivity.
Qed.

Local Open Scope R_scope.
Lemma xy_alarm_outside : exists r u, 0 <= r < 5 /\ 0 <= u < 1 /\ 5 < dist2 (alarm2 r u) (0, 0).
Proof.
  exists (499/100), 0. split; [lra|]. split; [lra|]. unfold alarm2, dist2. cbn [fst snd]. rewrite <- (sqrt_Rsqr 5) by lra. apply sqrt_lt_1_alt.
  pose proof PI2_1. split; [apply Rle_0_sqr|]. unfold Rsqr. replace (499 / 100 - 0) with (499/100) by ring. replace (0 * 2 * PI - PI - 0) with (- PI) by ring.
  assert (1 < PI) by lra. nra.
Qed.
Lemma xy_landmark_outside : exists p r u Rn, 0 <= r < 5 /\ 0 <= u < 1 /\ 5 < dist2 (new_landmark_xy p r u Rn) (p_x p, p_y p).
Proof.
  exists (P2 0 0 0), (499/100), (1/2), (fun _ _ => 0). split; [lra|]. split; [lra|]. rewrite landmark_xy_dist. rewrite <- (sqrt_Rsqr 5) by lra.
  apply sqrt_lt_1_alt. pose proof PI2_1. split; [apply Rle_0_sqr|]. unfold Rsqr. assert (1 < PI) by lra. nra.
Qed.
