(** Properties C122-C128: the tree sensor of the Victoria Park data set. *)
From Coq Require Import Reals List Bool ZArith Lra Lia.
From Verif Require Import Base AngleModel AngleProofs SensorModel SensorProofs VpModel VpSpec VpProofs VpProofs2 VpProofs3 VpProofs4.
Import ListNotations.
Local Open Scope R_scope.

(** * C122: measuring a tree and mapping the measurement *)

(** Every tree can be measured; sine and cosine of the bearing give the parts ahead and to the right. *)
Theorem C122_measured : forall sc nz p PS l LS Jp,
  let dx := t_x l - p_x p in let dy := t_y l - p_y p in let r := sqrt (dx ^ 2 + dy ^ 2) in
  exists N e, (forall fuel, (N < fuel)%nat -> vp_measure fuel sc nz p PS l LS Jp = Val (true, e)) /\
    m_r (e_mean e) = r /\ - PI <= m_b (e_mean e) <= PI /\ m_d (e_mean e) = t_d l /\
    (0 < r -> r * sin (m_b (e_mean e)) = cos (p_t p) * dx + sin (p_t p) * dy /\
              r * cos (m_b (e_mean e)) = sin (p_t p) * dx - cos (p_t p) * dy).
Proof. exact vp_measure_ok. Qed.
Print Assumptions C122_measured.

(** The measured tree is mapped back to itself. *)
Theorem C122_back : forall fuel sc nz p PS l LS Jp ok e, vp_measure fuel sc nz p PS l LS Jp = Val (ok, e) ->
  fst (vp_inverse nz p (e_mean e)) = l.
Proof. exact vp_back. Qed.
Print Assumptions C122_back.

(** The tree mapped from a measurement is measured as this measurement. *)
Theorem C122_there : forall sc nz p PS LS Jp r b d, 0 < r -> - PI < b < PI ->
  exists N e, (forall fuel, (N < fuel)%nat ->
    vp_measure fuel sc nz p PS (fst (vp_inverse nz p (Circ r b d))) LS Jp = Val (true, e)) /\ e_mean e = Circ r b d.
Proof. exact vp_there. Qed.
Print Assumptions C122_there.

(** A vehicle looking north with a tree 5 m to the east: bearing 0. *)
Example C122_ex : fst (vp_inverse noise0 north (Circ 5 0 (1 / 2))) = Tree 5 0 (1 / 2).
Proof. apply east. Qed.

(** * C123: uncertainty and Jacobians *)

(** Position block and diameter variance of the expected measurement, and the Jacobian of the diameter. *)
Theorem C123_partial : forall fuel sc nz p PS l LS Jp ok e J S, vp_measure fuel sc nz p PS l LS Jp = Val (ok, e) ->
  e_lin e = Some (J, S) ->
  (forall i j, (i < 2)%nat -> (j < 2)%nat -> S i j = sandwich 2 J LS i j + n_R nz i j) /\
  S 2%nat 2%nat = LS 2%nat 2%nat + n_R nz 2%nat 2%nat + m_r (e_mean e) ^ 2 * n_lb nz /\
  (forall i, (i < 2)%nat -> S i 2%nat = 0 /\ S 2%nat i = 0) /\
  (forall i j, (i < 3)%nat -> (j < 3)%nat -> (i = 2%nat \/ j = 2%nat) -> J i j = if (i =? j)%nat then 1 else 0).
Proof. exact vp_cov. Qed.
Print Assumptions C123_partial.

(** The mapped tree has the diameter variance of the sensor without the part that grows with the
    range, so that measuring it again adds that part once only. *)
Theorem C123_inverse_partial : forall nz p z, snd (vp_inverse nz p z) 2%nat 2%nat = n_R nz 2%nat 2%nat /\
  (forall i, (i < 2)%nat -> snd (vp_inverse nz p z) i 2%nat = 0 /\ snd (vp_inverse nz p z) 2%nat i = 0) /\
  (forall i j, (i < 2)%nat -> (j < 2)%nat -> snd (vp_inverse nz p z) i j =
     sandwich 2 (mx_of [[sin (p_t p + m_b z); m_r z * cos (p_t p + m_b z)];
                        [- cos (p_t p + m_b z); m_r z * sin (p_t p + m_b z)]]) (n_R nz) i j).
Proof. exact vp_inverse_cov. Qed.
Print Assumptions C123_inverse_partial.

(** Correlation of position and diameter is lost: a tree whose position and diameter have
    covariance 1 is measured with covariance 0 of range and diameter. *)
Theorem C123_refuted : exists LS J S, 
  (exists N, forall fuel, (N < fuel)%nat -> exists e, vp_measure fuel sc0 noise0 north zero (Tree 5 0 1) LS zero = Val (true, e) /\
     e_lin e = Some (J, S)) /\
  S 0%nat 2%nat = 0 /\ sandwich 3 J LS 0%nat 2%nat = 1.
Proof. exact correlation_lost. Qed.
Print Assumptions C123_refuted.

(** The uncertainty of the pose has no effect, although the range of a tree to the east varies with
    the first coordinate of the pose. *)
Theorem C123_pose_refuted : exists PS J S,
  (exists N, forall fuel, (N < fuel)%nat -> exists e, vp_measure fuel sc0 noise0 north PS (Tree 5 0 1) zero zero = Val (true, e) /\
     e_lin e = Some (J, S)) /\ PS 0%nat 0%nat = 1 /\ S 0%nat 0%nat = 0.
Proof. exact pose_lost. Qed.
Print Assumptions C123_pose_refuted.

(** The Jacobian with respect to the pose is what the caller had there before: zero here, although the
    range of this tree changes at rate -1 with the first coordinate of the pose. *)
Theorem C123_jacobian_refuted : exists p l N, forall fuel, (N < fuel)%nat -> exists e,
  vp_measure fuel sc0 noise0 p zero l zero zero = Val (true, e) /\ e_pose e 0%nat 0%nat = 0 /\
  derivable_pt_lim (fun x => sqrt ((t_x l - x) ^ 2 + (t_y l - p_y p) ^ 2)) (p_x p) (-1).
Proof. exact pose_jacobian_missing. Qed.
Print Assumptions C123_jacobian_refuted.

(** * C124: limits *)

(** Outside the limits of range or bearing the probability for the tree itself is zero. *)
Theorem C124_partial : forall fuel sc nz c scan p PS l LS Jp ok e, vp_measure fuel sc nz p PS l LS Jp = Val (ok, e) ->
  ~ (c_bmin c <= m_b (e_mean e) <= c_bmax c /\ c_rmin c <= m_r (e_mean e) <= c_rmax c) ->
  vp_pd2 fuel sc nz c scan p l = Val (0, false).
Proof. exact pd2_outside. Qed.
Print Assumptions C124_partial.

(** A tree at 10 m with a limit of 9 m: measured as valid, and detected with probability 1, that of a
    position 2 m nearer. *)
Theorem C124_refuted : exists N, forall fuel, (N < fuel)%nat ->
  vp_pd fuel sc0 noise0 cfg9 (repeat 0 720) north (Tree 10 0 1) zero = Val (1, true) /\
  exists e, vp_measure fuel sc0 noise0 north zero (Tree 10 0 1) zero zero = Val (true, e) /\ c_rmax cfg9 < m_r (e_mean e) /\
  vp_pd2 fuel sc0 noise0 cfg9 (repeat 0 720) north (Tree 10 0 1) = Val (0, false).
Proof. exact pd_far. Qed.
Print Assumptions C124_refuted.

(** * C125: the detection probability of a tree is the table entry for the beams it shows *)

(** With a scan all around (720 beams): the entry for the number of beams that are not blocked in front
    of the tree, among the beams k0 .. k0+n-1; 0 when the entry for all n beams is 0.  The flag tells a
    full entry below the buffer value. *)
Theorem C125_partial : forall fuel sc nz c scan p PS l LS Jp ok e, (722 <= fuel)%nat -> vp_measure fuel sc nz p PS l LS Jp = Val (ok, e) ->
  within c (e_mean e) -> 0 < m_r (e_mean e) -> 0 <= t_d l -> c_tab c <> [] -> length scan = 720%nat ->
  exists k0 n v close, covers (m_b (e_mean e)) (atan (t_d l / 2 / m_r (e_mean e))) k0 n /\
    vp_pd2 fuel sc nz c scan p l = Val (v, close) /\
    ((n < length (c_tab c))%nat -> nth n (c_tab c) 0 = 0 -> v = 0) /\
    (((n < length (c_tab c))%nat -> nth n (c_tab c) 0 <> 0) ->
       v = table_at (c_tab c) (unblocked_beams scan (m_r (e_mean e) - t_d l / 2 - 18 / 100) k0 n)) /\
    (close = true <-> (n < length (c_tab c))%nat /\ nth n (c_tab c) 0 < c_buf c /\ v <> 0).
Proof. exact pd2_full. Qed.
Print Assumptions C125_partial.

(** All these beams meet the tree. *)
Theorem C125_beams_partial : forall r d b k0 n i, 0 < r -> 0 <= d -> covers b (atan (d / 2 / r)) k0 n -> (i < n)%nat ->
  meets r (d / 2) (beam_angle (k0 + Z.of_nat i) - b).
Proof. exact covered_meets. Qed.
Print Assumptions C125_beams_partial.

(** A beam within the half angle is one of them or the next one after the last. *)
Theorem C125_complete_partial : forall b g k0 n k, covers b g k0 n -> Rabs (beam_angle k - b) <= g ->
  (k0 <= k <= k0 + Z.of_nat n)%Z.
Proof. exact covers_complete. Qed.
Print Assumptions C125_complete_partial.

(** The next one is left out although it is within the half angle: a tree at beam 10 with a half angle
    of half a degree shows beams 9, 10 and 11, of which 9 and 10 are counted. *)
Theorem C125_refuted : exists b g k0 n k, covers b g k0 n /\ Rabs (beam_angle k - b) <= g /\ ~ (k0 <= k < k0 + Z.of_nat n)%Z.
Proof.
  exists (beam_angle 10), (PI / 360), 9%Z, 2%nat, 11%Z. pose proof PI_RGT_0. unfold covers, beam_angle.
  rewrite INR_IZR_INZ. change (Z.of_nat 2) with 2%Z. split; [lra|]. split; [|lia].
  replace (11 * (PI / 360) - 10 * (PI / 360)) with (PI / 360) by lra. rewrite Rabs_right; lra.
Qed.
Print Assumptions C125_refuted.

(** Hypotheses of the above for the tree at 8 m: all 720 beams free, one entry. *)
Example C125_ex : exists N e, forall fuel, (N < fuel)%nat ->
  vp_measure fuel sc0 noise0 north zero (Tree 8 0 1) zero zero = Val (true, e) /\ within cfg9 (e_mean e) /\ 0 < m_r (e_mean e) /\
  exists close, vp_pd2 (722 + fuel) sc0 noise0 cfg9 (repeat 0 720) north (Tree 8 0 1) = Val (1, close).
Proof.
  destruct (east_measured sc0 noise0 zero zero zero 8 1 ltac:(lra)) as (N & e & H & E). exists N, e. intros fuel F.
  split; [apply H; exact F|]. split; [unfold within; rewrite E; cbn; lra|]. split; [rewrite E; cbn; lra|].
  apply (pd2_east _ sc0 noise0 cfg9 (repeat 0 720) zero zero zero 8 1 e 1); try (apply H; lia); try exact E; try lia; try reflexivity;
    try (cbn [cfg9 c_bmin c_bmax c_rmin c_rmax]; lra).
Qed.

(** * C126: a scan as it is read from the data set, 361 beams over half a turn *)
Theorem C126_partial : forall fuel sc nz c scan p PS l LS Jp ok e, (722 <= fuel)%nat -> vp_measure fuel sc nz p PS l LS Jp = Val (ok, e) ->
  within c (e_mean e) -> 0 < m_r (e_mean e) -> 0 <= t_d l -> c_tab c <> [] -> length scan = 361%nat ->
  let g := atan (t_d l / 2 / m_r (e_mean e)) in 0 <= m_b (e_mean e) - g -> m_b (e_mean e) + g <= PI ->
  exists v close, vp_pd2 fuel sc nz c scan p l = Val (v, close).
Proof. exact pd2_half. Qed.
Print Assumptions C126_partial.

(** With the limits of the configuration files: a tree of less than 2 m at 5 m and 177 degrees makes the
    sensor read beams behind the end of the scan. *)
Theorem C126_refuted : forall scan, length scan = 361%nat ->
  let l := fst (vp_inverse noise0 north (Circ 5 (59 * PI / 60) (10 * tan (PI / 36)))) in
  exists N, forall fuel, (N < fuel)%nat ->
  (exists e, vp_measure fuel sc0 noise0 north zero l zero zero = Val (true, e) /\ within sector (e_mean e)) /\
  0 < t_d l < 2 /\ vp_pd2 fuel sc0 noise0 sector scan north l = UB OutOfBounds.
Proof. exact half_scan_out. Qed.
Print Assumptions C126_refuted.

(** A tree straight ahead (bearing 90 degrees) as wide as its distance: half angle below 45 degrees. *)
Example C126_ex : let z := Circ 5 (PI / 2) 1 in 0 <= m_b z - atan (m_d z / 2 / m_r z) /\ m_b z + atan (m_d z / 2 / m_r z) <= PI.
Proof. cbn. pose proof PI_RGT_0. destruct (half_angle_spec (1 / 2) 5) as (_ & A & B); lra. Qed.

(** * C127: the probability used by the filters is the largest over a neighbourhood *)
Theorem C127_partial : forall fuel sc nz c scan p l LS v close, vp_pd fuel sc nz c scan p l LS = Val (v, close) ->
  exists ux uy (is : list Z), ux ^ 2 + uy ^ 2 = 1 /\
    let spot i := Tree (t_x l + IZR i * 2 * t_d l * ux) (t_y l + IZR i * 2 * t_d l * uy) (t_d l) in
    In 0%Z is /\ (forall i, In i is -> In (- i)%Z is) /\
    (let q := (ux * LS 0%nat 0%nat + uy * LS 1%nat 0%nat) * ux + (ux * LS 0%nat 1%nat + uy * LS 1%nat 1%nat) * uy in
     0 <= q -> forall i, In i is <-> IZR (Z.abs i - 1) * (2 * t_d l) < Rmax (3 * sqrt q) (2 / 10)) /\
    (forall i, In i is -> exists w f, vp_pd2 fuel sc nz c scan p (spot i) = Val (w, f) /\ w <= v) /\
    (exists i f, In i is /\ vp_pd2 fuel sc nz c scan p (spot i) = Val (v, f)) /\
    (forall i f w j g, In i is -> In j is -> vp_pd2 fuel sc nz c scan p (spot i) = Val (0, f) ->
       (forall k w' f', In k is -> vp_pd2 fuel sc nz c scan p (spot k) = Val (w', f') -> 0 <= w') ->
       vp_pd2 fuel sc nz c scan p (spot j) = Val (w, g) -> 0 < w -> close = true) /\
    (close = true -> (exists w, vp_pd2 fuel sc nz c scan p l = Val (w, true)) \/
       0 < v /\ exists i f, In i is /\ vp_pd2 fuel sc nz c scan p (spot i) = Val (0, f)).
Proof. exact vp_pd_ok. Qed.
Print Assumptions C127_partial.

(** The call returns for every tree of positive diameter, *)
Theorem C127_ends_partial : forall sc nz c scan p l LS, 0 < t_d l ->
  exists N, forall fuel, (N < fuel)%nat -> vp_pd fuel sc nz c scan p l LS <> OutOfFuel.
Proof. exact vp_pd_total. Qed.
Print Assumptions C127_ends_partial.

(** and never for an estimated diameter that is zero or negative. *)
Theorem C127_refuted : forall sc nz c scan p l LS, t_d l <= 0 ->
  (forall a b, 0 <= (a * LS 0%nat 0%nat + b * LS 1%nat 0%nat) * a + (a * LS 0%nat 1%nat + b * LS 1%nat 1%nat) * b) ->
  forall fuel, vp_pd fuel sc nz c scan p l LS = OutOfFuel.
Proof. exact pd_diverges. Qed.
Print Assumptions C127_refuted.
Example C127_refuted_ex : t_d (Tree 8 0 (-1 / 10)) <= 0 /\
  (forall a b, 0 <= (a * zero 0%nat 0%nat + b * zero 1%nat 0%nat) * a + (a * zero 0%nat 1%nat + b * zero 1%nat 1%nat) * b).
Proof. split; [cbn; lra|]. intros a b. unfold zero. lra. Qed.

(** The neighbours are not beside the tree: for a tree to the east of a vehicle that looks north they lie
    on the line of sight. *)
Theorem C127_side_refuted : exists N, forall fuel, (N < fuel)%nat ->
  exists e u, vp_measure fuel sc0 noise0 north zero (Tree 8 0 1) zero zero = Val (true, e) /\ side north (e_mean e) = u /\
  fst u * (8 - p_x north) + snd u * (0 - p_y north) = -8.
Proof.
  destruct (east_measured sc0 noise0 zero zero zero 8 1 ltac:(lra)) as (N & e & H & E). exists N. intros fuel F. exists e, (-1, 0).
  split; [apply H; exact F|]. rewrite E, east_side by lra. split; [reflexivity|]. cbn. lra.
Qed.
Print Assumptions C127_side_refuted.

(** * C128: clutter *)

(** Scan all around: intensity times area seen is the expected number of false alarms. *)
Theorem C128_partial : forall c scan, length scan = 720%nat -> polygon scan <> 0 ->
  exists i, vp_clutter c scan = Val (Some i) /\ i * polygon scan = vp_integral c.
Proof. exact clutter_full. Qed.
Print Assumptions C128_partial.

(** Any scan with all echoes that covers a part of the turn only: the intensity is too low, a triangle
    between the last and the first beam is added. *)
Theorem C128_refuted : forall c scan, (2 <= length scan)%nat -> (forall x, In x scan -> 0 < x) -> 0 < vp_integral c ->
  exists i, vp_clutter c scan = Val (Some i) /\ i * fan 0 scan < vp_integral c.
Proof. exact clutter_half. Qed.
Print Assumptions C128_refuted.
Example C128_refuted_ex : length (repeat 5 361) = 361%nat /\ (forall x, In x (repeat 5 361) -> 0 < x).
Proof. split; [apply repeat_length|]. intros x H. apply repeat_spec in H. subst. lra. Qed.

(** Nothing in sight: the intensity is infinite. *)
Theorem C128_no_echo_refuted : forall c n, (0 < n)%nat -> vp_clutter c (repeat 0 n) = Val None.
Proof. exact clutter_no_echo. Qed.
Print Assumptions C128_no_echo_refuted.

(** No scan: the first beam is read anyway. *)
Theorem C128_empty_refuted : exists scan, forall c, vp_clutter c scan = UB OutOfBounds.
Proof. exists []. reflexivity. Qed.
Print Assumptions C128_empty_refuted.

Example C128_ex : polygon (repeat 5 720) <> 0.
Proof. exact polygon_ex. Qed.
