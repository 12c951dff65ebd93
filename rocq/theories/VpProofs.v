(** Proofs about the tree sensor: measuring and mapping back, counting beams. *)
From Coq Require Import Reals List Bool ZArith Lra Lia.
From Verif Require Import Base AngleModel AngleProofs SensorModel SensorProofs VpModel VpSpec.
Import ListNotations.
Local Open Scope R_scope.

(** * Measuring and mapping back *)
Lemma turned_cs : forall t, cos (t - PI / 2) = sin t /\ sin (t - PI / 2) = - cos t.
Proof. intros t. rewrite cos_minus, sin_minus, cos_PI2, sin_PI2. split; ring. Qed.

Lemma vp_measure_ok : forall sc nz p PS l LS Jp,
  let dx := t_x l - p_x p in let dy := t_y l - p_y p in let r := sqrt (dx ^ 2 + dy ^ 2) in
  exists N e, (forall fuel, (N < fuel)%nat -> vp_measure fuel sc nz p PS l LS Jp = Val (true, e)) /\
    m_r (e_mean e) = r /\ - PI <= m_b (e_mean e) <= PI /\ m_d (e_mean e) = t_d l /\
    (0 < r -> r * sin (m_b (e_mean e)) = cos (p_t p) * dx + sin (p_t p) * dy /\
              r * cos (m_b (e_mean e)) = sin (p_t p) * dx - cos (p_t p) * dy).
Proof.
  intros sc nz p PS l LS Jp dx dy r.
  destruct (measure_rb_ok sc (turned p) (fun _ _ => 0) (t_x l, t_y l) LS (n_R nz)) as (N & e & H & Hr & Hb & _ & Hcs).
  cbn [fst snd turned p_x p_y p_t] in *. fold dx dy r in Hr, Hcs.
  exists N. eexists. split; [intros fuel F; unfold vp_measure; rewrite (H fuel F); cbn [obind]; reflexivity|].
  cbn [e_mean m_r m_b m_d]. split; [exact Hr|]. split; [exact Hb|]. split; [reflexivity|].
  intro P. destruct (Hcs P) as (A & B). destruct (turned_cs (p_t p)) as (C & S). rewrite C, S in *. split; [rewrite B|rewrite A]; ring.
Qed.
Lemma vp_measure_fun : forall f f' sc sc' nz p PS PS' l LS LS' Jp Jp' a e a' e',
  vp_measure f sc nz p PS l LS Jp = Val (a, e) -> vp_measure f' sc' nz p PS' l LS' Jp' = Val (a', e') -> e_mean e = e_mean e'.
Proof.
  intros f f' sc sc' nz p PS PS' l LS LS' Jp Jp' a e a' e' H H'. unfold vp_measure, measure_rb in *.
  apply obind_val in H. destruct H as (x & Hx & H). apply obind_val in H'. destruct H' as (x' & Hx' & H').
  apply obind_val in Hx. destruct Hx as (w & Hw & Hx). apply obind_val in Hx'. destruct Hx' as (w' & Hw' & Hx').
  assert (w = w').
  { pose proof (wrap_mono f (f + f') _ _ Hw ltac:(lia)) as A. pose proof (wrap_mono f' (f + f') _ _ Hw' ltac:(lia)) as B. congruence. }
  subst w'. injection Hx as <-. injection Hx' as <-. injection H as <- <-. injection H' as <- <-. reflexivity.
Qed.

Lemma vp_back : forall fuel sc nz p PS l LS Jp ok e, vp_measure fuel sc nz p PS l LS Jp = Val (ok, e) ->
  fst (vp_inverse nz p (e_mean e)) = l.
Proof.
  intros fuel sc nz p PS l LS Jp ok e H.
  destruct (vp_measure_ok sc nz p PS l LS Jp) as (N & e' & H' & Hr & _ & Hd & Hcs).
  assert (E : e_mean e = e_mean e') by (eapply vp_measure_fun; [exact H|apply (H' (S N)); lia]). rewrite E. clear E H H'.
  set (dx := t_x l - p_x p) in *. set (dy := t_y l - p_y p) in *. set (z := e_mean e') in *.
  unfold vp_inverse, inverse_rb. cbn [fst snd turned p_x p_y p_t]. rewrite Hd.
  destruct (turned_cs (p_t p)) as (C & S).
  assert (X : m_r z * cos (p_t p - PI / 2 + m_b z) = dx /\ m_r z * sin (p_t p - PI / 2 + m_b z) = dy).
  { rewrite Hr. rewrite cos_plus, sin_plus, C, S. destruct (Rle_lt_or_eq_dec 0 (sqrt (dx ^ 2 + dy ^ 2)) (sqrt_pos _)) as [P|Z].
    - destruct (Hcs P) as (A & B). pose proof (cs1 (p_t p)) as U.
      set (r := sqrt (dx ^ 2 + dy ^ 2)) in *. split.
      + transitivity (sin (p_t p) * (r * cos (m_b z)) + cos (p_t p) * (r * sin (m_b z))); [ring|]. rewrite A, B.
        transitivity (dx * (cos (p_t p) * cos (p_t p) + sin (p_t p) * sin (p_t p))); [ring|]. rewrite U. ring.
      + transitivity (- cos (p_t p) * (r * cos (m_b z)) + sin (p_t p) * (r * sin (m_b z))); [ring|]. rewrite A, B.
        transitivity (dy * (cos (p_t p) * cos (p_t p) + sin (p_t p) * sin (p_t p))); [ring|]. rewrite U. ring.
    - rewrite <- Z. assert (0 = dx ^ 2 + dy ^ 2).
      { pose proof (pow2_ge_0 dx). pose proof (pow2_ge_0 dy). symmetry in Z. apply sqrt_eq_0 in Z; lra. }
      assert (dx = 0 /\ dy = 0) by (split; nra). lra. }
  destruct X as (X & Y). rewrite X, Y. unfold dx, dy. destruct l as [x y d]. cbn. f_equal; ring.
Qed.

Lemma vp_there : forall sc nz p PS LS Jp r b d, 0 < r -> - PI < b < PI ->
  exists N e, (forall fuel, (N < fuel)%nat ->
    vp_measure fuel sc nz p PS (fst (vp_inverse nz p (Circ r b d))) LS Jp = Val (true, e)) /\ e_mean e = Circ r b d.
Proof.
  intros sc nz p PS LS Jp r b d Hr Hb.
  destruct (trip_rb sc (turned p) (fun _ _ => 0) LS (n_R nz) r b Hr) as (N & e & H & Er & _ & _ & Eb & _).
  exists N. eexists. split.
  { intros fuel F. unfold vp_measure, vp_inverse. cbn [fst t_x t_y m_r m_b]. rewrite <- surjective_pairing.
    rewrite (H fuel F). cbn [obind]. reflexivity. }
  cbn [e_mean t_d m_d fst vp_inverse]. rewrite Er, (Eb Hb). reflexivity.
Qed.

Lemma vp_cov : forall fuel sc nz p PS l LS Jp ok e J S, vp_measure fuel sc nz p PS l LS Jp = Val (ok, e) ->
  e_lin e = Some (J, S) ->
  (forall i j, (i < 2)%nat -> (j < 2)%nat -> S i j = sandwich 2 J LS i j + n_R nz i j) /\
  S 2%nat 2%nat = LS 2%nat 2%nat + n_R nz 2%nat 2%nat + m_r (e_mean e) ^ 2 * n_lb nz /\
  (forall i, (i < 2)%nat -> S i 2%nat = 0 /\ S 2%nat i = 0) /\
  (forall i j, (i < 3)%nat -> (j < 3)%nat -> (i = 2%nat \/ j = 2%nat) -> J i j = if (i =? j)%nat then 1 else 0).
Proof.
  intros fuel sc nz p PS l LS Jp ok e J S H L. unfold vp_measure in H. apply obind_val in H. destruct H as (x & Hx & H).
  injection H as <- <-. cbn [e_lin e_mean m_r] in *. pose proof (measure_rb_lin _ _ _ _ _ _ _ _ Hx) as E. cbv zeta in E.
  destruct (Req_EM_T _ 0) as [_|_] in E; rewrite E in L; [discriminate|]. injection L as <- <-. clear E Hx. cbn [l_cov l_lmk].
  split; [|split; [reflexivity|split]].
  - intros i j Hi Hj. unfold with_block at 1. assert (I : ((i <? 2)%nat && (j <? 2)%nat)%bool = true).
    { apply andb_true_intro. split; apply Nat.ltb_lt; assumption. }
    rewrite I. unfold expected_cov, madd. f_equal.
    assert (Z : forall H, sandwich 3 H (fun _ _ => 0) i j = 0) by (intro H; unfold sandwich, mmul, dot; ring).
    rewrite Z, Rplus_0_r. destruct i as [|[|]]; [| |lia]; (destruct j as [|[|]]; [| |lia]); reflexivity.
  - intros i Hi. destruct i as [|[|]]; [| |lia]; split; reflexivity.
  - intros i j Hi Hj [->| ->]; [destruct j as [|[|[|]]]|destruct i as [|[|[|]]]]; try lia; reflexivity.
Qed.

(** * Floor and ceil *)
Lemma floorR_spec : forall x, IZR (floorR x) <= x < IZR (floorR x) + 1.
Proof. intro x. unfold floorR. destruct (base_Int_part x). lra. Qed.
Lemma ceilR_spec : forall x, x <= IZR (ceilR x) < x + 1.
Proof. intro x. unfold ceilR. rewrite opp_IZR. destruct (base_Int_part (- x)). lra. Qed.
Lemma floorR_int : forall k : Z, floorR (IZR k) = k.
Proof. intro k. destruct (floorR_spec (IZR k)) as (A & B). apply le_IZR in A. rewrite <- plus_IZR in B. apply lt_IZR in B. lia. Qed.
Lemma ceilR_int : forall k : Z, ceilR (IZR k) = k.
Proof. intro k. destruct (ceilR_spec (IZR k)) as (A & B). apply le_IZR in A. rewrite <- plus_IZR in B. apply lt_IZR in B. lia. Qed.

(** * Half angle *)
Lemma half_angle_spec : forall radius range, 0 < range -> 0 <= radius ->
  half_angle radius range = Some (atan (radius / range)) /\ 0 <= atan (radius / range) < PI / 2.
Proof.
  intros radius range Hr H0. unfold half_angle. destruct (Req_EM_T range 0); [lra|]. split; [reflexivity|].
  destruct (atan_bound (radius / range)) as (_ & U). split; [|exact U].
  rewrite <- atan_0. destruct (Rle_lt_or_eq_dec 0 (radius / range)) as [L|E].
  - apply Rmult_le_pos; [exact H0|]. left. apply Rinv_0_lt_compat. exact Hr.
  - left. apply atan_increasing. exact L.
  - rewrite <- E. lra.
Qed.
Lemma beams_range : forall g, 0 <= g <= PI / 2 -> (0 <= beams g < 720)%Z.
Proof.
  intros g (L & U). pose proof PI_RGT_0 as HP. unfold beams. destruct (floorR_spec (2 * g * 720 / (2 * PI))) as (A & B).
  assert (E : 2 * g * 720 / (2 * PI) = g * (720 / PI)) by (field; lra). rewrite E in *.
  assert (P : 0 < 720 / PI) by (apply Rmult_lt_0_compat; [lra|apply Rinv_0_lt_compat; exact HP]).
  assert (G : g * (720 / PI) < 720).
  { apply Rle_lt_trans with (PI / 2 * (720 / PI)); [apply Rmult_le_compat_r; lra|]. replace (PI / 2 * (720 / PI)) with 360 by (field; lra). lra. }
  assert (G0 : 0 <= g * (720 / PI)) by (apply Rmult_le_pos; lra).
  split.
  - apply Z.lt_succ_r. apply lt_IZR. rewrite succ_IZR. lra.
  - apply lt_IZR. lra.
Qed.
Lemma first_range : forall b g, - PI <= b <= PI -> 0 <= g <= PI / 2 -> (-720 <= first_beam b g < 720)%Z.
Proof.
  intros b g Hb Hg. pose proof PI_RGT_0 as HP. unfold first_beam. destruct (ceilR_spec ((b - g) * 720 / (2 * PI))) as (A & B).
  assert (E : (b - g) * 720 / (2 * PI) = (b - g) * (360 / PI)) by (field; lra). rewrite E in *.
  assert (P : 0 < 360 / PI) by (apply Rmult_lt_0_compat; [lra|apply Rinv_0_lt_compat; exact HP]).
  assert (U : (b - g) * (360 / PI) <= 360).
  { apply Rle_trans with (PI * (360 / PI)); [apply Rmult_le_compat_r; lra|]. right. field. lra. }
  assert (L : - 540 <= (b - g) * (360 / PI)).
  { apply Rle_trans with (- (3 / 2 * PI) * (360 / PI)); [right; field; lra|apply Rmult_le_compat_r; lra]. }
  split; [apply le_IZR|apply lt_IZR]; lra.
Qed.

(** The beams counted lie within the half angle. *)
Lemma counted_within : forall b g (i : nat), (Z.of_nat i < beams g)%Z ->
  Rabs (beam_angle (first_beam b g + Z.of_nat i) - b) <= g.
Proof.
  intros b g i Hi. pose proof PI_RGT_0 as HP. unfold beam_angle, first_beam, beams in *.
  destruct (ceilR_spec ((b - g) * 720 / (2 * PI))) as (A & B). destruct (floorR_spec (2 * g * 720 / (2 * PI))) as (C & _).
  set (k := ceilR ((b - g) * 720 / (2 * PI))) in *. set (n := floorR (2 * g * 720 / (2 * PI))) in *.
  assert (E1 : (b - g) * 720 / (2 * PI) = (b - g) * (360 / PI)) by (field; lra).
  assert (E2 : 2 * g * 720 / (2 * PI) = 2 * g * (360 / PI)) by (field; lra). rewrite E1 in *. rewrite E2 in *. clear E1 E2.
  assert (Q : 0 < PI / 360) by lra. assert (PQ : 360 / PI * (PI / 360) = 1) by (field; lra).
  assert (Hi' : IZR (Z.of_nat i) + 1 <= IZR n) by (rewrite <- plus_IZR; apply IZR_le; lia).
  assert (I0 : 0 <= IZR (Z.of_nat i)) by (apply IZR_le; lia).
  rewrite plus_IZR. set (q := PI / 360) in *. set (h := 360 / PI) in *.
  assert (L : (b - g) * h * q <= (IZR k + IZR (Z.of_nat i)) * q) by (apply Rmult_le_compat_r; lra).
  assert (U : (IZR k + IZR (Z.of_nat i)) * q <= ((b - g) * h + 2 * g * h) * q) by (apply Rmult_le_compat_r; lra).
  replace ((b - g) * h * q) with ((b - g) * (h * q)) in L by ring.
  replace (((b - g) * h + 2 * g * h) * q) with ((b + g) * (h * q)) in U by ring. rewrite PQ in *.
  apply Rabs_le. lra.
Qed.

Lemma within_meets : forall radius range delta, 0 < range -> 0 <= radius -> Rabs delta <= atan (radius / range) ->
  meets range radius delta.
Proof.
  intros radius range delta Hr H0 Hd. destruct (half_angle_spec radius range Hr H0) as (_ & L & U). pose proof PI_RGT_0 as HP.
  set (g := atan (radius / range)) in *.
  assert (Ht : 0 <= radius / range) by (apply Rmult_le_pos; [exact H0|left; apply Rinv_0_lt_compat; exact Hr]).
  assert (Sg : sin g <= radius / range).
  { unfold g. rewrite sin_atan. set (t := radius / range) in *.
    assert (S1 : 1 <= sqrt (1 + t²)).
    { rewrite <- sqrt_1 at 1. apply sqrt_le_1_alt. pose proof (Rle_0_sqr t). lra. }
    apply Rmult_le_reg_r with (sqrt (1 + t²)); [lra|]. unfold Rdiv. rewrite Rmult_assoc, Rinv_l by lra. nra. }
  assert (Ab : - g <= delta <= g) by (unfold Rabs in Hd; destruct (Rcase_abs delta); lra).
  assert (Sd : Rabs (sin delta) <= radius / range).
  { apply Rle_trans with (sin g); [|exact Sg]. apply Rabs_le. split.
    - rewrite <- sin_neg. apply sin_incr_1; lra.
    - apply sin_incr_1; lra. }
  split.
  - rewrite Rabs_mult, (Rabs_right range) by lra. apply Rmult_le_compat_l with (r := range) in Sd; [|lra].
    replace (range * (radius / range)) with radius in Sd by (field; lra). exact Sd.
  - apply cos_gt_0; lra.
Qed.

(** * Beam numbers *)
Lemma beam720_mod : forall fuel z, (2 <= fuel)%nat -> (-720 <= z < 1440)%Z -> beam720 fuel z = Val (z mod 720)%Z.
Proof.
  intros [|[|f]] z F Hz; [lia|lia|]. unfold beam720. cbn [down720].
  destruct (Z.leb_spec 720 z).
  - destruct (Z.leb_spec 720 (z - 720)); [lia|]. cbn [obind up720]. destruct (Z.ltb_spec (z - 720) 0); [lia|].
    f_equal. apply (Z.mod_unique _ _ 1); lia.
  - cbn [obind up720]. destruct (Z.ltb_spec z 0).
    + destruct (Z.ltb_spec (z + 720) 0); [lia|]. f_equal. apply (Z.mod_unique _ _ (-1)); lia.
    + f_equal. symmetry. apply Z.mod_small. lia.
Qed.

Lemma filter_seq_S : forall (f : nat -> bool) n,
  length (filter f (seq 0 (S n))) = ((if f 0%nat then 1 else 0) + length (filter (fun i => f (S i)) (seq 0 n)))%nat.
Proof.
  intros f n. cbn [seq filter]. assert (E : forall l, length (filter f (map S l)) = length (filter (fun i => f (S i)) l)).
  { induction l as [|m l IH]; [reflexivity|]. cbn [map filter]. destruct (f (S m)); cbn [length]; rewrite IH; reflexivity. }
  rewrite <- seq_shift. destruct (f 0%nat); cbn [length]; rewrite E; reflexivity.
Qed.

Lemma entry_val : forall l i, (0 <= i < Z.of_nat (length l))%Z -> entry l i = Val (nth (Z.to_nat i) l 0).
Proof.
  intros l i H. unfold entry. destruct (Z.ltb_spec i 0); [lia|].
  rewrite (nth_error_nth' l 0) by lia. reflexivity.
Qed.
Lemma entry_out : forall l i, (i < 0 \/ Z.of_nat (length l) <= i)%Z -> entry l i = UB OutOfBounds.
Proof.
  intros l i H. unfold entry. destruct (Z.ltb_spec i 0); [reflexivity|].
  rewrite (proj2 (nth_error_None l (Z.to_nat i))) by lia. reflexivity.
Qed.
Lemma clear_val : forall scan from b, (0 <= b < Z.of_nat (length scan))%Z -> clear scan from b = Val (unblocked scan from b).
Proof.
  intros scan from b H. unfold clear. rewrite entry_val by exact H. cbn [obind]. unfold unblocked.
  rewrite (nth_error_nth' scan 0) by lia. reflexivity.
Qed.

Lemma next_beam : forall b n, (((b + 1) mod 720 + n) mod 720 = (b + (n + 1)) mod 720)%Z.
Proof. intros b n. rewrite Zplus_mod_idemp_l. f_equal. lia. Qed.

Lemma count_clear_ok : forall n fuel scan from b acc, (n < fuel)%nat -> (n < 720)%nat -> (0 <= b < 720)%Z ->
  (forall i, (i < n)%nat -> ((b + Z.of_nat i) mod 720 < Z.of_nat (length scan))%Z) ->
  count_clear fuel scan from b ((b + Z.of_nat n) mod 720) acc = Val (acc + unblocked_beams scan from b n)%nat.
Proof.
  induction n as [|n IH]; intros [|f] scan from b acc F N Hb H; try lia.
  - cbn [count_clear Z.of_nat]. rewrite Z.add_0_r, Z.mod_small by lia. rewrite Z.eqb_refl. f_equal. unfold unblocked_beams. cbn. lia.
  - cbn [count_clear]. destruct (Z.eqb_spec b ((b + Z.of_nat (S n)) mod 720)) as [E|_].
    { exfalso. assert ((b + Z.of_nat (S n) - b) mod 720 = 0)%Z.
      { rewrite Zminus_mod, <- E. replace (b mod 720)%Z with b by (symmetry; apply Z.mod_small; lia). rewrite Z.sub_diag. reflexivity. }
      rewrite Z.mod_small in H0 by lia. lia. }
    assert (R : (0 <= b < Z.of_nat (length scan))%Z).
    { specialize (H 0%nat ltac:(lia)). cbn [Z.of_nat] in H. rewrite Z.add_0_r, Z.mod_small in H by lia. lia. }
    rewrite clear_val by exact R. cbn [obind].
    replace (Z.of_nat (S n)) with (Z.of_nat n + 1)%Z by lia. rewrite <- next_beam. rewrite IH; [|lia|lia|apply Z.mod_pos_bound; lia|].
    2:{ intros i Hi. rewrite next_beam. specialize (H (S i) ltac:(lia)). replace (Z.of_nat i + 1)%Z with (Z.of_nat (S i)) by lia. exact H. }
    f_equal. unfold unblocked_beams. rewrite filter_seq_S. change (Z.of_nat 0) with 0%Z. rewrite Z.add_0_r, (Z.mod_small b) by lia.
    assert (X : filter (fun i => unblocked scan from (((b + 1) mod 720 + Z.of_nat i) mod 720)) (seq 0 n) =
                filter (fun i => unblocked scan from ((b + Z.of_nat (S i)) mod 720)) (seq 0 n)).
    { apply filter_ext. intro i. rewrite next_beam. replace (Z.of_nat (S i)) with (Z.of_nat i + 1)%Z by lia. reflexivity. }
    rewrite X. destruct (unblocked scan from b); lia.
Qed.
Lemma count_clear_out : forall n fuel scan from b acc, (n < fuel)%nat -> (n < 720)%nat -> (0 <= b < 720)%Z ->
  (exists i, (i < n)%nat /\ (Z.of_nat (length scan) <= (b + Z.of_nat i) mod 720)%Z) ->
  count_clear fuel scan from b ((b + Z.of_nat n) mod 720) acc = UB OutOfBounds.
Proof.
  induction n as [|n IH]; intros [|f] scan from b acc F N Hb (i & Hi & H); try lia.
  cbn [count_clear]. destruct (Z.eqb_spec b ((b + Z.of_nat (S n)) mod 720)) as [E|_].
  { exfalso. assert ((b + Z.of_nat (S n) - b) mod 720 = 0)%Z.
    { rewrite Zminus_mod, <- E. replace (b mod 720)%Z with b by (symmetry; apply Z.mod_small; lia). rewrite Z.sub_diag. reflexivity. }
    rewrite Z.mod_small in H0 by lia. lia. }
  destruct (Z_lt_le_dec b (Z.of_nat (length scan))) as [L|L].
  2:{ unfold clear. rewrite entry_out by lia. reflexivity. }
  rewrite clear_val by lia. cbn [obind].
  replace (Z.of_nat (S n)) with (Z.of_nat n + 1)%Z by lia. rewrite <- next_beam. apply IH; [lia|lia|apply Z.mod_pos_bound; lia|].
  destruct i as [|i].
  { cbn [Z.of_nat] in H. rewrite Z.add_0_r, Z.mod_small in H by lia. lia. }
  exists i. split; [lia|]. rewrite next_beam. replace (Z.of_nat i + 1)%Z with (Z.of_nat (S i)) by lia. exact H.
Qed.
