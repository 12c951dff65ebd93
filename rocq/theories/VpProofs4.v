(** Proofs about the tree sensor: statements about pose and tree, and the witnesses. *)
From Coq Require Import Reals List Bool ZArith Lra Lia.
From Verif Require Import Base AngleModel AngleProofs SensorModel SensorProofs VpModel VpSpec VpProofs VpProofs2 VpProofs3.
Import ListNotations.
Local Open Scope R_scope.

Lemma pd2_score : forall fuel sc sc' nz nz' c scan p PS l LS Jp ok e, vp_measure fuel sc nz p PS l LS Jp = Val (ok, e) ->
  vp_pd2 fuel sc' nz' c scan p l = vp_score fuel c scan (e_mean e) /\
  0 <= m_r (e_mean e) /\ - PI <= m_b (e_mean e) <= PI /\ m_d (e_mean e) = t_d l.
Proof.
  intros fuel sc sc' nz nz' c scan p PS l LS Jp ok e H. unfold vp_pd2, vp_measure, measure_rb in *.
  apply obind_val in H. destruct H as (x & Hx & H). apply obind_val in Hx. destruct Hx as (w & Hw & Hx).
  rewrite Hw. cbn [obind]. injection Hx as <-. injection H as <- <-. cbn [snd e_mean x_mean fst m_r m_b m_d].
  split; [reflexivity|]. split; [apply sqrt_pos|]. split; [|reflexivity]. apply (wrap_val _ _ _ Hw).
Qed.

Lemma pd2_full : forall fuel sc nz c scan p PS l LS Jp ok e, (722 <= fuel)%nat -> vp_measure fuel sc nz p PS l LS Jp = Val (ok, e) ->
  within c (e_mean e) -> 0 < m_r (e_mean e) -> 0 <= t_d l -> c_tab c <> [] -> length scan = 720%nat ->
  exists k0 n v close, covers (m_b (e_mean e)) (atan (t_d l / 2 / m_r (e_mean e))) k0 n /\
    vp_pd2 fuel sc nz c scan p l = Val (v, close) /\
    ((n < length (c_tab c))%nat -> nth n (c_tab c) 0 = 0 -> v = 0) /\
    (((n < length (c_tab c))%nat -> nth n (c_tab c) 0 <> 0) ->
       v = table_at (c_tab c) (unblocked_beams scan (m_r (e_mean e) - t_d l / 2 - 18 / 100) k0 n)) /\
    (close = true <-> (n < length (c_tab c))%nat /\ nth n (c_tab c) 0 < c_buf c /\ v <> 0).
Proof.
  intros fuel sc nz c scan p PS l LS Jp ok e F H W Hr Hd Ht Hl.
  destruct (pd2_score fuel sc sc nz nz c scan p PS l LS Jp ok e H) as (E & _ & Hb & Ed). rewrite E. rewrite <- Ed in *.
  destruct (half_angle_spec (m_d (e_mean e) / 2) (m_r (e_mean e)) Hr) as (_ & G); [lra|].
  pose proof (covers_model (m_b (e_mean e)) _ G) as C.
  destruct (score_val fuel c scan (e_mean e) _ _ F W Hr Hd Hb Ht C) as (v & close & A & B).
  { intros i Hi. rewrite Hl. apply Z.mod_pos_bound. lia. }
  eexists. eexists. exists v, close. split; [exact C|]. split; [exact A|exact B].
Qed.

Lemma pd2_half : forall fuel sc nz c scan p PS l LS Jp ok e, (722 <= fuel)%nat -> vp_measure fuel sc nz p PS l LS Jp = Val (ok, e) ->
  within c (e_mean e) -> 0 < m_r (e_mean e) -> 0 <= t_d l -> c_tab c <> [] -> length scan = 361%nat ->
  let g := atan (t_d l / 2 / m_r (e_mean e)) in 0 <= m_b (e_mean e) - g -> m_b (e_mean e) + g <= PI ->
  exists v close, vp_pd2 fuel sc nz c scan p l = Val (v, close).
Proof.
  intros fuel sc nz c scan p PS l LS Jp ok e F H W Hr Hd Ht Hl g G1 G2.
  destruct (pd2_score fuel sc sc nz nz c scan p PS l LS Jp ok e H) as (E & _ & Hb & Ed). rewrite E. unfold g in *. rewrite <- Ed in *.
  destruct (half_angle_spec (m_d (e_mean e) / 2) (m_r (e_mean e)) Hr) as (_ & G); [lra|].
  pose proof (covers_model (m_b (e_mean e)) _ G) as C.
  destruct (score_val fuel c scan (e_mean e) _ _ F W Hr Hd Hb Ht C) as (v & close & A & _).
  { intros i Hi. rewrite Hl. apply (front_reads _ _ _ _ G1 G2 C i Hi). }
  exists v, close. exact A.
Qed.

Lemma pd2_out : forall fuel sc nz c scan p PS l LS Jp ok e k0 n, (722 <= fuel)%nat -> vp_measure fuel sc nz p PS l LS Jp = Val (ok, e) ->
  within c (e_mean e) -> 0 < m_r (e_mean e) -> 0 <= t_d l ->
  covers (m_b (e_mean e)) (atan (t_d l / 2 / m_r (e_mean e))) k0 n ->
  ((n < length (c_tab c))%nat -> nth n (c_tab c) 0 <> 0) ->
  (exists i, (i < n)%nat /\ (Z.of_nat (length scan) <= (k0 + Z.of_nat i) mod 720)%Z) ->
  vp_pd2 fuel sc nz c scan p l = UB OutOfBounds.
Proof.
  intros fuel sc nz c scan p PS l LS Jp ok e k0 n F H W Hr Hd C N X.
  destruct (pd2_score fuel sc sc nz nz c scan p PS l LS Jp ok e H) as (E & _ & Hb & Ed). rewrite E. rewrite <- Ed in *.
  apply (score_out fuel c scan (e_mean e) k0 n); assumption.
Qed.
Lemma pd2_outside : forall fuel sc nz c scan p PS l LS Jp ok e, vp_measure fuel sc nz p PS l LS Jp = Val (ok, e) ->
  ~ within c (e_mean e) -> vp_pd2 fuel sc nz c scan p l = Val (0, false).
Proof.
  intros fuel sc nz c scan p PS l LS Jp ok e H W.
  destruct (pd2_score fuel sc sc nz nz c scan p PS l LS Jp ok e H) as (E & _). rewrite E. apply score_outside. exact W.
Qed.

Lemma covered_meets : forall r d b k0 n i, 0 < r -> 0 <= d -> covers b (atan (d / 2 / r)) k0 n -> (i < n)%nat ->
  meets r (d / 2) (beam_angle (k0 + Z.of_nat i) - b).
Proof.
  intros r d b k0 n i Hr Hd C Hi. apply within_meets; [exact Hr|lra|]. apply (covers_within _ _ _ _ _ C Hi).
Qed.

(** * A pose that looks north, with trees to the east *)
Definition north : pose2 := P2 0 0 (PI / 2).
Lemma east : forall nz r d, fst (vp_inverse nz north (Circ r 0 d)) = Tree r 0 d.
Proof.
  intros nz r d. unfold vp_inverse, inverse_rb, turned, north. cbn [fst snd p_x p_y p_t m_r m_b m_d].
  replace (PI / 2 - PI / 2 + 0) with 0 by lra. rewrite cos_0, sin_0. f_equal; ring.
Qed.
Lemma east_measured : forall sc nz PS LS Jp r d, 0 < r -> exists N e, (forall fuel, (N < fuel)%nat ->
  vp_measure fuel sc nz north PS (Tree r 0 d) LS Jp = Val (true, e)) /\ e_mean e = Circ r 0 d.
Proof.
  intros sc nz PS LS Jp r d Hr. pose proof PI_RGT_0.
  destruct (vp_there sc nz north PS LS Jp r 0 d Hr) as (N & e & H1 & H2); [lra|]. rewrite east in H1. exists N, e. split; assumption.
Qed.
Lemma east_side : forall r d, 0 < r -> side north (Circ r 0 d) = (-1, 0).
Proof.
  intros r d Hr. unfold side, north. cbn [m_b m_r p_t]. unfold atan2. destruct (Rlt_dec 0 r); [|lra].
  replace (0 / r) with 0 by (field; lra). rewrite atan_0, Rplus_0_l, sin_PI2, cos_PI2. reflexivity.
Qed.

(** One entry in the table: it is the answer within the limits. *)
Lemma pd2_east : forall fuel sc nz c scan PS LS Jp r d e v, (722 <= fuel)%nat ->
  vp_measure fuel sc nz north PS (Tree r 0 d) LS Jp = Val (true, e) -> e_mean e = Circ r 0 d -> 0 < r -> 0 <= d ->
  c_bmin c <= 0 <= c_bmax c -> c_rmin c <= r <= c_rmax c -> c_tab c = [v] -> v <> 0 -> length scan = 720%nat ->
  exists close, vp_pd2 fuel sc nz c scan north (Tree r 0 d) = Val (v, close).
Proof.
  intros fuel sc nz c scan PS LS Jp r d e v F H E Hr Hd Hb Hl Ht Hv Hs.
  destruct (pd2_full fuel sc nz c scan north PS (Tree r 0 d) LS Jp true e F H) as (k0 & n & w & close & _ & A & B & C & _).
  - unfold within. rewrite E. cbn [m_b m_r]. split; assumption.
  - rewrite E. exact Hr.
  - exact Hd.
  - rewrite Ht. discriminate.
  - exact Hs.
  - exists close. rewrite A. f_equal. f_equal. rewrite Ht in *. cbn [length nth] in *. rewrite C.
    + unfold table_at. cbn [length Nat.sub]. rewrite Nat.min_0_r. reflexivity.
    + intro L. destruct n as [|n]; [exact Hv|lia].
Qed.

Definition cfg9 : vcfg := VCfg [1] 1 (-1) 9 1 0 1.
Definition noise0 : vnoise := VNoise (fun _ _ => 0) 0.
Definition sc0 : scfg := SCfg 1 0 0 0 0.
Definition zero : mx := fun _ _ => 0.

Lemma steps_one : forall fuel, (2 <= fuel)%nat -> steps fuel 1 (Some (Rmax (3 * sqrt 0) (2 / 10))) 1 = Val [1%Z].
Proof.
  intros [|[|f]] F; [lia|lia|]. rewrite sqrt_0, Rmult_0_r, Rmax_right by lra. cbn [steps].
  destruct (Rlt_dec (IZR (1 - 1) * (2 * 1)) (2 / 10)) as [_|X]; [|exfalso; apply X; cbn; lra].
  destruct (Rlt_dec (IZR (1 + 1 - 1) * (2 * 1)) (2 / 10)) as [X|_]; [exfalso; cbn in X; lra|]. reflexivity.
Qed.

Lemma pd_far : exists N, forall fuel, (N < fuel)%nat ->
  vp_pd fuel sc0 noise0 cfg9 (repeat 0 720) north (Tree 10 0 1) zero = Val (1, true) /\
  exists e, vp_measure fuel sc0 noise0 north zero (Tree 10 0 1) zero zero = Val (true, e) /\ c_rmax cfg9 < m_r (e_mean e) /\
  vp_pd2 fuel sc0 noise0 cfg9 (repeat 0 720) north (Tree 10 0 1) = Val (0, false).
Proof.
  destruct (east_measured sc0 noise0 zero zero zero 10 1 ltac:(lra)) as (N1 & e1 & H1 & E1).
  destruct (east_measured sc0 noise0 zero zero zero 8 1 ltac:(lra)) as (N2 & e2 & H2 & E2).
  destruct (east_measured sc0 noise0 zero zero zero 12 1 ltac:(lra)) as (N3 & e3 & H3 & E3).
  exists (N1 + N2 + N3 + 722)%nat. intros fuel F. specialize (H1 fuel ltac:(lia)). specialize (H2 fuel ltac:(lia)). specialize (H3 fuel ltac:(lia)).
  assert (P1 : vp_pd2 fuel sc0 noise0 cfg9 (repeat 0 720) north (Tree 10 0 1) = Val (0, false)).
  { eapply pd2_outside; [exact H1|]. unfold within. rewrite E1. cbn. lra. }
  assert (P3 : vp_pd2 fuel sc0 noise0 cfg9 (repeat 0 720) north (Tree 12 0 1) = Val (0, false)).
  { eapply pd2_outside; [exact H3|]. unfold within. rewrite E3. cbn. lra. }
  assert (P2' : exists close, vp_pd2 fuel sc0 noise0 cfg9 (repeat 0 720) north (Tree 8 0 1) = Val (1, close)).
  { apply (pd2_east fuel sc0 noise0 cfg9 (repeat 0 720) zero zero zero 8 1 e2 1); try exact H2; try exact E2; try (cbn; lra); try lia; try reflexivity; try lra;
      try (cbn [cfg9 c_bmin c_bmax c_rmin c_rmax]; lra). }
  destruct P2' as (close & P2').
  split.
  - unfold vp_pd. change (fun _ _ : nat => 0) with zero. rewrite H1. cbn [obind snd]. rewrite E1, east_side by lra.
    assert (Q : reach zero (-1, 0) = Some (Rmax (3 * sqrt 0) (2 / 10))).
    { unfold reach. cbn [fst snd]. unfold zero. replace ((-1 * 0 + 0 * 0) * -1 + (-1 * 0 + 0 * 0) * 0) with 0 by ring.
      destruct (Rlt_dec 0 0); [lra|reflexivity]. }
    rewrite Q. cbn [t_d]. rewrite steps_one by lia. cbn [obind].
    assert (L : looked_at (Tree 10 0 1) (-1, 0) [1%Z] = [Tree 8 0 1; Tree 12 0 1; Tree 10 0 1]).
    { unfold looked_at, shifted. cbn [flat_map app t_x t_y t_d fst snd]. rewrite opp_IZR.
      replace (10 + 1 * 2 * 1 * -1) with 8 by ring. replace (0 + 1 * 2 * 1 * 0) with 0 by ring.
      replace (10 + - (1) * 2 * 1 * -1) with 12 by ring. replace (0 + - (1) * 2 * 1 * 0) with 0 by ring. reflexivity. }
    rewrite L. cbn [each]. rewrite P2', P3, P1. cbn [obind map fst greatest least fold_left last snd].
    rewrite (Rmax_left 1 0), (Rmax_left 1 0), (Rmin_right 1 0), (Rmin_left 0 0) by lra.
    destruct (Req_EM_T 0 0); [|lra]. destruct (Rlt_dec 0 1); [reflexivity|lra].
  - exists e1. split; [exact H1|]. rewrite E1. split; [cbn; lra|exact P1].
Qed.

(** * A half scan *)
Definition sector : vcfg := VCfg [1 / 2] (59 * PI / 60) (PI / 30) 70 5 0 1.
Lemma tan_small : 0 < tan (PI / 36) < 12 / 100.
Proof.
  pose proof PI_RGT_0 as HP. pose proof PI_4 as H4.
  assert (S0 : 0 < sin (PI / 36)) by (apply sin_gt_0; lra).
  assert (S1 : sin (PI / 36) < PI / 36) by (apply sin_lt_x; lra).
  assert (S2 : 0 < sin (PI / 36 / 2) < PI / 36 / 2) by (split; [apply sin_gt_0; lra|apply sin_lt_x; lra]).
  assert (C : cos (PI / 36) = 1 - 2 * sin (PI / 36 / 2) * sin (PI / 36 / 2)).
  { replace (PI / 36) with (2 * (PI / 36 / 2)) at 1 by field. rewrite cos_2a_sin. ring. }
  assert (Cb : 99 / 100 < cos (PI / 36)) by (rewrite C; nra).
  unfold tan. split; [apply Rmult_lt_0_compat; [exact S0|apply Rinv_0_lt_compat; lra]|].
  apply Rmult_lt_reg_r with (cos (PI / 36)); [lra|]. unfold Rdiv at 1. rewrite Rmult_assoc, Rinv_l by lra. lra.
Qed.

Lemma half_scan_out : forall scan, length scan = 361%nat -> let l := fst (vp_inverse noise0 north (Circ 5 (59 * PI / 60) (10 * tan (PI / 36)))) in
  exists N, forall fuel, (N < fuel)%nat ->
  (exists e, vp_measure fuel sc0 noise0 north zero l zero zero = Val (true, e) /\ within sector (e_mean e)) /\
  0 < t_d l < 2 /\ vp_pd2 fuel sc0 noise0 sector scan north l = UB OutOfBounds.
Proof.
  intros scan Hs l. pose proof PI_RGT_0 as HP. pose proof tan_small as T.
  destruct (vp_there sc0 noise0 north zero zero zero 5 (59 * PI / 60) (10 * tan (PI / 36))) as (N & e & H & E); [lra|lra|]. fold l in H.
  exists (N + 722)%nat. intros fuel F. specialize (H fuel ltac:(lia)).
  assert (W : within sector (e_mean e)) by (unfold within; rewrite E; cbn [sector m_b m_r c_bmin c_bmax c_rmin c_rmax]; lra).
  assert (D : t_d l = 10 * tan (PI / 36)) by reflexivity.
  split; [exists e; split; assumption|]. rewrite D. split; [lra|].
  apply (pd2_out fuel sc0 noise0 sector scan north zero l zero zero true e 344 20); [lia|exact H|exact W|rewrite E; cbn; lra|rewrite D; lra| | |].
  - rewrite E, D. cbn [m_b m_r]. replace (10 * tan (PI / 36) / 2 / 5) with (tan (PI / 36)) by field. rewrite atan_tan by lra.
    unfold covers, beam_angle. rewrite INR_IZR_INZ. change (Z.of_nat 20) with 20%Z. lra.
  - cbn. lia.
  - exists 17%nat. split; [lia|]. rewrite Hs. apply Z.le_refl.
Qed.

(** * Covariance witnesses *)
Lemma vp_inverse_cov : forall nz p z, snd (vp_inverse nz p z) 2%nat 2%nat = n_R nz 2%nat 2%nat /\
  (forall i, (i < 2)%nat -> snd (vp_inverse nz p z) i 2%nat = 0 /\ snd (vp_inverse nz p z) 2%nat i = 0) /\
  (forall i j, (i < 2)%nat -> (j < 2)%nat -> snd (vp_inverse nz p z) i j =
     sandwich 2 (mx_of [[sin (p_t p + m_b z); m_r z * cos (p_t p + m_b z)];
                        [- cos (p_t p + m_b z); m_r z * sin (p_t p + m_b z)]]) (n_R nz) i j).
Proof.
  intros nz p z. split; [reflexivity|]. split; [intros i Hi; destruct i as [|[|]]; [| |lia]; split; reflexivity|].
  assert (C : cos (p_t p - PI / 2 + m_b z) = sin (p_t p + m_b z)).
  { replace (p_t p - PI / 2 + m_b z) with (p_t p + m_b z - PI / 2) by ring. apply turned_cs. }
  assert (S : sin (p_t p - PI / 2 + m_b z) = - cos (p_t p + m_b z)).
  { replace (p_t p - PI / 2 + m_b z) with (p_t p + m_b z - PI / 2) by ring. apply turned_cs. }
  intros i j Hi Hj. unfold vp_inverse, inverse_rb. cbn [snd fst turned p_t m_r m_b]. rewrite C, S.
  unfold with_block. assert (I : ((i <? 2)%nat && (j <? 2)%nat)%bool = true) by (apply andb_true_intro; split; apply Nat.ltb_lt; assumption).
  rewrite I. unfold sandwich, mmul, tr, mx_of.
  destruct i as [|[|]]; [| |lia]; (destruct j as [|[|]]; [| |lia]); cbn [dot nth]; ring.
Qed.

Lemma east_lin : forall PS LS, exists N, forall fuel, (N < fuel)%nat -> exists e,
  vp_measure fuel sc0 noise0 north PS (Tree 5 0 1) LS zero = Val (true, e) /\
  e_lin e = Some (with_block (mx_of [[(5 - 0) / sqrt ((5 - 0) ^ 2 + (0 - 0) ^ 2); (0 - 0) / sqrt ((5 - 0) ^ 2 + (0 - 0) ^ 2)];
                         [- (0 - 0) / ((5 - 0) ^ 2 + (0 - 0) ^ 2); (5 - 0) / ((5 - 0) ^ 2 + (0 - 0) ^ 2)]]) 1,
     with_block (expected_cov 2 3 (mx_of [[(5 - 0) / sqrt ((5 - 0) ^ 2 + (0 - 0) ^ 2); (0 - 0) / sqrt ((5 - 0) ^ 2 + (0 - 0) ^ 2)];
                         [- (0 - 0) / ((5 - 0) ^ 2 + (0 - 0) ^ 2); (5 - 0) / ((5 - 0) ^ 2 + (0 - 0) ^ 2)]])
       (mx_of [[- (5 - 0) / sqrt ((5 - 0) ^ 2 + (0 - 0) ^ 2); - (0 - 0) / sqrt ((5 - 0) ^ 2 + (0 - 0) ^ 2); 0];
               [(0 - 0) / ((5 - 0) ^ 2 + (0 - 0) ^ 2); - (5 - 0) / ((5 - 0) ^ 2 + (0 - 0) ^ 2); -1]]) LS zero zero)
       (LS 2%nat 2%nat + 0 + (sqrt ((5 - 0) ^ 2 + (0 - 0) ^ 2)) ^ 2 * 0)).
Proof.
  intros PS LS. destruct (vp_measure_ok sc0 noise0 north PS (Tree 5 0 1) LS zero) as (N & e & H & _).
  exists N. intros fuel F. specialize (H fuel F). exists e. split; [exact H|].
  unfold vp_measure in H. apply obind_val in H. destruct H as (x & Hx & H). injection H as H. rewrite <- H. cbn [e_lin].
  pose proof (measure_rb_lin _ _ _ _ _ _ _ _ Hx) as E. cbv zeta in E. rewrite E. clear E.
  destruct (Req_EM_T _ 0) as [Z|_].
  - exfalso. cbn [fst snd t_x t_y turned north p_x p_y] in Z. apply sqrt_eq_0 in Z; lra.
  - unfold measure_rb in Hx. apply obind_val in Hx. destruct Hx as (w & _ & Hx). inversion Hx; subst x. reflexivity.
Qed.
Lemma root25 : sqrt ((5 - 0) ^ 2 + (0 - 0) ^ 2) = 5.
Proof. replace ((5 - 0) ^ 2 + (0 - 0) ^ 2) with (5 * 5) by ring. apply sqrt_square. lra. Qed.

Lemma correlation_lost : exists LS J S,
  (exists N, forall fuel, (N < fuel)%nat -> exists e, vp_measure fuel sc0 noise0 north zero (Tree 5 0 1) LS zero = Val (true, e) /\
     e_lin e = Some (J, S)) /\
  S 0%nat 2%nat = 0 /\ sandwich 3 J LS 0%nat 2%nat = 1.
Proof.
  exists (mx_of [[2; 0; 1]; [0; 1; 0]; [1; 0; 1]]). destruct (east_lin zero (mx_of [[2; 0; 1]; [0; 1; 0]; [1; 0; 1]])) as (N & H).
  eexists. eexists. split; [exists N; exact H|]. split; [reflexivity|]. rewrite root25.
  unfold sandwich, mmul, tr, with_block, mx_of. cbn [dot nth Nat.ltb Nat.leb Nat.eqb andb]. field.
Qed.
Lemma pose_lost : exists PS J S,
  (exists N, forall fuel, (N < fuel)%nat -> exists e, vp_measure fuel sc0 noise0 north PS (Tree 5 0 1) zero zero = Val (true, e) /\
     e_lin e = Some (J, S)) /\ PS 0%nat 0%nat = 1 /\ S 0%nat 0%nat = 0.
Proof.
  exists (mx_of [[1; 0; 0]; [0; 1; 0]; [0; 0; 1]]). destruct (east_lin (mx_of [[1; 0; 0]; [0; 1; 0]; [0; 0; 1]]) zero) as (N & H).
  eexists. eexists. split; [exists N; exact H|]. split; [reflexivity|].
  unfold with_block, expected_cov, madd, sandwich, mmul, tr, zero. cbn [dot Nat.ltb Nat.leb Nat.eqb andb]. ring.
Qed.
Lemma pose_jacobian_kept : forall fuel sc nz p PS l LS Jp ok e,
  vp_measure fuel sc nz p PS l LS Jp = Val (ok, e) -> e_pose e = Jp.
Proof. intros. unfold vp_measure in H. apply obind_val in H. destruct H as (x & _ & H). injection H as _ <-. reflexivity. Qed.
Lemma pd_diverges : forall sc nz c scan p l LS, t_d l <= 0 ->
  (forall a b, 0 <= (a * LS 0%nat 0%nat + b * LS 1%nat 0%nat) * a + (a * LS 0%nat 1%nat + b * LS 1%nat 1%nat) * b) ->
  forall fuel, vp_pd fuel sc nz c scan p l LS = OutOfFuel.
Proof. intros. apply vp_pd_diverges; assumption. Qed.
Lemma val_inj : forall A (a b : A), Val a = Val b -> a = b.
Proof. intros A a b H. injection H as H. exact H. Qed.
Lemma polygon_ex : polygon (repeat 5 720) <> 0.
Proof.
  assert (L : length (repeat 5 720) = 720%nat) by apply repeat_length.
  assert (P : forall x, In x (repeat 5 720) -> 0 < x) by (intros x H; apply repeat_spec in H; subst; lra).
  pose proof (area_full _ L) as A. set (scan := repeat 5 720) in *. clearbody scan.
  destruct scan as [|x l]; [discriminate|]. rewrite area_any in A. apply val_inj in A. rewrite <- A.
  pose proof (neighbours_pos (x :: l) P ltac:(lia)) as N. pose proof sin_beam as S0. rewrite <- (neighbours_fan (x :: l) 0).
  assert (0 < x * last (x :: l) 0) by (apply Rmult_lt_0_compat; apply P; [left; reflexivity|apply last_in; discriminate]).
  apply Rgt_not_eq. apply Rplus_lt_0_compat; apply Rmult_lt_0_compat; lra.
Qed.
Lemma pose_jacobian_missing : exists p l N, forall fuel, (N < fuel)%nat -> exists e,
  vp_measure fuel sc0 noise0 p zero l zero zero = Val (true, e) /\ e_pose e 0%nat 0%nat = 0 /\
  derivable_pt_lim (fun x => sqrt ((t_x l - x) ^ 2 + (t_y l - p_y p) ^ 2)) (p_x p) (-1).
Proof.
  exists north, (Tree 5 0 1). destruct (east_measured sc0 noise0 zero zero zero 5 1 ltac:(lra)) as (N & e & H & E).
  exists N. intros fuel F. exists e. specialize (H fuel F). split; [exact H|]. split; [rewrite (pose_jacobian_kept _ _ _ _ _ _ _ _ _ _ H); reflexivity|].
  cbn [t_x t_y north p_x p_y]. intros eps P. exists (mkposreal 1 Rlt_0_1). intros h Hh D. cbn in D. apply Rabs_def2 in D.
  replace ((5 - (0 + h)) ^ 2 + (0 - 0) ^ 2) with ((5 - h) * (5 - h)) by ring. replace ((5 - 0) ^ 2 + (0 - 0) ^ 2) with (5 * 5) by ring.
  rewrite !sqrt_square by lra. replace ((5 - h - 5) / h - -1) with 0 by (field; exact Hh). rewrite Rabs_R0. exact P.
Qed.
