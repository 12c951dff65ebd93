(** The Jacobians of the measurement models are derivatives. *)
From Coq Require Import Reals List Bool Lra Lia.
From Coquelicot Require Import Coquelicot.
From Verif Require Import Base AngleModel AngleProofs SensorModel SensorSpec SensorProofs.
Import ListNotations.
Local Open Scope R_scope.

(** is_derive of sums, products and compositions as rewriting-free rules. *)
Ltac der := eapply is_derive_ext; [intro; reflexivity|].

Lemma der_mult : forall f g x (f' g' : R), is_derive f x f' -> is_derive g x g' ->
  is_derive (fun t => f t * g t) x (f' * g x + f x * g').
Proof. intros f g x f' g' Hf Hg. apply (is_derive_mult f g x f' g' Hf Hg). intros; apply Rmult_comm. Qed.
Lemma der_plus : forall f g x (f' g' : R), is_derive f x f' -> is_derive g x g' ->
  is_derive (fun t => f t + g t) x (f' + g').
Proof. intros. apply (is_derive_plus f g); assumption. Qed.
Lemma der_minus : forall f g x (f' g' : R), is_derive f x f' -> is_derive g x g' ->
  is_derive (fun t => f t - g t) x (f' - g').
Proof. intros. apply (is_derive_minus f g); assumption. Qed.
Lemma der_opp : forall f x (f' : R), is_derive f x f' -> is_derive (fun t => - f t) x (- f').
Proof. intros. apply (is_derive_opp f); assumption. Qed.
Lemma der_cos : forall f x (f' : R), is_derive f x f' -> is_derive (fun t => cos (f t)) x (- sin (f x) * f').
Proof.
  intros f x f' H. evar_last; [apply (is_derive_comp cos f x); [apply is_derive_cos|exact H]|].
  unfold scal; simpl; unfold mult; simpl. ring.
Qed.
Lemma der_sin : forall f x (f' : R), is_derive f x f' -> is_derive (fun t => sin (f t)) x (cos (f x) * f').
Proof.
  intros f x f' H. evar_last; [apply (is_derive_comp sin f x); [apply is_derive_sin|exact H]|].
  unfold scal; simpl; unfold mult; simpl. ring.
Qed.
Lemma der_sqrt : forall f x (f' : R), is_derive f x f' -> 0 < f x ->
  is_derive (fun t => sqrt (f t)) x (f' / (2 * sqrt (f x))).
Proof. intros f x f' H H0. apply is_derive_sqrt; assumption. Qed.
Lemma der_atan : forall f x (f' : R), is_derive f x f' ->
  is_derive (fun t => atan (f t)) x (f' / (1 + (f x) ^ 2)).
Proof.
  intros f x f' H. evar_last; [apply (is_derive_comp atan f x); [apply is_derive_atan|exact H]|].
  unfold scal; simpl; unfold mult; simpl. unfold Rdiv, Rsqr. rewrite Rmult_1_r. reflexivity.
Qed.
Lemma der_div : forall f g x (f' g' : R), is_derive f x f' -> is_derive g x g' -> g x <> 0 ->
  is_derive (fun t => f t / g t) x ((f' * g x - f x * g') / (g x) ^ 2).
Proof. intros. apply is_derive_div; assumption. Qed.

(** A differentiable function that is positive at a point is positive nearby. *)
Lemma pos_near : forall f x (l : R), is_derive f x l -> 0 < f x -> locally x (fun t => 0 < f t).
Proof.
  intros f x l H Hp.
  assert (C : continuous f x) by (apply ex_derive_continuous; exists l; exact H).
  apply (C (fun y => 0 < y)). apply (open_gt 0). exact Hp.
Qed.

Lemma half_angle : forall r b, 0 < r -> - PI <= b <= PI ->
  (0 < r + r * cos b <-> - PI < b < PI) /\
  (- PI < b < PI -> b = 2 * atan (r * sin b / (r + r * cos b))).
Proof.
  intros r b Hr Hb. pose proof PI_RGT_0 as HP.
  assert (C : - PI < b < PI -> 0 < cos (b / 2)) by (intro; apply cos_gt_0; lra).
  assert (E : 1 + cos b = 2 * cos (b / 2) * cos (b / 2)).
  { replace b with (2 * (b / 2)) at 1 by field. rewrite cos_2a_cos. ring. }
  assert (E2 : r + r * cos b = r * (2 * cos (b / 2) * cos (b / 2))) by (rewrite <- E; ring).
  split.
  - split.
    + intro H. rewrite E2 in H. split.
      * destruct (Req_dec b (- PI)) as [->|Hn]; [|lra]. exfalso.
        replace (- PI / 2) with (- (PI / 2)) in H by field. rewrite cos_neg, cos_PI2 in H. lra.
      * destruct (Req_dec b PI) as [->|Hn]; [|lra]. exfalso. rewrite cos_PI2 in H. lra.
    + intro H. rewrite E2. specialize (C H). apply Rmult_lt_0_compat; [exact Hr|].
      apply Rmult_lt_0_compat; [lra|exact C].
  - intro H. specialize (C H). rewrite E2.
    replace (r * sin b / (r * (2 * cos (b / 2) * cos (b / 2)))) with (tan (b / 2)).
    + rewrite atan_tan by lra. field.
    + replace (sin b) with (sin (2 * (b / 2))) by (f_equal; field). rewrite sin_2a. unfold tan. field. lra.
Qed.

(** ** The bearing *)
Lemma bearing_der : forall (u w h : R -> R) t0 (u' w' : R),
  is_derive u t0 u' -> is_derive w t0 w' ->
  0 < u t0 ^ 2 + w t0 ^ 2 ->
  locally t0 (fun t => - PI <= h t <= PI /\ (0 < sqrt (u t ^ 2 + w t ^ 2) ->
     sqrt (u t ^ 2 + w t ^ 2) * cos (h t) = u t /\ sqrt (u t ^ 2 + w t ^ 2) * sin (h t) = w t)) ->
  - PI < h t0 < PI ->
  is_derive h t0 ((u t0 * w' - w t0 * u') / (u t0 ^ 2 + w t0 ^ 2)).
Proof.
  intros u w h t0 u' w' Hu Hw Hp Hloc H0.
  set (r := fun t => sqrt (u t ^ 2 + w t ^ 2)).
  assert (Dr2 : is_derive (fun t => u t ^ 2 + w t ^ 2) t0 (2 * (u t0 * u' + w t0 * w'))).
  { apply (is_derive_ext (fun t => u t * u t + w t * w t)); [intro; simpl; ring|].
    evar_last; [apply der_plus; apply der_mult; eassumption|]. simpl; ring. }
  assert (Dr : is_derive r t0 ((u t0 * u' + w t0 * w') / r t0)).
  { evar_last; [apply der_sqrt; [exact Dr2|exact Hp]|]. change (sqrt _) with (r t0).
    assert (0 < r t0) by (apply sqrt_lt_R0; exact Hp). field. lra. }
  assert (Pr : 0 < r t0) by (apply sqrt_lt_R0; exact Hp).
  assert (Er : r t0 * r t0 = u t0 ^ 2 + w t0 ^ 2) by (apply sqrt_sqrt; lra).
  assert (P0 : 0 < r t0 + u t0).
  { destruct (locally_singleton _ _ Hloc) as [Hb Hc]. destruct (Hc Pr) as [Hc1 _]. rewrite <- Hc1. fold (r t0).
    apply half_angle; assumption. }
  pose proof (pos_near _ _ _ (der_plus _ _ _ _ _ Dr Hu) P0) as Hnear.
  apply (is_derive_ext_loc (fun t => 2 * atan (w t / (r t + u t)))).
  { eapply filter_imp; [|exact (filter_and _ _ Hloc Hnear)]. intros t [[Hb Hc] Hpos].
    assert (Prt : 0 < r t).
    { destruct (Rle_lt_dec (r t) 0) as [Hle|Hlt]; [|exact Hlt]. exfalso.
      assert (Ez : r t = 0) by (pose proof (sqrt_pos (u t ^ 2 + w t ^ 2)); unfold r in *; lra).
      unfold r in Ez. apply sqrt_eq_0 in Ez; [|pose proof (sq_nonneg (u t)); pose proof (sq_nonneg (w t)); lra].
      assert (u t = 0) by (pose proof (sq_nonneg (w t)); pose proof (sq_nonneg (u t)); nra). lra. }
    destruct (Hc Prt) as [Hc1 Hc2]. fold (r t) in Hc1, Hc2.
    destruct (half_angle (r t) (h t) Prt Hb) as [Hiff Heq].
    rewrite <- Hc1, <- Hc2. symmetry. rewrite <- Hc1 in Hpos. apply Heq, Hiff, Hpos. }
  evar_last.
  { apply der_mult; [apply (is_derive_const (V := R_NormedModule))|].
    apply der_atan. apply der_div; [exact Hw|apply der_plus; [exact Dr|exact Hu]|lra]. }
  rewrite <- Er. set (R0 := r t0) in *. set (U := u t0) in *. set (W := w t0) in *.
  clearbody R0 U W.
  assert (EW : W ^ 2 = R0 * R0 - U ^ 2) by lra.
  assert (N : 1 + (W / (R0 + U)) ^ 2 = 2 * R0 / (R0 + U)).
  { replace ((W / (R0 + U)) ^ 2) with (W ^ 2 / (R0 + U) ^ 2) by (field; lra). rewrite EW. field. lra. }
  rewrite N. unfold zero; simpl.
  apply (Rmult_eq_reg_r (R0 * R0 * (R0 + U))); [|apply Rmult_integral_contrapositive_currified; [|lra]; apply Rmult_integral_contrapositive_currified; lra].
  transitivity (R0 * (w' * (R0 + U)) - W * R0 * u' - W * U * u' - W ^ 2 * w'); [field; lra|].
  rewrite EW. field. lra.
Qed.

(** ** Range and bearing *)
Lemma rb_jac : forall c PS LS Rn w t0 dp dl (h : R -> R * R) fuel e L,
  moves w t0 dp dl ->
  measure_rb fuel c (pose_at w t0) PS (lmk_at w t0) LS Rn = Val e -> x_lin e = Some L ->
  - PI < snd (x_mean e) < PI ->
  locally t0 (fun t => exists f e', measure_rb f c (pose_at w t) PS (lmk_at w t) LS Rn = Val e' /\ x_mean e' = h t) ->
  is_derive (fun t => fst (h t)) t0 (dot 3 (l_pose L 0%nat) dp + dot 2 (l_lmk L 0%nat) dl) /\
  is_derive (fun t => snd (h t)) t0 (dot 3 (l_pose L 1%nat) dp + dot 2 (l_lmk L 1%nat) dl).
Proof.
  intros c PS LS Rn w t0 dp dl h fuel e L (Hx & Hy & Ht & Hu & Hv) He HL Hin Hloc.
  set (dx := fun t => w_u w t - w_x w t). set (dy := fun t => w_v w t - w_y w t).
  assert (Ddx : is_derive dx t0 (dl 0%nat - dp 0%nat)) by (apply der_minus; assumption).
  assert (Ddy : is_derive dy t0 (dl 1%nat - dp 1%nat)) by (apply der_minus; assumption).
  assert (Pw : 0 < dx t0 ^ 2 + dy t0 ^ 2 /\
    L = (let r := sqrt (dx t0 ^ 2 + dy t0 ^ 2) in let r2 := dx t0 ^ 2 + dy t0 ^ 2 in
         let Hl := mx_of [[dx t0 / r; dy t0 / r]; [- dy t0 / r2; dx t0 / r2]] in
         let Hr := mx_of [[- dx t0 / r; - dy t0 / r; 0]; [dy t0 / r2; - dx t0 / r2; -1]] in
         Lin Hl Hr (expected_cov 2 3 Hl Hr LS PS Rn))).
  { rewrite (measure_rb_lin _ _ _ _ _ _ _ _ He) in HL. unfold pose_at, lmk_at in HL.
    cbn [p_x p_y p_t fst snd] in HL. fold (dx t0) (dy t0) in HL.
    revert HL. destruct (Req_EM_T (sqrt (dx t0 ^ 2 + dy t0 ^ 2)) 0) as [|Hn]; intro HL; [discriminate HL|].
    injection HL as <-. split; [|reflexivity].
    destruct (Rle_lt_dec (dx t0 ^ 2 + dy t0 ^ 2) 0) as [H0|H0]; [|exact H0].
    exfalso. apply Hn. apply sqrt_neg_0. exact H0. }
  destruct Pw as [Hp ->]. cbn zeta. cbn [l_pose l_lmk].
  assert (Meas : locally t0 (fun t => fst (h t) = sqrt (dx t ^ 2 + dy t ^ 2) /\
    - PI <= snd (h t) <= PI /\
    (0 < sqrt (dx t ^ 2 + dy t ^ 2) ->
     sqrt (dx t ^ 2 + dy t ^ 2) * cos (snd (h t)) = cos (w_t w t) * dx t + sin (w_t w t) * dy t /\
     sqrt (dx t ^ 2 + dy t ^ 2) * sin (snd (h t)) = - sin (w_t w t) * dx t + cos (w_t w t) * dy t))).
  { eapply filter_imp; [|exact Hloc]. intros t (f & e' & H' & E').
    destruct (measure_rb_ok c (pose_at w t) PS (lmk_at w t) LS Rn) as (n & e2 & H2 & A & B & _ & D).
    pose proof (measure_rb_fun _ _ _ _ _ _ _ _ _ _ H' (H2 (S n) (Nat.lt_succ_diag_r n))) as Ee. subst e2.
    rewrite E' in A, B, D. split; [exact A|]. split; [exact B|exact D]. }
  assert (Dr2 : is_derive (fun t => dx t ^ 2 + dy t ^ 2) t0
     (2 * (dx t0 * (dl 0%nat - dp 0%nat) + dy t0 * (dl 1%nat - dp 1%nat)))).
  { apply (is_derive_ext (fun t => dx t * dx t + dy t * dy t)); [intro; simpl; ring|].
    evar_last; [apply der_plus; apply der_mult; eassumption|]. simpl; ring. }
  pose proof (sqrt_lt_R0 _ Hp) as Pr.
  split.
  - apply (is_derive_ext_loc (fun t => sqrt (dx t ^ 2 + dy t ^ 2))).
    { eapply filter_imp; [|exact Meas]. intros t [E _]. symmetry. exact E. }
    evar_last; [apply der_sqrt; [exact Dr2|exact Hp]|]. cbv beta.
    unfold mx_of. cbn [dot nth]. field. lra.
  - set (u := fun t => cos (w_t w t) * dx t + sin (w_t w t) * dy t).
    set (v := fun t => - sin (w_t w t) * dx t + cos (w_t w t) * dy t).
    assert (Euv : forall t, u t ^ 2 + v t ^ 2 = dx t ^ 2 + dy t ^ 2).
    { intro t. unfold u, v. pose proof (cs1 (w_t w t)) as E.
      transitivity ((cos (w_t w t) * cos (w_t w t) + sin (w_t w t) * sin (w_t w t)) * (dx t ^ 2 + dy t ^ 2)); [ring|rewrite E; ring]. }
    evar_last.
    { apply (bearing_der u v (fun t => snd (h t)) t0).
      - unfold u. apply der_plus; apply der_mult; try eassumption; [apply der_cos|apply der_sin]; eassumption.
      - unfold v. apply der_plus; apply der_mult; try eassumption; [apply der_opp, der_sin|apply der_cos]; eassumption.
      - rewrite Euv. exact Hp.
      - eapply filter_imp; [|exact Meas]. intros t (_ & B & D). rewrite Euv. split; [exact B|exact D].
      - destruct (locally_singleton _ _ Hloc) as (f & e' & H' & E').
        pose proof (measure_rb_fun _ _ _ _ _ _ _ _ _ _ He H') as Ee. subst e'. rewrite <- E'. exact Hin. }
    rewrite Euv. unfold u, v, mx_of. cbn [dot nth]. pose proof (cs1 (w_t w t0)) as E.
    set (C := cos (w_t w t0)) in *. set (S := sin (w_t w t0)) in *. set (X := dx t0) in *. set (Y := dy t0) in *.
    clearbody C S X Y.
    generalize (dp 0%nat), (dp 1%nat), (dp 2%nat), (dl 0%nat), (dl 1%nat). intros p0 p1 p2 l0 l1.
    apply (Rmult_eq_reg_r (X ^ 2 + Y ^ 2)); [|lra].
    match goal with |- ?l = _ => transitivity ((C * C + S * S) * (X * (l1 - p1) - Y * (l0 - p0))
       - (C * C + S * S) * (X ^ 2 + Y ^ 2) * p2) end.
    + unfold Rdiv. rewrite Rmult_assoc, Rinv_l, Rmult_1_r by lra. ring.
    + rewrite E. field. lra.
Qed.

(** ** Cartesian *)
Lemma xy_jac : forall c PS LS Rn w t0 dp dl, moves w t0 dp dl ->
  exists L, x_lin (measure_xy c (pose_at w t0) PS (lmk_at w t0) LS Rn) = Some L /\
  is_derive (fun t => fst (x_mean (measure_xy c (pose_at w t) PS (lmk_at w t) LS Rn))) t0
    (dot 3 (l_pose L 0%nat) dp + dot 2 (l_lmk L 0%nat) dl) /\
  is_derive (fun t => snd (x_mean (measure_xy c (pose_at w t) PS (lmk_at w t) LS Rn))) t0
    (dot 3 (l_pose L 1%nat) dp + dot 2 (l_lmk L 1%nat) dl).
Proof.
  intros c PS LS Rn w t0 dp dl (Hx & Hy & Ht & Hu & Hv).
  eexists. split; [reflexivity|]. cbn [x_mean measure_xy pose_at lmk_at p_x p_y p_t fst snd l_pose l_lmk].
  split.
  - evar_last.
    { apply der_plus.
      - apply der_mult; [apply der_cos; exact Ht|apply der_minus; [exact Hu|exact Hx]].
      - apply der_mult; [apply der_sin; exact Ht|apply der_minus; [exact Hv|exact Hy]]. }
    unfold mx_of. cbn [dot nth]. ring.
  - evar_last.
    { apply der_plus.
      - apply der_mult; [apply der_opp, der_sin; exact Ht|apply der_minus; [exact Hu|exact Hx]].
      - apply der_mult; [apply der_cos; exact Ht|apply der_minus; [exact Hv|exact Hy]]. }
    unfold mx_of. cbn [dot nth]. ring.
Qed.

Lemma d1_jac : forall c PS LS Rn (x m : R -> R) t0 x' m', is_derive x t0 x' -> is_derive m t0 m' ->
  exists L, x_lin (measure_1d c (x t0) PS (m t0) LS Rn) = Some L /\
  is_derive (fun t => x_mean (measure_1d c (x t) PS (m t) LS Rn)) t0
    (l_pose L 0%nat 0%nat * x' + l_lmk L 0%nat 0%nat * m').
Proof.
  intros c PS LS Rn x m t0 x' m' Hx Hm. eexists. split; [reflexivity|].
  cbn [x_mean measure_1d l_pose l_lmk].
  evar_last; [apply der_minus; eassumption|]. unfold mx_of. cbn [nth]. ring.
Qed.

(** ** Three dimensions: fixed orientation *)
Lemma d6_jac : forall c PS LS Rn q (p l : R -> vec) t0 dp dl,
  (forall i, (i < 3)%nat -> is_derive (fun t => p t i) t0 (dp i) /\ is_derive (fun t => l t i) t0 (dl i)) ->
  exists L, x_lin (measure_6d c (p t0) q PS (l t0) LS Rn) = Some L /\
  forall i, (i < 3)%nat ->
  is_derive (fun t => x_mean (measure_6d c (p t) q PS (l t) LS Rn) i) t0
    (dot 3 (l_pose L i) dp + dot 3 (l_lmk L i) dl).
Proof.
  intros c PS LS Rn q p l t0 dp dl H. eexists. split; [reflexivity|]. intros i Hi.
  cbn [x_mean measure_6d l_pose l_lmk].
  destruct (H 0%nat ltac:(lia)) as [P0 L0]. destruct (H 1%nat ltac:(lia)) as [P1 L1]. destruct (H 2%nat ltac:(lia)) as [P2 L2].
  unfold mapp. set (M := to_matrix (conjugate q)). clearbody M. cbn [dot].
  evar_last.
  { apply der_plus; [apply der_plus; [apply der_plus; [apply (is_derive_const (V := R_NormedModule))|]|]|];
    (apply der_mult; [apply (is_derive_const (V := R_NormedModule))|]).
    - apply der_minus; [exact L0|exact P0].
    - apply der_minus; [exact L1|exact P1].
    - apply der_minus; [exact L2|exact P2]. }
  unfold zero; simpl. ring.
Qed.
