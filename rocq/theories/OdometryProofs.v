(** Proofs about the process models. *)
From Coq Require Import Reals Lra Lia ZArith List Bool.
From Coquelicot Require Import Coquelicot.
From Verif Require Import Base AngleModel AngleProofs SensorModel SensorProofs SensorDeriv OdometryModel OdometrySpec.
Import ListNotations.
Local Open Scope R_scope.

(** ** The principal angle *)
Definition principal (a : R) : R := atan2 (sin a) (cos a).

Lemma principal_spec : forall a, cos (principal a) = cos a /\ sin (principal a) = sin a /\ - PI < principal a <= PI.
Proof.
  intro a. unfold principal. pose proof (sin2_cos2 a) as E. unfold Rsqr in E.
  assert (E1 : cos a ^ 2 + sin a ^ 2 = 1) by (cbn; lra).
  destruct (atan2_spec (sin a) (cos a)) as (A & B & C); [lra|].
  rewrite E1, sqrt_1, Rmult_1_l in A, B. tauto.
Qed.

Lemma angle_unique : forall a b, - PI < a <= PI -> - PI < b <= PI -> cos a = cos b -> sin a = sin b -> a = b.
Proof.
  intros a b Ha Hb Hc Hs. destruct (same_angle a b Hc Hs) as [k E]. pose proof PI_RGT_0 as HP.
  assert (Hk : k = 0%Z).
  { assert (H1 : (-1 < k)%Z) by (apply lt_IZR; nra).
    assert (H2 : (k < 1)%Z) by (apply lt_IZR; nra). lia. }
  subst k. simpl in E. lra.
Qed.

Lemma principal_id : forall a, - PI < a <= PI -> principal a = a.
Proof. intros a H. destruct (principal_spec a) as (A & B & C). apply angle_unique; assumption. Qed.

Lemma principal_ext : forall a b, cos a = cos b -> sin a = sin b -> principal a = principal b.
Proof. intros a b H1 H2. unfold principal. rewrite H1, H2. reflexivity. Qed.

Lemma principal_add : forall a b, principal (principal a + b) = principal (a + b).
Proof.
  intros a b. destruct (principal_spec a) as (A & B & _).
  apply principal_ext; rewrite ?cos_plus, ?sin_plus, A, B; reflexivity.
Qed.

Lemma principal_turn : forall a, exists k : Z, principal a = a + IZR k * (2 * PI).
Proof. intro a. destruct (principal_spec a) as (A & B & _). apply same_angle; assumption. Qed.

Lemma move_2d_eq : forall p u, move_2d p u =
  P2 (p_x p + (cos (p_t p) * o_x u - sin (p_t p) * o_y u)) (p_y p + (sin (p_t p) * o_x u + cos (p_t p) * o_y u))
     (principal (p_t p + o_t u)).
Proof.
  intros p u. unfold move_2d, principal. rewrite sin_plus, cos_plus.
  unfold mapp, tr, mmul, c_mx, mx_of, vec_of, dot. cbn [nth].
  f_equal; try ring. f_equal; ring.
Qed.

Lemma move_2d_compose : forall p u w, move_2d (move_2d p u) w = move_2d p (compose2 u w).
Proof.
  intros p u w. rewrite !move_2d_eq. cbn [p_x p_y p_t].
  destruct (principal_spec (p_t p + o_t u)) as (A & B & _).
  unfold compose2, place. cbn [o_x o_y o_t fst snd]. f_equal.
  - rewrite A, B, cos_plus, sin_plus. ring.
  - rewrite A, B, cos_plus, sin_plus. ring.
  - rewrite principal_add. f_equal. ring.
Qed.

Lemma compose_2d : forall o1 o2 o3 s u w d1 d2 b1 b2 s1 h1 r2,
  step_2d o1 s u d1 b1 = Val (s1, h1) -> step_2d o2 s1 w d2 b2 = Val r2 ->
  step_2d o3 s (compose2 u w) (d1 + d2) b2 = Val r2.
Proof.
  unfold step_2d. intros o1 o2 o3 s u w d1 d2 b1 b2 s1 h1 r2 H1 H2.
  injection H1 as <- _. injection H2 as <-. cbn [v_x v_time]. rewrite move_2d_compose, Z.add_assoc. reflexivity.
Qed.

Lemma place_2d : forall o s u d b s1 h, step_2d o s u d b = Val (s1, h) ->
  (forall pt, place (p_x (v_x s1)) (p_y (v_x s1)) (p_t (v_x s1)) pt =
     place (p_x (v_x s)) (p_y (v_x s)) (p_t (v_x s)) (place (o_x u) (o_y u) (o_t u) pt)) /\
  - PI < p_t (v_x s1) <= PI.
Proof.
  unfold step_2d. intros o s u d b s1 h H. injection H as <- _. cbn [v_x]. rewrite move_2d_eq. cbn [p_x p_y p_t].
  destruct (principal_spec (p_t (v_x s) + o_t u)) as (A & B & C). split; [|exact C].
  intros [x y]. unfold place. cbn [fst snd]. rewrite A, B, cos_plus, sin_plus. f_equal; ring.
Qed.

Lemma run_2d : forall l s u d, run step_2d s ((u, d) :: l) =
  omap fst (step_2d s s (compose_all u (map fst l)) (sum_z (map snd ((u, d) :: l))) false).
Proof.
  induction l as [|[w e] l IH]; intros s u d.
  - cbn. rewrite Z.add_0_r. reflexivity.
  - change (run step_2d s ((u, d) :: (w, e) :: l)) with
      (run step_2d (Rv (move_2d (v_x s) u) zero_mx (v_time s + d)) ((w, e) :: l)).
    rewrite IH. cbn [map fst snd compose_all]. unfold step_2d. cbn [omap obind v_x v_time fst].
    rewrite move_2d_compose. unfold sum_z. cbn [fold_right]. rewrite <- Z.add_assoc. reflexivity.
Qed.

Lemma zero_2d : forall o s d b s1 h, step_2d o s (O2 0 0 0) d b = Val (s1, h) -> - PI < p_t (v_x s) <= PI ->
  v_x s1 = v_x s.
Proof.
  unfold step_2d. intros o [[x y t] C z] d b s1 h H Ht. cbn [v_x p_t] in *. injection H as <- _. cbn [v_x].
  rewrite move_2d_eq. cbn [p_x p_y p_t o_x o_y o_t]. rewrite Rplus_0_r, principal_id by exact Ht. f_equal; ring.
Qed.

(** ** Space *)
Lemma normalize_unit : forall q, not_zero q -> unit (normalize q).
Proof.
  intros [x y z w] H. unfold not_zero, unit, normalize, qnorm2 in *. cbn [q_x q_y q_z q_w] in *.
  set (n := x ^ 2 + y ^ 2 + z ^ 2 + w ^ 2) in *.
  assert (Hn : 0 < n).
  { assert (0 <= n) by (unfold n; nra). lra. }
  destruct (Rlt_dec 0 n) as [L|L]; [|lra]. cbn [q_x q_y q_z q_w].
  assert (Hs : sqrt n <> 0) by (apply Rgt_not_eq, sqrt_lt_R0; exact Hn).
  replace ((x / sqrt n) ^ 2 + (y / sqrt n) ^ 2 + (z / sqrt n) ^ 2 + (w / sqrt n) ^ 2) with
    ((x ^ 2 + y ^ 2 + z ^ 2 + w ^ 2) / (sqrt n * sqrt n)) by (field; exact Hs).
  rewrite sqrt_sqrt by lra. unfold n. field. fold n. lra.
Qed.

Lemma qnorm2_mul : forall a b, qnorm2 (qmul a b) = qnorm2 a * qnorm2 b.
Proof. intros [x y z w] [x' y' z' w']. unfold qnorm2, qmul. cbn. ring. Qed.

Lemma qmul_unit : forall a b, unit a -> unit b -> unit (qmul a b).
Proof. unfold unit. intros a b Ha Hb. rewrite qnorm2_mul, Ha, Hb. ring. Qed.

Lemma qmul_assoc : forall a b c, qmul (qmul a b) c = qmul a (qmul b c).
Proof. intros [x y z w] [x' y' z' w'] [x'' y'' z'' w'']. unfold qmul. cbn. f_equal; ring. Qed.

Lemma transform_rotate : forall q v, unit q -> transform q v = rotate q v.
Proof.
  intros [x y z w] [a b c] U. unfold unit, qnorm2 in U. cbn [q_x q_y q_z q_w] in U.
  unfold transform, rotate, mapp, to_matrix, mx_of, vec_of, cross, add3, scale3, dot. cbn [nth a_x a_y a_z q_x q_y q_z q_w].
  f_equal; ring.
Qed.

(** The homogeneous form: linear in v and multiplicative for all quaternions. *)
Definition hrot (q : quat) (v : v3) : v3 :=
  let k := q_w q * q_w q - (q_x q * q_x q + q_y q * q_y q + q_z q * q_z q) in
  let d := 2 * (q_x q * a_x v + q_y q * a_y v + q_z q * a_z v) in
  V3 (k * a_x v + d * q_x q + 2 * q_w q * (q_y q * a_z v - q_z q * a_y v))
     (k * a_y v + d * q_y q + 2 * q_w q * (q_z q * a_x v - q_x q * a_z v))
     (k * a_z v + d * q_z q + 2 * q_w q * (q_x q * a_y v - q_y q * a_x v)).

Lemma hrot_rotate : forall q v, unit q -> rotate q v = hrot q v.
Proof.
  intros [x y z w] [a b c] U. unfold unit, qnorm2 in U. cbn [q_x q_y q_z q_w] in U.
  assert (W : w * w = 1 - x * x - y * y - z * z) by lra.
  unfold rotate, hrot, mapp, to_matrix, mx_of, vec_of, dot. cbn [nth a_x a_y a_z q_x q_y q_z q_w]. rewrite W.
  f_equal; ring.
Qed.

Lemma hrot_mul : forall a b v, hrot (qmul a b) v = hrot a (hrot b v).
Proof.
  intros [x y z w] [x' y' z' w'] [p q r]. unfold hrot, qmul. cbn [a_x a_y a_z q_x q_y q_z q_w]. f_equal; ring.
Qed.

Lemma rotate_mul : forall a b v, unit a -> unit b -> rotate (qmul a b) v = rotate a (rotate b v).
Proof.
  intros a b v Ha Hb. rewrite !hrot_rotate by (try assumption; apply qmul_unit; assumption). apply hrot_mul.
Qed.

Lemma normalize_id : forall q, unit q -> normalize q = q.
Proof.
  intros [x y z w] U. unfold unit in U. unfold normalize. rewrite U, sqrt_1. destruct (Rlt_dec 0 1); [|lra].
  cbn. f_equal; field.
Qed.

Lemma unit_not_zero : forall q, unit q -> not_zero q.
Proof. unfold unit, not_zero. intros q H. rewrite H. lra. Qed.

Lemma add3_assoc : forall a b c, add3 (add3 a b) c = add3 a (add3 b c).
Proof. intros [x y z] [x' y' z'] [x'' y'' z'']. unfold add3. cbn. f_equal; ring. Qed.

Lemma rotate_add : forall q a b, rotate q (add3 a b) = add3 (rotate q a) (rotate q b).
Proof.
  intros [x y z w] [a b c] [a' b' c']. unfold rotate, add3, mapp, to_matrix, mx_of, vec_of, dot. cbn [nth a_x a_y a_z q_x q_y q_z q_w].
  f_equal; ring.
Qed.

Lemma move_6d_place : forall p u pt, unit (r_q p) -> not_zero (r_q u) ->
  place6 (move_6d p u) pt = place6 p (place6 (P6 (r_p u) (normalize (r_q u))) pt).
Proof.
  intros [p q] [d e] pt U N. unfold place6, move_6d. cbn [r_p r_q] in *.
  rewrite rotate_mul by (try assumption; apply normalize_unit; assumption).
  rewrite transform_rotate by assumption. rewrite add3_assoc, rotate_add. reflexivity.
Qed.

Lemma move_6d_compose : forall p u w, unit (r_q p) -> not_zero (r_q u) -> not_zero (r_q w) ->
  let n := normalize (r_q u) in
  move_6d (move_6d p u) w = move_6d p (P6 (place6 (P6 (r_p u) n) (r_p w)) (qmul n (normalize (r_q w)))).
Proof.
  intros [p q] [d e] [d' e'] U N N' n. unfold place6, move_6d in *. cbn [r_p r_q] in *.
  assert (Un : unit n) by (apply normalize_unit; exact N).
  assert (Un' : unit (normalize e')) by (apply normalize_unit; exact N').
  fold n. rewrite (normalize_id (qmul n (normalize e'))) by (apply qmul_unit; assumption).
  rewrite qmul_assoc, !transform_rotate by (try assumption; apply qmul_unit; assumption).
  rewrite rotate_mul by assumption. rewrite rotate_add, add3_assoc. reflexivity.
Qed.

Lemma compose_6d : forall o1 o2 o3 s u w d1 d2 s1 h1 r2, unit (r_q (v_x s)) -> not_zero (r_q u) -> not_zero (r_q w) ->
  step_6d o1 s u d1 false = Val (s1, h1) -> step_6d o2 s1 w d2 false = Val r2 ->
  let n := normalize (r_q u) in
  step_6d o3 s (P6 (place6 (P6 (r_p u) n) (r_p w)) (qmul n (normalize (r_q w)))) (d1 + d2) false = Val r2.
Proof.
  intros o1 o2 o3 s u w d1 d2 s1 h1 r2 U N N' H1 H2 n. unfold step_6d in *.
  injection H1 as <- _. injection H2 as <-. cbn [v_x v_time].
  rewrite move_6d_compose by assumption. fold n. rewrite Z.add_assoc. reflexivity.
Qed.

Lemma place_6d : forall o s u d s1 h, unit (r_q (v_x s)) -> not_zero (r_q u) -> step_6d o s u d false = Val (s1, h) ->
  (forall pt, place6 (v_x s1) pt = place6 (v_x s) (place6 (P6 (r_p u) (normalize (r_q u))) pt)) /\ unit (r_q (v_x s1)).
Proof.
  unfold step_6d. intros o s u d s1 h U N H. injection H as <- _. cbn [v_x]. split.
  - intro pt. apply move_6d_place; assumption.
  - unfold move_6d. cbn [r_q]. apply qmul_unit; [exact U|apply normalize_unit; exact N].
Qed.

Lemma zero_6d : forall o s d s1 h k, 0 < k -> step_6d o s (P6 (V3 0 0 0) (Q4 0 0 0 k)) d false = Val (s1, h) ->
  v_x s1 = v_x s.
Proof.
  unfold step_6d. intros o [[[x y z] [a b c e]] C t] d s1 h k Hk H. injection H as <- _. cbn [v_x].
  assert (N : normalize (Q4 0 0 0 k) = Q4 0 0 0 1).
  { unfold normalize, qnorm2. cbn [q_x q_y q_z q_w]. replace (0 ^ 2 + 0 ^ 2 + 0 ^ 2 + k ^ 2) with (k * k) by ring.
    destruct (Rlt_dec 0 (k * k)) as [L|L]; [|exfalso; apply L; nra]. rewrite sqrt_square by lra. f_equal; field; lra. }
  unfold move_6d. cbn [r_p r_q]. rewrite N. unfold qmul, transform, add3, scale3, cross. cbn. f_equal; f_equal; ring.
Qed.

Lemma run_6d_unit : forall l s s1, unit (r_q (v_x s)) -> List.Forall (fun ud => not_zero (r_q (fst ud))) l ->
  run step_6d s l = Val s1 -> unit (r_q (v_x s1)).
Proof.
  induction l as [|[u d] l IH]; intros s s1 U F H.
  - cbn in H. injection H as <-. exact U.
  - inversion F as [|? ? F1 F2]; subst. cbn [run] in H. unfold step_6d at 1 in H. cbn [obind fst] in H.
    eapply IH; [|exact F2|exact H]. cbn [v_x]. unfold move_6d. cbn [r_q].
    apply qmul_unit; [exact U|apply normalize_unit; exact F1].
Qed.

(** ** Time *)
Lemma run_time : forall (St In : Type) (step : rv St -> rv St -> In -> Z -> bool -> outcome (rv St * option mx)),
  (forall o s u d b r, step o s u d b = Val r -> v_time (fst r) = (v_time s + d)%Z) ->
  forall l s s1, run step s l = Val s1 -> v_time s1 = (v_time s + sum_z (map snd l))%Z.
Proof.
  intros St In step H. induction l as [|[u d] l IH]; intros s s1 E.
  - cbn in E. injection E as <-. cbn. lia.
  - cbn [run] in E. destruct (step s s u d false) as [r| |] eqn:S; cbn [obind] in E; try discriminate.
    apply IH in E. rewrite E, (H _ _ _ _ _ _ S). unfold sum_z. cbn [map snd fold_right]. lia.
Qed.

Lemma time_2d : forall l s s1, run step_2d s l = Val s1 -> v_time s1 = (v_time s + sum_z (map snd l))%Z.
Proof. apply run_time. intros o s u d b r H. unfold step_2d in H. injection H as <-. reflexivity. Qed.
Lemma time_6d : forall l s s1, run step_6d s l = Val s1 -> v_time s1 = (v_time s + sum_z (map snd l))%Z.
Proof. apply run_time. intros o s u d b r H. unfold step_6d in H. destruct b; [discriminate|]. injection H as <-. reflexivity. Qed.
Lemma time_car : forall c l s s1, run (step_car c) s l = Val s1 -> v_time s1 = (v_time s + sum_z (map snd l))%Z.
Proof.
  intro c. apply run_time. intros o s u d b r H. unfold step_car in H. destruct b; [discriminate|]. destruct c as [c|]; [|discriminate].
  destruct (Req_EM_T (k_l c) 0); [discriminate|]. destruct (Req_EM_T _ 0); [discriminate|]. injection H as <-. reflexivity.
Qed.

(** ** Heading of the car *)
Lemma wrap_once_ok : forall a, - (3 * PI) <= a <= 3 * PI -> - PI <= wrap_once a <= PI.
Proof. intros a H. pose proof PI_RGT_0. unfold wrap_once. destruct (Rlt_dec PI a); [lra|]. destruct (Rlt_dec a (- PI)); lra. Qed.
Lemma wrap_once_turn : forall a, exists k : Z, wrap_once a = a + IZR k * (2 * PI).
Proof.
  intro a. unfold wrap_once. destruct (Rlt_dec PI a); [exists (-1)%Z; simpl; lra|].
  destruct (Rlt_dec a (- PI)); [exists 1%Z; simpl; lra|exists 0%Z; simpl; lra].
Qed.

Lemma car_value : forall c o s u d r, step_car c o s u d false = Val r ->
  exists k, c = Some k /\ k_l k <> 0 /\ 1 - tan (u_r u) * k_h k / k_l k <> 0 /\
    r = (Rv (move_car k (v_x s) u (seconds d)) (v_cov o) (v_time s + d)%Z, None).
Proof.
  intros c o s u d r H. unfold step_car in H. destruct c as [k|]; [|discriminate].
  destruct (Req_EM_T (k_l k) 0) as [|N1]; [discriminate|].
  destruct (Req_EM_T (1 - tan (u_r u) * k_h k / k_l k) 0) as [|N2]; [discriminate|].
  injection H as <-. exists k. tauto.
Qed.

Definition car_turn (k : car) (u : steer) (d : Z) : R :=
  seconds d * (u_v u / (1 - tan (u_r u) * k_h k / k_l k)) / k_l k * tan (u_r u).

Lemma car_heading : forall k l s s1, - PI <= p_t (v_x s) <= PI ->
  List.Forall (fun ud => Rabs (car_turn k (fst ud) (snd ud)) <= 2 * PI) l ->
  run (step_car (Some k)) s l = Val s1 -> - PI <= p_t (v_x s1) <= PI.
Proof.
  intro k. induction l as [|[u d] l IH]; intros s s1 Hs F H.
  - cbn in H. injection H as <-. exact Hs.
  - inversion F as [|? ? F1 F2]; subst. cbn [run] in H.
    destruct (step_car (Some k) s s u d false) as [r| |] eqn:S; cbn [obind] in H; try discriminate.
    apply car_value in S. destruct S as (k' & E & _ & _ & ->). injection E as <-.
    apply (IH _ _) in H; [exact H| |exact F2]. cbn [fst v_x]. unfold move_car. cbn [p_t].
    apply wrap_once_ok. cbn [fst snd] in F1. apply Rabs_le_between in F1. unfold car_turn in F1. lra.
Qed.

Lemma car_turns : forall k l s s1, run (step_car (Some k)) s l = Val s1 ->
  exists n : Z, p_t (v_x s1) = p_t (v_x s) + fold_right (fun ud a => car_turn k (fst ud) (snd ud) + a) 0 l + IZR n * (2 * PI).
Proof.
  intro k. induction l as [|[u d] l IH]; intros s s1 H.
  - cbn in H. injection H as <-. exists 0%Z. cbn. lra.
  - cbn [run] in H.
    destruct (step_car (Some k) s s u d false) as [r| |] eqn:S; cbn [obind] in H; try discriminate.
    apply car_value in S. destruct S as (k' & E & _ & _ & ->). injection E as <-.
    apply IH in H. destruct H as [n H]. cbn [fst v_x] in H. unfold move_car in H. cbn [p_t] in H.
    fold (car_turn k u d) in H.
    destruct (wrap_once_turn (p_t (v_x s) + car_turn k u d)) as [m Hm].
    exists (m + n)%Z. rewrite plus_IZR. cbn [fold_right fst snd]. rewrite H, Hm. lra.
Qed.

(** ** Jacobian of the plane *)
Lemma principal_der : forall (a : R -> R) t a', is_derive a t a' -> principal (a t) <> PI ->
  is_derive (fun s => principal (a s)) t a'.
Proof.
  intros a t a' H N. destruct (principal_spec (a t)) as (_ & _ & B).
  assert (B' : - PI < principal (a t) < PI) by (destruct B as [B1 [B2|B2]]; [lra|contradiction]).
  destruct (principal_turn (a t)) as [k Hk].
  apply is_derive_ext_loc with (f := fun s => a s + IZR k * (2 * PI)).
  - assert (C : continuous a t) by (apply (ex_derive_continuous (K := R_AbsRing) (V := R_NormedModule)); exists a'; exact H).
    specialize (C (fun y => - PI - IZR k * (2 * PI) < y < PI - IZR k * (2 * PI))).
    assert (L : locally (a t) (fun y => - PI - IZR k * (2 * PI) < y < PI - IZR k * (2 * PI))).
    { apply open_and with (D := fun y => - PI - IZR k * (2 * PI) < y) (E := fun y => y < PI - IZR k * (2 * PI));
        [apply open_gt|apply open_lt|split; lra]. }
    apply C in L. unfold filtermap in L. revert L. apply filter_imp. intros s Hs.
    symmetry. apply angle_unique; [apply principal_spec|lra| |].
    + rewrite cos_turns. apply principal_spec.
    + rewrite sin_turns. apply principal_spec.
  - evar_last; [apply (is_derive_plus (V := R_NormedModule)); [exact H|apply is_derive_const]|].
    change (a' + 0 = a'). ring.
Qed.

Lemma jac_2d : forall (x y a : R -> R) t d u o S1 z dT s1 H, moves3 x y a t d ->
  step_2d o (Rv (P2 (x t) (y t) (a t)) S1 z) u dT true = Val (s1, Some H) ->
  p_t (v_x s1) <> PI ->
  let new := fun s => move_2d (P2 (x s) (y s) (a s)) u in
  is_derive (fun s => p_x (new s)) t (mapp 3 H d 0%nat - (sin (a t) * o_x u + cos (a t) * o_y u) * d 2%nat) /\
  is_derive (fun s => p_y (new s)) t (mapp 3 H d 1%nat + (cos (a t) * o_x u - sin (a t) * o_y u) * d 2%nat) /\
  is_derive (fun s => p_t (new s)) t (mapp 3 H d 2%nat).
Proof.
  intros x y a t d u o S1 z dT s1 H (Dx & Dy & Da) E N new. unfold step_2d in E. cbn [jac v_x v_time] in E.
  injection E as <- <-. cbn [v_x] in N. rewrite move_2d_eq in N. cbn [p_t] in N.
  assert (Em : forall s, new s = P2 (x s + (cos (a s) * o_x u - sin (a s) * o_y u))
     (y s + (sin (a s) * o_x u + cos (a s) * o_y u)) (principal (a s + o_t u))).
  { intro s. unfold new. rewrite move_2d_eq. reflexivity. }
  assert (Dc : is_derive (fun s => cos (a s)) t (- sin (a t) * d 2%nat)).
  { evar_last; [apply der_cos; exact Da|]. ring. }
  assert (Ds : is_derive (fun s => sin (a s)) t (cos (a t) * d 2%nat)).
  { evar_last; [apply der_sin; exact Da|]. ring. }
  unfold mapp, id_mx, dot. cbn [Nat.eqb].
  split; [|split].
  - apply is_derive_ext with (f := fun s => x s + (cos (a s) * o_x u - sin (a s) * o_y u)); [intro s; rewrite Em; reflexivity|].
    evar_last.
    + apply der_plus; [exact Dx|]. apply der_minus; apply der_mult; [exact Dc|apply (is_derive_const (V := R_NormedModule))|exact Ds|apply (is_derive_const (V := R_NormedModule))].
    + change (@zero R_NormedModule) with 0. cbv beta. ring.
  - apply is_derive_ext with (f := fun s => y s + (sin (a s) * o_x u + cos (a s) * o_y u)); [intro s; rewrite Em; reflexivity|].
    evar_last.
    + apply der_plus; [exact Dy|]. apply der_plus; apply der_mult; [exact Ds|apply (is_derive_const (V := R_NormedModule))|exact Dc|apply (is_derive_const (V := R_NormedModule))].
    + change (@zero R_NormedModule) with 0. cbv beta. ring.
  - apply is_derive_ext with (f := fun s => principal (a s + o_t u)); [intro s; rewrite Em; reflexivity|].
    evar_last; [apply principal_der; [|exact N]; apply (is_derive_plus (V := R_NormedModule)); [exact Da|apply is_derive_const]|].
    change (d 2%nat + 0 = 0 + 0 * d 0%nat + 0 * d 1%nat + 1 * d 2%nat). ring.
Qed.

Lemma compose_1d : forall o1 o2 o3 s u w d1 d2 d3 b1 b2 b3 s1 h1 s2 h2 s3 h3,
  step_1d o1 s u d1 b1 = Val (s1, h1) -> step_1d o2 s1 w d2 b2 = Val (s2, h2) ->
  step_1d o3 s (u + w) d3 b3 = Val (s3, h3) -> v_x s2 = v_x s3 /\ (u + w = 0 -> v_x s3 = v_x s).
Proof.
  unfold step_1d. intros o1 o2 o3 s u w d1 d2 d3 b1 b2 b3 s1 h1 s2 h2 s3 h3 H1 H2 H3.
  injection H1 as <- _. injection H2 as <- _. injection H3 as <- _. cbn [v_x]. split; [ring|]. intro E. rewrite E. ring.
Qed.

Lemma jac_1d : forall (x : R -> R) (t x' u : R) o S1 z dT s1 H, is_derive x t x' ->
  step_1d o (Rv (x t) S1 z) u dT true = Val (s1, Some H) ->
  is_derive (fun s => match step_1d o (Rv (x s) S1 z) u dT false with Val r => v_x (fst r) | _ => 0 end) t (H 0%nat 0%nat * x').
Proof.
  intros x t x' u o S1 z dT s1 H D E. unfold step_1d in E. injection E as _ <-. unfold step_1d. cbn [v_x fst].
  evar_last; [apply der_plus; [exact D|apply (is_derive_const (V := R_NormedModule))]|].
  unfold id_mx. cbn [Nat.eqb]. change (x' + 0 = 1 * x'). ring.
Qed.

Lemma heading_2d : forall l u d s s1, run step_2d s (l ++ [(u, d)]) = Val s1 -> - PI < p_t (v_x s1) <= PI.
Proof.
  induction l as [|[w e] l IH]; intros u d s s1 H.
  - cbn [app run] in H. unfold step_2d in H. cbn [obind fst] in H. injection H as <-. cbn [v_x].
    rewrite move_2d_eq. cbn [p_t]. apply principal_spec.
  - cbn [app run] in H. unfold step_2d at 1 in H. cbn [obind fst] in H. eapply IH. exact H.
Qed.
